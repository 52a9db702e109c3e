(** What a stream still delivers after a value was read from it, stated on the text that
    follows the value. *)
From Verif Require Import Bytes StdIn SpecJson SpecErr SpecTok.

Definition no_lf_first (x : bytes) : Prop := match x with c :: _ => c <> LF | [] => True end.

(** No token begins this text, nor white space. *)
Definition no_token (x : bytes) : Prop :=
  match x with [] => False | c :: _ => ws_char c = false end /\ forall k u y, x = u ++ y -> ~ tok_text k (drop_lf u) (drop_lf y).

(** [follows post left]: [post] follows the value in the stream and [left] of it remains;
    [None] if the stream is at its end and has failed.  White space is taken, and one more
    token, and line feeds after it, and one more character. *)
Inductive follows : bytes -> option bytes -> Prop :=
  | fo_end w : ws w -> follows w None
  | fo_token w u k x : ws w -> tok_text k (drop_lf u) (drop_lf x) -> no_lf_first x ->
      follows (w ++ u ++ x) (match x with [] => None | _ :: r => Some r end)
  (* not a token: part of it is taken, and one more character *)
  | fo_other w m x : ws w -> no_token (m ++ x) -> no_lf_first x ->
      follows (w ++ m ++ x) (match x with [] => None | _ :: r => Some r end).

(** The characters that are tokens by themselves. *)
Definition mark (c : ascii) : Prop := In c (b "{}[]:,").

(** Without the line feeds at its beginning. *)
Fixpoint past_lf (x : bytes) : bytes :=
  match x with c :: r => if Ascii.eqb c LF then past_lf r else x | [] => [] end.

(** What a stream delivers. *)
Definition had (s : std_in) : bytes := if si_failed s then [] else si_text s.
(** The stream [s] with [Some r] left of it, or [None] after it was read beyond its end.
    The flag [skipws] is what it was, and a stream that had failed is what it was. *)
Definition left_in (s : std_in) (l : option bytes) : std_in :=
  match l with
  | Some r => SIn r false (si_skipws s)
  | None => SIn (if si_failed s then si_text s else []) true (si_skipws s)
  end.

(** White space for the stream itself in the "C" locale: space, \t, \n, \v, \f, \r. *)
Definition blank (c : ascii) : Prop := In c (map chr [32; 9; 10; 11; 12; 13]).
