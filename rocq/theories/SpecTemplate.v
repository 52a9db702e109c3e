(** What the template tool is meant to produce (C39). *)
From Verif Require Import Bytes SpecProto.

Fixpoint join (sep : bytes) (l : list bytes) : bytes :=
  match l with [] => [] | [x] => x | x :: r => x ++ sep ++ join sep r end.

(** [x] is [line] with every "_X_Y_Z" replaced by the version. *)
Definition versioned (naming line x : bytes) : Prop :=
  exists us, us <> [] /\ Forall (fun u => ~ occurs (b "_X_Y_Z") u) us /\
    line = join (b "_X_Y_Z") us /\ x = join naming us.

(** PROTOGEN_VERSION_NAMING, cmake.hh.in:8. *)
Definition version_naming (naming : bytes) : Prop :=
  exists x y z, 0 <= x /\ 0 <= y /\ 0 <= z /\ naming = b "_" ++ dec x ++ b "_" ++ dec y ++ b "_" ++ dec z.

(** A preprocessor line meant for the source tree only. *)
Definition auto_remove (line : bytes) : Prop := (exists r, line = b "#" ++ r) /\ occurs (b "AUTO-REMOVE") line.

(** The text embedded for the lines of a header. *)
Inductive embedded (naming : bytes) : list bytes -> bytes -> Prop :=
  | em_nil : embedded naming [] []
  | em_drop line r t : auto_remove line -> embedded naming r t -> embedded naming (line :: r) t
  | em_line line x r t : ~ auto_remove line -> versioned naming line x -> embedded naming r t ->
      embedded naming (line :: r) (x ++ [LF] ++ t).

(** No trigraph of C++11. *)
Definition no_trigraph (s : bytes) : Prop :=
  forall u c v, s = u ++ b "??" ++ c :: v -> ~ In c (b "=/'()!<>-").

(** A file: lines that end with a line feed, and what follows the last one. *)
Definition file_text (ls : list bytes) (last : bytes) : bytes := concat (map (fun l => l ++ [LF]) ls) ++ last.
Definition line_ok (l : bytes) : Prop := ~ In LF l.

(** Macro names. *)
Definition macro_char (c : ascii) : Prop :=
  c = "_"%char \/ 65 <= code c <= 90 \/ 97 <= code c <= 122.
Definition macro_name (w : bytes) : Prop := Forall macro_char w.

(** The sections of a template file: [--- NAME], lines, [------]. *)
Definition starts (p l : bytes) : Prop := exists r, l = p ++ r.
Inductive sections : list bytes -> list (bytes * list bytes) -> Prop :=
  | sc_nil : sections [] []
  | sc_other l r s : ~ starts (b "--- ") l -> sections r s -> sections (l :: r) s
  | sc_section name body e r s : Forall (fun l => ~ starts (b "------") l) body -> starts (b "------") e ->
      sections r s -> sections ((b "--- " ++ name) :: body ++ e :: r) ((name, body) :: s).
