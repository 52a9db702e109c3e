(** Positions in a document, stated on its bytes. *)
From Verif Require Import Bytes SpecJson SpecErr.

(** Line and column of the byte after [pre]: 1 plus the number of line feeds in
    [pre], and 1 plus the number of bytes since the last one. *)
Definition line_col (pre : bytes) (line col : Z) : Prop :=
  line = 1 + Z.of_nat (count_occ ascii_dec pre LF) /\
  exists q r, pre = q ++ r /\ (q = [] \/ exists q', q = q' ++ [LF]) /\ ~ In LF r /\
              col = 1 + Z.of_nat (length r).

(** The inside of a string literal: no bare quote, no dangling backslash. *)
Inductive lit_body : bytes -> Prop :=
  | lb_nil : lit_body []
  | lb_raw c s : code c <> 34 -> code c <> 92 -> lit_body s -> lit_body (c :: s)
  | lb_esc c s : lit_body s -> lit_body (chr 92 :: c :: s).

(** [token_text u next]: [u] is a complete token when followed by [next]. *)
Inductive token_text : bytes -> bytes -> Prop :=
  | tt_punct c x : In (code c) [123; 125; 91; 93; 58; 44] -> token_text [c] x
  | tt_string s x : lit_body s -> token_text ([chr 34] ++ s ++ [chr 34]) x
  | tt_number u x : lax_number u -> match x with c :: _ => num_char c = false | [] => True end ->
      token_text u x
  | tt_word u x : In u [b "true"; b "false"; b "null"] ->
      match x with c :: _ => letter c = false | [] => True end -> token_text u x.

(** [boundary pre post]: in the document [pre ++ post], [pre] is a sequence of
    complete tokens and white space. *)
Inductive boundary : bytes -> bytes -> Prop :=
  | bd_start x : boundary [] x
  | bd_ws pre c x : boundary pre (c :: x) -> ws_char c = true -> boundary (pre ++ [c]) x
  | bd_token pre u x : boundary pre (u ++ x) -> token_text (drop_lf u) (drop_lf x) ->
      boundary (pre ++ u) x.

(** A token, or the end of the document, starts here. *)
Definition at_token (post : bytes) : Prop :=
  match post with c :: _ => ws_char c = false | [] => True end.

Definition at_quote (post : bytes) : Prop :=
  match post with c :: _ => code c = 34 | [] => False end.
