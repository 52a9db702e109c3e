(** What a format of the printer means (C38). *)
From Verif Require Import Bytes SpecJson SpecNum.

Definition space_char (c : ascii) : Prop := code c = 32 \/ 9 <= code c <= 13.

(** Conversion of a 64-bit integer to a 32-bit one. *)
Definition wrap32 (z : Z) : Z := (z + 2 ^ 31) mod 2 ^ 32 - 2 ^ 31.

(** The text between two '$' and the number it stands for: nothing (0), or a decimal
    numeral with an optional sign, after white space. *)
Inductive reference : bytes -> Z -> Prop :=
  | ref_none : reference [] 0
  | ref_num sp (neg : bool) sign ds : Forall space_char sp ->
      (neg = true /\ sign = b "-") \/ (neg = false /\ (sign = [] \/ sign = b "+")) ->
      ds <> [] -> Forall (fun c => digit_char c = true) ds ->
      reference (sp ++ sign ++ ds) (wrap32 (wide true neg (dval ds))).

(** [prints vars fmt out].  The last two rules: the printer stops at a '$' without
    partner, and at a '$' followed by something that is no reference. *)
Inductive prints (vars : list bytes) : bytes -> bytes -> Prop :=
  | pr_nil : prints vars [] []
  | pr_char c f o : code c <> 36 -> code c <> 9 -> code c <> 8 -> prints vars f o -> prints vars (c :: f) (c :: o)
  | pr_tab c f o : code c = 9 -> prints vars f o -> prints vars (c :: f) (b "    " ++ o)
  | pr_back c f o : code c = 8 -> prints vars f o -> prints vars (c :: f) o
  | pr_arg r k arg f o : reference r (Z.of_nat (S k)) -> nth_error vars k = Some arg -> prints vars f o ->
      prints vars (b "$" ++ r ++ b "$" ++ f) (arg ++ o)
  | pr_skip r z f o : reference r z -> z <= 0 \/ Z.of_nat (length vars) < z -> prints vars f o ->
      prints vars (b "$" ++ r ++ b "$" ++ f) o
  | pr_open r : ~ In "$"%char r -> prints vars (b "$" ++ r) []
  | pr_bad r f : ~ In "$"%char r -> (forall z, ~ reference r z) -> prints vars (b "$" ++ r ++ b "$" ++ f) [].

(** A reference that overflows [int]. *)
Definition overflows (fmt : bytes) : Prop :=
  exists u r v, fmt = u ++ b "$" ++ r ++ v /\ reference r (- 2 ^ 31).

(** A format as its authors use it: text and references to existing arguments. *)
Inductive piece := PText (s : bytes) | PArg (k : nat).
Definition piece_ok (n : nat) (p : piece) : Prop :=
  match p with
  | PText s => ~ In NUL s /\ ~ In "$"%char s
  | PArg k => (1 <= k <= n)%nat
  end.
Definition piece_text (p : piece) : bytes :=
  match p with PText s => s | PArg k => b "$" ++ dec (Z.of_nat k) ++ b "$" end.
Definition format_text (l : list piece) : bytes := concat (map piece_text l).

(** What it prints. *)
Definition char_out (c : ascii) : bytes :=
  if code c =? 9 then b "    " else if code c =? 8 then [] else [c].
Definition piece_out (vars : list bytes) (p : piece) : bytes :=
  match p with PText s => concat (map char_out s) | PArg k => nth (k - 1) vars [] end.
Definition format_out (vars : list bytes) (l : list piece) : bytes := concat (map (piece_out vars) l).
