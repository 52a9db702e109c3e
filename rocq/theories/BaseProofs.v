(** Lemmas on bytes. *)
From Verif Require Import Bytes.
From Coq Require Export Lia ZifyBool.
Ltac Zify.zify_post_hook ::= Z.div_mod_to_equations.

Arguments b _ : simpl never.
Arguments chr _ : simpl never.
Arguments code _ : simpl never.
Arguments schar _ : simpl never.
Arguments Z.add : simpl never.
Arguments Z.sub : simpl never.
Arguments Z.mul : simpl never.
Arguments Z.div : simpl never.
Arguments Z.modulo : simpl never.
Arguments Z.lor : simpl never.
Arguments Z.land : simpl never.
Arguments Z.shiftl : simpl never.
Arguments Z.shiftr : simpl never.
Arguments Z.pow : simpl never.

(** Case analysis on a byte: 256 goals. *)
Ltac byte_cases c := destruct c as [[] [] [] [] [] [] [] []].

Lemma code_range c : 0 <= code c < 256.
Proof. unfold code. pose proof (N_ascii_bounded c). lia. Qed.

Lemma chr_code c : chr (code c) = c.
Proof.
  unfold chr. rewrite Z.mod_small by apply code_range.
  unfold code. rewrite N2Z.id. apply ascii_N_embedding.
Qed.

Lemma code_chr z : code (chr z) = z mod 256.
Proof.
  unfold code, chr. rewrite N_ascii_embedding.
  - rewrite Z2N.id; lia.
  - lia.
Qed.

Lemma code_chr_small z : 0 <= z < 256 -> code (chr z) = z.
Proof. intros. rewrite code_chr. lia. Qed.

Lemma code_inj c d : code c = code d -> c = d.
Proof. intros H. rewrite <- (chr_code c), <- (chr_code d), H. reflexivity. Qed.

Lemma chr_schar c : chr (schar c) = c.
Proof.
  unfold schar. destruct (code c <? 128).
  - apply chr_code.
  - unfold chr. replace ((code c - 256) mod 256) with (code c mod 256) by lia.
    apply chr_code.
Qed.

Lemma schar_range c : -128 <= schar c < 128.
Proof. unfold schar. pose proof (code_range c). destruct (Z.ltb_spec (code c) 128); lia. Qed.

Lemma schar_code c z : 0 <= z < 128 -> (schar c = z <-> code c = z).
Proof. unfold schar. pose proof (code_range c). destruct (Z.ltb_spec (code c) 128); lia. Qed.

Lemma schar_eqb c z : 0 <= z < 128 -> (schar c =? z) = (code c =? z).
Proof. intros. unfold schar. pose proof (code_range c). destruct (Z.ltb_spec (code c) 128); lia. Qed.

Lemma schar_neg c : schar c < 0 <-> 128 <= code c.
Proof. unfold schar. pose proof (code_range c). destruct (Z.ltb_spec (code c) 128); lia. Qed.

Lemma ascii_eqb_code c d : Ascii.eqb c d = (code c =? code d).
Proof.
  destruct (Ascii.eqb_spec c d) as [->|N].
  - lia.
  - symmetry. apply Z.eqb_neq. intro E. apply N, code_inj, E.
Qed.

Lemma bytes_eqb_true x y : bytes_eqb x y = true <-> x = y.
Proof. unfold bytes_eqb. destruct (list_eq_dec ascii_dec x y); split; congruence. Qed.

Lemma bytes_eqb_false x y : bytes_eqb x y = false <-> x <> y.
Proof. unfold bytes_eqb. destruct (list_eq_dec ascii_dec x y); split; congruence. Qed.

Lemma bytes_eqb_refl x : bytes_eqb x x = true.
Proof. apply bytes_eqb_true. reflexivity. Qed.

(** ** [cstr] *)
Lemma cstr_id s : ~ In NUL s -> cstr s = s.
Proof.
  induction s as [|c r IH]; simpl; intros H; [reflexivity|].
  destruct (Ascii.eqb_spec c NUL); [exfalso; auto|]. rewrite IH; auto.
Qed.

Lemma cstr_no_nul s : ~ In NUL (cstr s).
Proof.
  induction s as [|c r IH]; simpl; [auto|].
  destruct (Ascii.eqb_spec c NUL); simpl; intuition.
Qed.

(** ** [span] *)
Lemma span_app {A} (p : A -> bool) l : fst (span p l) ++ snd (span p l) = l.
Proof.
  induction l as [|x r IH]; simpl; [reflexivity|].
  destruct (p x); simpl; [|reflexivity]. destruct (span p r); simpl in *. congruence.
Qed.

Lemma span_all {A} (p : A -> bool) l : forallb p (fst (span p l)) = true.
Proof.
  induction l as [|x r IH]; simpl; [reflexivity|].
  destruct (p x) eqn:E; simpl; [|reflexivity]. destruct (span p r); simpl in *.
  now rewrite E.
Qed.

Definition stops {A} (p : A -> bool) (l : list A) : Prop :=
  match l with [] => True | x :: _ => p x = false end.

Lemma span_stops {A} (p : A -> bool) l : stops p (snd (span p l)).
Proof.
  induction l as [|x r IH]; simpl; [exact I|].
  destruct (p x) eqn:E; simpl; [|exact E]. destruct (span p r); simpl in *. exact IH.
Qed.

Lemma span_exact {A} (p : A -> bool) u v :
  forallb p u = true -> stops p v -> span p (u ++ v) = (u, v).
Proof.
  induction u as [|x r IH]; simpl; intros H S.
  - destruct v as [|y t]; simpl in *; [reflexivity|]. now rewrite S.
  - apply andb_prop in H as [-> H]. now rewrite IH.
Qed.

Lemma span_length {A} (p : A -> bool) l : (length (snd (span p l)) <= length l)%nat.
Proof.
  rewrite <- (span_app p l) at 2. rewrite app_length. lia.
Qed.

(** ** [set_nth] *)
Lemma set_nth_length {A} k (x : A) l : length (set_nth k x l) = length l.
Proof. revert k; induction l; intros [|k]; simpl; auto. Qed.

Lemma nth_error_set_nth_eq {A} k (x : A) l :
  (k < length l)%nat -> nth_error (set_nth k x l) k = Some x.
Proof.
  revert k; induction l; intros [|k]; simpl; intros; try lia; auto.
  apply IHl. lia.
Qed.

Lemma nth_error_set_nth_neq {A} k j (x : A) l :
  k <> j -> nth_error (set_nth k x l) j = nth_error l j.
Proof.
  revert k j; induction l as [|a l IH]; intros [|k] [|j] H; simpl; auto; try congruence.
Qed.

Lemma set_nth_same {A} k (x : A) l : nth_error l k = Some x -> set_nth k x l = l.
Proof.
  revert k; induction l as [|a l IH]; intros [|k]; simpl; intros H; try congruence.
  f_equal. auto.
Qed.

Lemma Forall2_set_nth {A B} (R : A -> B -> Prop) la lb k a y :
  Forall2 R la lb -> nth_error la k = Some a -> R a y -> Forall2 R la (set_nth k y lb).
Proof.
  intros H. revert k. induction H; intros [|k]; simpl; intros E Ry; try congruence.
  - injection E as ->. now constructor.
  - constructor; auto.
Qed.

Lemma Forall2_nth_error {A B} (R : A -> B -> Prop) la lb k a :
  Forall2 R la lb -> nth_error la k = Some a -> exists y, nth_error lb k = Some y /\ R a y.
Proof.
  intros H. revert k. induction H; intros [|k]; simpl; intros E; try congruence; eauto.
  injection E as ->; eauto.
Qed.
