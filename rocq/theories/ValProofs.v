(** clear, empty, equal, swap, assignment (C19, C20). *)
From Verif Require Import Bytes BaseProofs Num Dbl Types Stream Tokenizer Write Read
  SpecJson SpecVal Termination ReadSim ApiProofs.

Section ValInd.
  Variable P : val -> Prop.
  Hypothesis HP : forall p, P (VPrim p).
  Hypothesis HF : forall e p, P (VField e p).
  Hypothesis HS : forall n s, P (VStr n s).
  Hypothesis HB : forall s, P (VB64 s).
  Hypothesis HL : forall l, Forall P l -> P (VList l).
  Hypothesis HM : forall l, Forall P l -> P (VMsg l).
  Fixpoint val_ind2 (v : val) : P v :=
    match v with
    | VPrim p => HP p
    | VField e p => HF e p
    | VStr n s => HS n s
    | VB64 s => HB s
    | VList l => HL l ((fix go l : Forall P l :=
                          match l with [] => Forall_nil _ | x :: r => Forall_cons _ (val_ind2 x) (go r) end) l)
    | VMsg l => HM l ((fix go l : Forall P l :=
                          match l with [] => Forall_nil _ | x :: r => Forall_cons _ (val_ind2 x) (go r) end) l)
    end.
End ValInd.

Lemma pclear_zero p : pval_is_zero (pval_clear p) = true.
Proof. destruct p; reflexivity. Qed.

Lemma clear_empty v : vempty (vclear v) = true.
Proof.
  induction v using val_ind2; try reflexivity.
  - apply pclear_zero.
  - cbn [vclear vempty]. rewrite forallb_forall. intros x I. apply in_map_iff in I as (y & <- & I).
    rewrite Forall_forall in H. auto.
Qed.

Lemma pclear_dflt p x : pval_ok p x = true -> pval_clear x = pzero p.
Proof. destruct p, x; simpl; congruence || reflexivity. Qed.

Lemma clear_dflt t : forall v, has_ty t v = true -> vclear v = dflt t.
Proof.
  induction t using ty_ind2; intros v V; destruct v; try discriminate; try reflexivity.
  - cbn [vclear dflt]. f_equal. now apply pclear_dflt.
  - cbn [vclear dflt]. f_equal. now apply pclear_dflt.
  - cbn [vclear dflt]. f_equal. cbn [has_ty] in V. revert l V.
    induction H as [|t ms Ht Hms IH]; intros [|v l] V; try discriminate; [reflexivity|].
    apply andb_prop in V as [V1 V2]. cbn [map]. f_equal; auto.
Qed.

(** ** equal *)
Fixpoint all2 (l m : list val) {struct l} : bool :=
  match l, m with
  | [], [] => true
  | u :: l', v :: m' => vequal u v && all2 l' m'
  | _, _ => false
  end.

Lemma vequal_list l m : vequal (VList l) (VList m) = all2 l m.
Proof. reflexivity. Qed.
Lemma vequal_msg l m : vequal (VMsg l) (VMsg m) = all2 l m.
Proof. reflexivity. Qed.

Lemma all2_same (R : val -> val -> Prop) l : (forall x, In x l -> forall y, vequal x y = true <-> R x y) ->
  forall m, all2 l m = true <-> Forall2 R l m.
Proof.
  induction l as [|x l IH]; intros H [|y m]; cbn [all2].
  - split; [constructor|reflexivity].
  - split; [discriminate|]. intros F; inversion F.
  - split; [discriminate|]. intros F; inversion F.
  - rewrite andb_true_iff, IH by (intros; apply H; now right). rewrite H by (now left).
    split; [intros []; now constructor|]. intros F; inversion F; auto.
Qed.

Lemma dbl_eqb_num x y : dbl_eqb x y = true <-> deq x y.
Proof.
  split.
  - destruct x, y; simpl; intros H; try discriminate; try constructor.
    + apply eqb_prop in H. subst. constructor.
    + rewrite !andb_true_iff in H. destruct H as ((A & B) & C). apply eqb_prop in A.
      apply Pos.eqb_eq in B. apply Z.eqb_eq in C. subst. constructor.
  - intros H; inversion H; subst; simpl; auto; rewrite ?eqb_reflx, ?Pos.eqb_refl, ?Z.eqb_refl; reflexivity.
Qed.

Lemma pval_eqb_eq x y : pval_eqb x y = true <-> peq x y.
Proof.
  split.
  - destruct x, y; simpl; intros H; try discriminate.
    + apply Z.eqb_eq in H. subst. constructor.
    + constructor. now apply dbl_eqb_num.
    + apply eqb_prop in H. subst. constructor.
  - intros H; inversion H; subst; simpl; auto using Z.eqb_refl, eqb_reflx. now apply dbl_eqb_num.
Qed.

Lemma vequal_veq x : forall y, vequal x y = true <-> veq x y.
Proof.
  induction x using val_ind2; intros y.
  - split.
    + destruct y; try discriminate. intros H. constructor. now apply pval_eqb_eq.
    + intros H; inversion H; subst. now apply pval_eqb_eq.
  - split.
    + destruct y; try discriminate. cbn [vequal]. rewrite andb_true_iff. intros [A B]. apply eqb_prop in A.
      subst. constructor. now apply pval_eqb_eq.
    + intros H; inversion H; subst. cbn [vequal]. rewrite eqb_reflx. now apply pval_eqb_eq.
  - split.
    + destruct y; try discriminate. cbn [vequal]. rewrite andb_true_iff. intros [A B]. apply eqb_prop in A.
      apply bytes_eqb_true in B. subst. constructor.
    + intros H; inversion H; subst. cbn [vequal]. rewrite eqb_reflx. now apply bytes_eqb_true.
  - split.
    + destruct y; try discriminate. cbn [vequal]. intros B. apply bytes_eqb_true in B. subst. constructor.
    + intros H; inversion H; subst. cbn [vequal]. now apply bytes_eqb_true.
  - rewrite Forall_forall in H. split.
    + destruct y; try discriminate. rewrite vequal_list. intros E. constructor.
      revert E. now apply all2_same.
    + intros V; inversion V; subst. rewrite vequal_list. now apply (all2_same veq).
  - rewrite Forall_forall in H. split.
    + destruct y; try discriminate. rewrite vequal_msg. intros E. constructor.
      revert E. now apply all2_same.
    + intros V; inversion V; subst. rewrite vequal_msg. now apply (all2_same veq).
Qed.

Lemma deq_sym x y : deq x y -> deq y x.
Proof. intros H; inversion H; constructor. Qed.
Lemma peq_sym x y : peq x y -> peq y x.
Proof. intros H; inversion H; subst; constructor. now apply deq_sym. Qed.

Lemma veq_sym x : forall y, veq x y -> veq y x.
Proof.
  induction x using val_ind2; intros y V; inversion V; subst; constructor; auto using peq_sym.
  - clear V. match goal with F : Forall2 _ _ ?m |- _ => revert m F end. induction H as [|x l Hx Hl IH]; intros m F; inversion F; subst; constructor; auto.
  - clear V. match goal with F : Forall2 _ _ ?m |- _ => revert m F end. induction H as [|x l Hx Hl IH]; intros m F; inversion F; subst; constructor; auto.
Qed.

Lemma deq_trans x y z : deq x y -> deq y z -> deq x z.
Proof. intros A B; inversion A; subst; inversion B; subst; constructor. Qed.
Lemma peq_trans x y z : peq x y -> peq y z -> peq x z.
Proof. intros A B; inversion A; subst; inversion B; subst; constructor. eauto using deq_trans. Qed.

Lemma veq_trans x : forall y z, veq x y -> veq y z -> veq x z.
Proof.
  induction x using val_ind2; intros y z A B; inversion A; subst; inversion B; subst; constructor;
    eauto using peq_trans.
  - clear A B. match goal with F : Forall2 _ l ?m, G : Forall2 _ ?m ?n |- _ => revert m n F G end. induction H as [|x l Hx Hl IH]; intros m n F G; inversion F; subst;
      inversion G; subst; constructor; eauto.
  - clear A B. match goal with F : Forall2 _ l ?m, G : Forall2 _ ?m ?n |- _ => revert m n F G end. induction H as [|x l Hx Hl IH]; intros m n F G; inversion F; subst;
      inversion G; subst; constructor; eauto.
Qed.

Lemma veq_refl x : no_nan x -> veq x x.
Proof.
  induction x using val_ind2; intros N; constructor.
  - inversion N as [? X|? ? X| | | |]; subst. destruct p as [|d|]; constructor.
    destruct d; try constructor. exfalso. now apply X.
  - inversion N as [? X|? ? X| | | |]; subst. destruct p as [|d|]; constructor.
    destruct d; try constructor. exfalso. now apply X.
  - inversion N as [| | | |? F|? F]; subst. clear N. induction H as [|x l Hx Hl IH]; inversion F; subst; constructor; auto.
  - inversion N as [| | | |? F|? F]; subst. clear N. induction H as [|x l Hx Hl IH]; inversion F; subst; constructor; auto.
Qed.

(** ** swap *)
Lemma swap_lemma t : forall x y, has_ty t x = true -> has_ty t y = true -> vswap x y = (y, x).
Proof.
  induction t using ty_ind2; intros x y X Y; destruct x; try discriminate; destruct y; try discriminate;
    try reflexivity.
  cbn [has_ty] in X, Y. cbn [vswap]. revert l l0 X Y.
  induction H as [|t ms Ht Hms IH]; intros [|v l] [|w m] X Y; try discriminate; [reflexivity|].
  apply andb_prop in X as [X1 X2]. apply andb_prop in Y as [Y1 Y2]. rewrite (Ht v w X1 Y1).
  specialize (IH l m X2 Y2).
  match goal with |- context [let '(_, _) := ?g l m in _] => destruct (g l m) as [a c] end.
  injection IH as -> ->. reflexivity.
Qed.

(** ** assignment *)
Lemma assign_lemma reuse x : forall y, all_set y -> vassign reuse x y = y.
Proof.
  induction x using val_ind2; intros y S; destruct y; try reflexivity.
  - inversion S; subst. reflexivity.
  - inversion S; subst. reflexivity.
  - inversion S as [| | | |l' F|]; subst. cbn [vassign]. destruct (reuse l l0); [|reflexivity]. f_equal.
    clear S. revert l0 F. induction H as [|x l Hx Hl IH]; intros m F; [reflexivity|].
    destruct m as [|y m]; [reflexivity|]. inversion F; subst. f_equal; auto.
  - inversion S as [| | | | |l' F]; subst. cbn [vassign]. f_equal.
    clear S. revert l0 F. induction H as [|x l Hx Hl IH]; intros m F; [reflexivity|].
    destruct m as [|y m]; [reflexivity|]. inversion F; subst. f_equal; auto.
Qed.

Lemma empty_fields :
  (forall e p, vempty (VField e p) = true <-> e = true) /\
  (forall null s, vempty (VStr null s) = true <-> null = true /\ s = []) /\
  (forall s, vempty (VB64 s) = true <-> s = []) /\ (forall l, vempty (VList l) = true <-> l = []) /\
  (forall z, vempty (VPrim (VInt z)) = true <-> z = 0) /\ (forall x, vempty (VPrim (VBool x)) = true <-> x = false).
Proof.
  split; [reflexivity|]. split.
  - intros [] [|c s]; simpl; split; try intros [? ?]; try intros ?; try split; congruence.
  - split; [intros [|c s]; simpl; split; congruence|]. split; [intros [|c s]; simpl; split; congruence|].
    split; [exact (fun z => Z.eqb_eq z 0)|]. intros []; cbn; split; congruence.
Qed.
