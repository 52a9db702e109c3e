(** Assignment (C20): when the target is equal to the source. *)
From Verif Require Import Bytes BaseProofs Num Dbl Types Stream Tokenizer Write Read
  SpecJson SpecVal SpecAssign Termination ReadSim ApiProofs ValProofs.

(** The two inner loops of [vassign]. *)
Fixpoint assign_elems reuse (l m : list val) {struct l} : list val :=
  match l, m with
  | u :: l', v :: m' => vassign reuse u v :: assign_elems reuse l' m'
  | [], _ => m
  | _, [] => []
  end.
Fixpoint assign_fields reuse (l m : list val) {struct l} : list val :=
  match l, m with
  | u :: l', v :: m' => vassign reuse u v :: assign_fields reuse l' m'
  | _, _ => m
  end.
Lemma assign_list reuse l m : vassign reuse (VList l) (VList m) = VList (if reuse l m then assign_elems reuse l m else m).
Proof.
  cbn [vassign]. destruct (reuse l m); [|reflexivity]. f_equal. revert m.
  induction l as [|u l IH]; intros [|v m]; try reflexivity. cbn [assign_elems]. f_equal. apply IH.
Qed.
Lemma assign_msg reuse l m : vassign reuse (VMsg l) (VMsg m) = VMsg (assign_fields reuse l m).
Proof.
  cbn [vassign]. f_equal. revert m.
  induction l as [|u l IH]; intros [|v m]; try reflexivity. cbn [assign_fields]. f_equal. apply IH.
Qed.
Lemma assign_same reuse l : forall m, assign_elems reuse l m = assign_fields reuse l m.
Proof. induction l as [|u l IH]; intros [|v m]; cbn; try reflexivity. now rewrite IH. Qed.

Lemma veq_list_iff l m : veq (VList l) (VList m) <-> Forall2 veq l m.
Proof. split; intros H; [now inversion H|now constructor]. Qed.
Lemma veq_msg_iff l m : veq (VMsg l) (VMsg m) <-> Forall2 veq l m.
Proof. split; intros H; [now inversion H|now constructor]. Qed.

Lemma no_nan_veq y : no_nan y -> veq y y.
Proof. apply veq_refl. Qed.

Lemma fields_iff reuse l : Forall (fun x => forall t y, has_ty t x = true -> has_ty t y = true -> no_nan y ->
    (veq (vassign reuse x y) y <-> harmless reuse x y)) l ->
  forall m, (forall i u v, nth_error l i = Some u -> nth_error m i = Some v -> exists t, has_ty t u = true /\ has_ty t v = true) ->
  Forall no_nan m ->
  (Forall2 veq (assign_fields reuse l m) m <->
   (forall i u v, nth_error l i = Some u -> nth_error m i = Some v -> harmless reuse u v)).
Proof.
  induction 1 as [|x l Hx Hl IH]; intros m T N.
  - assert (R : Forall2 veq m m) by (clear T; induction N; [apply Forall2_nil|apply Forall2_cons; auto using no_nan_veq]). cbn [assign_fields].
    split; intros _; [|destruct m; exact R]. intros [|i] u v E; discriminate.
  - destruct m as [|y m].
    + cbn [assign_fields]. split; intros _; [|constructor]. intros [|i] u v _ E; discriminate.
    + cbn [assign_fields]. inversion N as [|? ? N1 N2]; subst.
      destruct (T O x y eq_refl eq_refl) as (t & T1 & T2).
      assert (T' : forall i u v, nth_error l i = Some u -> nth_error m i = Some v -> exists t, has_ty t u = true /\ has_ty t v = true)
        by (intros i; exact (T (S i))).
      pose proof (IH m T' N2) as IH'. pose proof (Hx t y T1 T2 N1) as Hxy. split.
      * intros F. inversion F; subst. intros [|i] u v E1 E2.
        -- injection E1 as <-. injection E2 as <-. now apply Hxy.
        -- now apply (proj1 IH' ltac:(assumption) i).
      * intros A. constructor; [apply Hxy; now apply (A O)|]. apply IH'. intros i. exact (A (S i)).
Qed.

Lemma rep_typed t l m : forallb (has_ty t) l = true -> forallb (has_ty t) m = true ->
  forall i u v, nth_error l i = Some u -> nth_error m i = Some v -> exists t, has_ty t u = true /\ has_ty t v = true.
Proof.
  intros L M i u v E1 E2. rewrite forallb_forall in L, M. exists t. split; [apply L|apply M]; eapply nth_error_In; eassumption.
Qed.

Lemma msg_typed ms : forall g l m, has_ty (TMsg ms g) (VMsg l) = true -> has_ty (TMsg ms g) (VMsg m) = true ->
  forall i u v, nth_error l i = Some u -> nth_error m i = Some v -> exists t, has_ty t u = true /\ has_ty t v = true.
Proof.
  induction ms as [|t ms IH]; intros g [|x l] [|y m] L M; try discriminate.
  - intros [|i] u v E; discriminate.
  - cbn [has_ty] in L, M. apply andb_prop in L as [L1 L2]. apply andb_prop in M as [M1 M2].
    intros [|i] u v E1 E2.
    + injection E1 as <-. injection E2 as <-. eauto.
    + apply (IH g l m L2 M2 i u v E1 E2).
Qed.

Lemma peq_no_nan p : ~ pnan p -> peq p p.
Proof.
  intros N. assert (V : no_nan (VField true p)) by now constructor. apply no_nan_veq in V. now inversion V.
Qed.

Lemma assign_iff reuse x : forall t y, has_ty t x = true -> has_ty t y = true -> no_nan y ->
  (veq (vassign reuse x y) y <-> harmless reuse x y).
Proof.
  induction x using val_ind2; intros t y X Y N; destruct t; try discriminate X; destruct y; try discriminate Y.
  - inversion N; subst. split; intros _; constructor. now apply peq_no_nan.
  - inversion N; subst. cbn [vassign]. destruct e0.
    + split; intros A; [inversion A; subst; now constructor|inversion A; subst; now constructor].
    + split; intros _; constructor. now apply peq_no_nan.
  - cbn [vassign]. destruct null.
    + split; intros A; inversion A; subst; constructor.
    + split; intros _; constructor.
  - split; intros _; constructor.
  - rewrite assign_list, veq_list_iff. inversion N as [| | | |? N1|]; subst.
    destruct (reuse l l0) eqn:R.
    + rewrite assign_same. rewrite (fields_iff reuse l H l0 (rep_typed t l l0 X Y) N1).
      split; intros A; [now apply hl_list|]. inversion A; subst; [congruence|assumption].
    + split; intros _; [now apply hl_fresh|]. clear -N1. induction N1; [apply Forall2_nil|apply Forall2_cons; auto using no_nan_veq].
  - rewrite assign_msg, veq_msg_iff. inversion N as [| | | | |? N1]; subst.
    rewrite (fields_iff reuse l H l0 (msg_typed _ _ l l0 X Y) N1).
    split; intros A; [now apply hl_msg|]. now inversion A.
Qed.

(** *** Assignment to a new object *)
Lemma assign_new reuse t : forall y, has_ty t y = true -> tidy y -> vassign reuse (dflt t) y = y.
Proof.
  induction t using ty_ind2; intros y Y T; destruct y; try discriminate Y; cbn [dflt].
  - reflexivity.
  - inversion T as [|q|q A| | | | |]; subst; [reflexivity|]. cbn [vassign]. f_equal. cbn [has_ty] in Y.
    match goal with A : ?q = VInt 0 \/ _ |- _ => destruct p; destruct q; try discriminate Y end; cbn [pzero]; intuition congruence.
  - inversion T; subst; reflexivity.
  - reflexivity.
  - rewrite assign_list. destruct (reuse [] l); reflexivity.
  - rewrite assign_msg. f_equal. inversion T as [| | | | | | |? T1]; subst.
    clear T. cbn [has_ty] in Y. revert l Y T1. induction H as [|t ms Ht Hms IH]; intros [|y l] Y T1; try discriminate Y; [reflexivity|].
    apply andb_prop in Y as [Y1 Y2]. inversion T1; subst. cbn [map assign_fields]. f_equal; auto.
Qed.

(** *** The text of the target *)
Inductive but_unset : val -> val -> Prop :=
  | bu_same v : but_unset v v
  | bu_unset p q : but_unset (VField true p) (VField true q)
  | bu_list l m : Forall2 but_unset l m -> but_unset (VList l) (VList m)
  | bu_msg l m : Forall2 but_unset l m -> but_unset (VMsg l) (VMsg m).

Lemma but_unset_all l : Forall2 but_unset l l.
Proof. induction l; constructor; auto using bu_same. Qed.

Lemma assign_but_unset reuse x : forall y, strings_set y -> but_unset (vassign reuse x y) y.
Proof.
  assert (F : forall l, Forall (fun x => forall y, strings_set y -> but_unset (vassign reuse x y) y) l ->
    forall m, Forall strings_set m -> Forall2 but_unset (assign_fields reuse l m) m).
  { induction 1 as [|z l Hx Hl IH]; intros m S; [destruct m; apply but_unset_all|].
    destruct S as [|y m S1 S2]; [apply but_unset_all|]. cbn [assign_fields]. constructor; auto. }
  induction x using val_ind2; intros y S; destruct y; try apply bu_same.
  - cbn [vassign]. destruct e0; [apply bu_unset|apply bu_same].
  - inversion S; subst. apply bu_same.
  - rewrite assign_list. inversion S; subst. constructor. destruct (reuse l l0); [|apply but_unset_all].
    rewrite assign_same. now apply F.
  - rewrite assign_msg. inversion S; subst. constructor. now apply F.
Qed.

Lemma but_unset_empty u : forall v, but_unset u v -> vempty u = vempty v.
Proof.
  induction u using val_ind2; intros v B; inversion B; subst; try reflexivity.
  - cbn [vempty]. match goal with F : Forall2 but_unset _ _ |- _ => destruct F; reflexivity end.
  - cbn [vempty]. match goal with F : Forall2 but_unset _ _ |- _ => rename F into FF end. clear B.
    induction FF; [reflexivity|]. inversion H; subst. cbn [forallb]. f_equal; auto.
Qed.

Lemma but_unset_write ea sn t : forall u v e, but_unset u v -> write ea sn t u e = write ea sn t v e.
Proof.
  induction t using ty_ind2; intros u v e B; inversion B; subst; try reflexivity; cbn [write].
  - match goal with F : Forall2 but_unset _ _ |- _ => rename F into FF end. clear B.
    assert (E : forall e, write_elems (write ea sn t) l e = write_elems (write ea sn t) m e); [|now rewrite E].
    induction FF as [|u v l m B F IHF]; intros e1; [reflexivity|]. cbn [write_elems]. rewrite (IHt u v e1 B).
    destruct (write ea sn t v e1) as [[r o] e2].
    destruct F; [reflexivity|]. rewrite IHF. reflexivity.
  - match goal with F : Forall2 but_unset _ _ |- _ => rename F into FF end. clear B.
    assert (E : forall items f e, write_items sn (map (write ea sn) ms) l items f e = write_items sn (map (write ea sn) ms) m items f e);
      [|now rewrite E].
    assert (N : forall k, match nth_error l k, nth_error m k with Some u, Some v => but_unset u v | None, None => True | _, _ => False end).
    { clear -FF. induction FF; intros [|k]; cbn; auto. apply IHFF. }
    induction items as [|[k label] items IHi]; intros f e1; [reflexivity|]. cbn [write_items].
    specialize (N k). rewrite nth_error_map.
    destruct (nth_error l k) as [u|], (nth_error m k) as [v|]; try contradiction; [|rewrite IHi; reflexivity].
    destruct (nth_error ms k) as [t|] eqn:T; cbn [option_map]; [|apply IHi].
    rewrite (but_unset_empty u v N). destruct (sn || negb (vempty v)); [|apply IHi].
    rewrite Forall_forall in H. rewrite (H t (nth_error_In _ _ T) u v e1 N).
    destruct (write ea sn t v e1) as [[r o] e2]. rewrite IHi. reflexivity.
Qed.

Lemma assign_text reuse t x y po : strings_set y ->
  vempty (vassign reuse x y) = vempty y /\ serialize t (vassign reuse x y) po = serialize t y po.
Proof.
  intros S. pose proof (assign_but_unset reuse x y S) as B. split; [now apply but_unset_empty|].
  unfold serialize. now rewrite (but_unset_write _ _ t _ _ _ B).
Qed.

Lemma assign_equal : forall reuse t x y, has_ty t x = true -> has_ty t y = true -> no_nan y ->
  (vequal (vassign reuse x y) y = true <-> harmless reuse x y).
Proof. intros reuse t x y X Y N. rewrite vequal_veq. exact (assign_iff reuse x t y X Y N). Qed.
