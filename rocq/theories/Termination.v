(** Deserialization terminates: the fuel [fuel_for] is always enough. *)
From Verif Require Import Bytes BaseProofs Num Dbl Types Stream Tokenizer Write Read LexView LexMono.

Lemma tk_error_in c m t : tk_in (tk_error c m t) = tk_in t.
Proof. unfold tk_error. destruct (e_code (tk_err t)); reflexivity. Qed.
Lemma tk_error_cur c m t : tk_cur (tk_error c m t) = tk_cur t.
Proof. unfold tk_error. destruct (e_code (tk_err t)); reflexivity. Qed.
Lemma tk_error_size c m t : msize (tk_error c m t) = msize t.
Proof. unfold msize, left_len, tk_id. now rewrite tk_error_in, tk_error_cur. Qed.

Definition ok_t (t t' : tokenizer) : Prop := wf_is (tk_in t') /\ (msize t' <= msize t)%nat.

Lemma ok_t_error c m t t' : ok_t t t' -> ok_t t (tk_error c m t').
Proof. unfold ok_t. now rewrite tk_error_in, tk_error_size. Qed.

Lemma ok_t_refl t : wf_is (tk_in t) -> ok_t t t.
Proof. split; auto. Qed.

Lemma ok_t_trans a m c : ok_t a m -> ok_t m c -> ok_t a c.
Proof. unfold ok_t. intuition lia. Qed.

Ltac expect_step n id t x t' E W S :=
  destruct (tk_expect_size n id t) as (x & t' & E & W & S);
  [ assumption | unfold msize in *; lia | reflexivity | rewrite E; destruct x ].

Ltac next_step n t t' E W S :=
  destruct (tk_next_size n t) as (t' & E & W & S);
  [ assumption | unfold msize in *; lia | rewrite E ].

Lemma ignore_total n :
  (forall t, wf_is (tk_in t) -> (2 * msize t + 2 <= n)%nat ->
     exists r t', ignore_value n t = Some (r, t') /\ ok_t t t') /\
  (forall t, wf_is (tk_in t) -> (2 * msize t + 3 <= n)%nat ->
     exists r t', ignore_array_loop n t = Some (r, t') /\ ok_t t t') /\
  (forall t, wf_is (tk_in t) -> (2 * msize t + 3 <= n)%nat ->
     exists r t', ignore_object_loop n t = Some (r, t') /\ ok_t t t').
Proof.
  induction n as [|n (IHv & IHa & IHo)]; [repeat split; intros; lia|].
  split; [|split]; intros t W L; simpl.
  - assert (P : tk_id t = T_NONE \/ tk_id t = T_EOS \/ pending (tk_id t) = 1%nat)
      by (destruct (tk_id t); auto).
    assert (Fail : forall m, exists r t', ign_fail m t = Some (r, t') /\ ok_t t t').
    { intros m. unfold ign_fail. eexists _, _. split; [reflexivity|]. apply ok_t_error, ok_t_refl, W. }
    destruct (tk_id t) eqn:I; try (apply Fail; fail); simpl in P;
      (assert (M : msize t = S (left_len t)) by (unfold msize; rewrite I; simpl; lia);
       next_step n t t1 E1 W1 S1).
    + destruct (IHo t1 W1) as (r & t' & -> & O); [lia|].
      eexists _, _; split; [reflexivity|]. unfold ok_t in *. split; [apply O|]. destruct O; lia.
    + destruct (tk_id t1); eexists _, _; (split; [reflexivity|]);
        try apply ok_t_error; (split; [exact W1|lia]).
    + destruct (IHa t1 W1) as (r & t' & -> & O); [lia|].
      eexists _, _; split; [reflexivity|]. unfold ok_t in *. split; [apply O|]. destruct O; lia.
    + destruct (tk_id t1); eexists _, _; (split; [reflexivity|]);
        try apply ok_t_error; (split; [exact W1|lia]).
    + destruct (tk_id t1); eexists _, _; (split; [reflexivity|]);
        try apply ok_t_error; (split; [exact W1|lia]).
    + destruct (tk_id t1); eexists _, _; (split; [reflexivity|]);
        try apply ok_t_error; (split; [exact W1|lia]).
    + destruct (tk_id t1); eexists _, _; (split; [reflexivity|]);
        try apply ok_t_error; (split; [exact W1|lia]).
  - assert (F : forall t1, ok_t t t1 -> exists r t',
        match tk_expect n T_ARRE t1 with
        | Some (true, t'0) => Some (PGR_OK, t'0)
        | Some (false, t'0) => ign_fail (b "invalid array") t'0
        | None => None
        end = Some (r, t') /\ ok_t t t').
    { intros t1 [W1 S1]. expect_step n T_ARRE t1 x t2 E2 W2 S2.
      - eexists _, _; split; [reflexivity|]. split; [exact W2|lia].
      - subst. eexists _, _; split; [reflexivity|]. apply ok_t_error. split; auto. }
    destruct (tid_eqb (tk_id t) T_ARRE). { apply F, ok_t_refl, W. }
    destruct (IHv t W) as (r & t1 & -> & [W1 S1]); [lia|].
    destruct r; try (eexists _, _; split; [reflexivity|]; split; auto).
    expect_step n T_COMMA t1 x t2 E2 W2 S2.
    + destruct (IHa t2 W2) as (r & t' & -> & O); [lia|].
      eexists _, _; split; [reflexivity|]. destruct O. split; [auto|lia].
    + subst. apply F. split; auto.
  - assert (F : forall t1, ok_t t t1 -> exists r t',
        match tk_expect n T_OBJE t1 with
        | Some (true, t'0) => Some (PGR_OK, t'0)
        | Some (false, t'0) => ign_fail (b "invalid object") t'0
        | None => None
        end = Some (r, t') /\ ok_t t t').
    { intros t1 [W1 S1]. expect_step n T_OBJE t1 x t2 E2 W2 S2.
      - eexists _, _; split; [reflexivity|]. split; [exact W2|lia].
      - subst. eexists _, _; split; [reflexivity|]. apply ok_t_error. split; auto. }
    destruct (tid_eqb (tk_id t) T_OBJE). { apply F, ok_t_refl, W. }
    expect_step n T_STRING t x t1 E1 W1 S1.
    2:{ subst. eexists _, _; split; [reflexivity|]. apply ok_t_error, ok_t_refl, W. }
    expect_step n T_COLON t1 x t2 E2 W2 S2.
    2:{ subst. eexists _, _; split; [reflexivity|]. apply ok_t_error. split; [auto|lia]. }
    destruct (IHv t2 W2) as (r & t3 & -> & [W3 S3]); [lia|].
    destruct r; try (eexists _, _; split; [reflexivity|]; split; [auto|lia]).
    expect_step n T_COMMA t3 x t4 E4 W4 S4.
    + destruct (IHo t4 W4) as (r & t' & -> & O); [lia|].
      eexists _, _; split; [reflexivity|]. destruct O. split; [auto|lia].
    + subst. apply F. split; [auto|lia].
Qed.

Definition total_reader (n : nat) {A} (rd : tokenizer -> A -> rres A) : Prop :=
  forall t v, wf_is (tk_in t) -> (2 * msize t + 3 <= n)%nat ->
    exists r v' t', rd t v = Some (r, v', t') /\ ok_t t t'.

Ltac done_with := eexists _, _, _; split; [reflexivity|];
  try apply ok_t_error; (split; [assumption|lia]).

Lemma read_prim_total n p : total_reader n (read_prim n p).
Proof.
  intros t v W L. unfold read_prim, rfail.
  destruct (tk_id t) eqn:I; destruct p;
    try (done_with; fail);
    (assert (M : msize t = S (left_len t)) by (unfold msize; rewrite I; simpl; lia);
     next_step n t t1 E1 W1 S1; done_with).
Qed.

Lemma array_loop_total nf rd d : total_reader nf rd -> forall n t l,
  wf_is (tk_in t) -> (2 * msize t + 3 <= nf)%nat -> (msize t + 1 <= n)%nat ->
  exists r l' t', array_loop n nf rd d t l = Some (r, l', t') /\ ok_t t t'.
Proof.
  intros RD n. induction n as [|n IH]; intros t l W Lf L; [lia|]. simpl.
  destruct (RD t d W Lf) as (r & x & t1 & -> & [W1 S1]).
  destruct r; [|done_with|];
  (expect_step nf T_COMMA t1 y t2 E2 W2 S2;
   [ match goal with |- context [array_loop n nf rd d ?tt ?l2] => destruct (IH tt l2) as (r & l' & t' & -> & [W' S']) end; [assumption|lia|lia|];
     done_with
   | subst; expect_step nf T_ARRE t1 y t3 E3 W3 S3; [done_with|subst; unfold rfail; done_with] ]).
Qed.

Lemma read_array_total n rd d : total_reader n rd -> total_reader n (read_array n rd d).
Proof.
  intros RD t l W L. unfold read_array, rfail.
  destruct (tk_id t) eqn:I; try done_with;
  (expect_step n T_ARRS t x t1 E1 W1 S1; [|subst; done_with];
   expect_step n T_ARRE t1 x t2 E2 W2 S2; [done_with|subst];
   destruct (array_loop_total n rd d RD n t1 l W1) as (r & l' & t' & -> & [W' S']); [lia|lia|];
   done_with).
Qed.

Lemma object_loop_total nf rf : (forall name, total_reader nf (rf name)) -> forall n t vs,
  wf_is (tk_in t) -> (2 * msize t + 3 <= nf)%nat -> (msize t + 1 <= n)%nat ->
  exists r l' t', object_loop n nf rf t vs = Some (r, l', t') /\ ok_t t t'.
Proof.
  intros RF n. induction n as [|n IH]; intros t vs W Lf L; [lia|]. simpl. unfold rfail.
  expect_step nf T_STRING t x t1 E1 W1 S1; [|subst; done_with].
  expect_step nf T_COLON t1 x t2 E2 W2 S2; [|subst; done_with].
  destruct (RF (t_val (tk_cur t)) t2 vs W2) as (r & vs1 & t3 & -> & [W3 S3]); [lia|].
  assert (Q : exists r4 t4, (match r with PGR_OK => Some (PGR_OK, t3) | _ => ignore_value nf t3 end)
                = Some (r4, t4) /\ ok_t t3 t4).
  { destruct r; try (apply ignore_total; [assumption|lia]).
    eexists _, _; split; [reflexivity|]. apply ok_t_refl, W3. }
  destruct r; [| done_with |];
  (destruct Q as (r4 & t4 & EQ & [W4 S4]); first [injection EQ as <- -> | rewrite EQ; destruct r4]; try (done_with; fail);
   (expect_step nf T_COMMA t4 x t5 E5 W5 S5;
    [ match goal with |- context [object_loop n nf rf ?tt ?l2] => destruct (IH tt l2) as (r & l' & t' & -> & [W' S']) end; [assumption|lia|lia|]; done_with
    | subst; expect_step nf T_OBJE t4 x t6 E6 W6 S6; [done_with|subst; done_with] ])).
Qed.

Lemma read_object_total n rf : (forall name, total_reader n (rf name)) ->
  total_reader n (read_object n rf).
Proof.
  intros RF t l W L. unfold read_object, rfail.
  destruct (tk_id t) eqn:I; try done_with;
  (expect_step n T_OBJS t x t1 E1 W1 S1; [|subst; done_with];
   expect_step n T_OBJE t1 x t2 E2 W2 S2; [done_with|subst];
   destruct (object_loop_total n rf RF n t1 l W1) as (r & l' & t' & -> & [W' S']); [lia|lia|];
   done_with).
Qed.

(** Induction on types with hypotheses for the members of messages. *)
Lemma ty_ind2 (P : ty -> Prop) :
  (forall p, P (TPrim p)) -> (forall p, P (TField p)) -> P TStr -> P TB64 ->
  (forall t, P t -> P (TRep t)) ->
  (forall ms g, Forall P ms -> P (TMsg ms g)) -> forall t, P t.
Proof.
  intros H1 H2 H3 H4 H5 H6.
  fix IH 1. intros [p|p| | |t|ms g].
  - apply H1.
  - apply H2.
  - exact H3.
  - exact H4.
  - apply H5, IH.
  - apply H6. induction ms as [|t ms IHms]; constructor; [apply IH|exact IHms].
Qed.

Lemma rmap_total n {A B} (f : A -> B) (rd : tokenizer -> A -> rres A) t v :
  total_reader n rd -> wf_is (tk_in t) -> (2 * msize t + 3 <= n)%nat ->
  exists r v' t', rmap f (rd t v) = Some (r, v', t') /\ ok_t t t'.
Proof.
  intros RD W L. destruct (RD t v W L) as (r & v' & t' & -> & O). simpl. eauto 6.
Qed.

Lemma read_total n t0 : total_reader n (read n t0).
Proof.
  induction t0 using ty_ind2; intros t v W L; simpl;
    assert (Bad : exists r v' t', Some (PGR_ERROR, v, t) = Some (r, v', t') /\ ok_t t t')
      by (eexists _, _, _; split; [reflexivity|apply ok_t_refl, W]);
    destruct v; try exact Bad.
  - apply rmap_total with n; auto. apply read_prim_total.
  - unfold read_fieldnum.
    destruct (read_prim_total n p t (pzero p) W L) as (r & x & t1 & -> & O).
    destruct r; eauto 6.
  - unfold read_strfield, read_string, rfail.
    destruct (tk_id t) eqn:I; try (simpl; done_with);
    (expect_step n T_STRING t x t1 E1 W1 S1; [simpl; done_with|subst; simpl; done_with]).
  - unfold read_b64, rfail. destruct (tk_id t) eqn:I; try done_with.
    assert (M : msize t = S (left_len t)) by (unfold msize; rewrite I; simpl; lia).
    next_step n t t1 E1 W1 S1. destruct (b64_decode (cstr (t_val (tk_cur t)))) as [o bad].
    eexists _, _, _; split; [reflexivity|].
    destruct bad; [apply ok_t_error|]; (split; [assumption|lia]).
  - apply rmap_total with n; auto. apply read_array_total, IHt0.
  - apply rmap_total with n; auto. apply read_object_total.
    intros name t1 vs W1 L1. unfold read_member.
    assert (Nil : exists r v' t', Some (PGR_NIL, vs, t1) = Some (r, v', t') /\ ok_t t1 t')
      by (eexists _, _, _; split; [reflexivity|apply ok_t_refl, W1]).
    destruct (select_member g name) as [k|]; [|exact Nil].
    destruct (nth_error (map (read n) ms) k) as [rd|] eqn:R; [|exact Nil].
    destruct (nth_error vs k) as [v|]; [|exact Nil].
    rewrite nth_error_map in R. destruct (nth_error ms k) as [t2|] eqn:M; [|discriminate].
    injection R as <-.
    assert (In t2 ms) as I2 by (eapply nth_error_In; eauto).
    rewrite Forall_forall in H. destruct (H t2 I2 t1 v W1 L1) as (r & v' & t' & -> & O).
    eauto 6.
Qed.

Lemma deserialize_fuel_total n t0 v inp po : (2 * length inp + 3 <= n)%nat ->
  exists r v' po', deserialize_fuel n t0 v (mk_istream inp) po = Some (r, v', po').
Proof.
  intros L. unfold deserialize_fuel, tk_make.
  destruct (mk_istream_spec inp) as [W V].
  set (t0' := TK (Tok T_NONE [] 0 0) (mk_istream inp) (p_err (ctx_params po))).
  pose proof (nolf_length inp).
  assert (LL : left_len t0' = length (nolf inp)) by (unfold left_len; simpl; now rewrite V).
  destruct (tk_next_size n t0' W) as (t & -> & W1 & S1); [lia|].
  destruct (read_total n t0 t v W1) as (r & v' & t' & -> & _); [lia|].
  destruct r; eauto.
Qed.

Lemma deserialize_total t0 v inp po :
  exists r v' po', deserialize t0 v inp po = Some (r, v', po').
Proof. apply deserialize_fuel_total. unfold fuel_for. lia. Qed.
