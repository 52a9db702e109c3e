(** The depth of the reader's recursion on arbitrary input. *)
From Verif Require Import Bytes BaseProofs Num Dbl Types Stream Tokenizer Write Read Depth
  SpecJson SpecErr SpecPos SpecInterp SpecTok SpecTakes SpecDepth LexView LexMono LexJson Termination ReadSim
  ErrProofs PosProofs TokRead TokRun TokLex TokSim AcceptProofs.
Local Open Scope nat_scope.

(** ** Balanced tokens *)
Lemma opens_app x y : opens (x ++ y) = opens x + opens y.
Proof. unfold opens. now rewrite filter_app, app_length. Qed.
Lemma closes_app x y : closes (x ++ y) = closes x + closes y.
Proof. unfold closes. now rewrite filter_app, app_length. Qed.
Lemma opens_cons k y : opens (k :: y) = opens [k] + opens y.
Proof. exact (opens_app [k] y). Qed.
Lemma closes_cons k y : closes (k :: y) = closes [k] + closes y.
Proof. exact (closes_app [k] y). Qed.

Ltac bal :=
  repeat (rewrite opens_app in * || rewrite closes_app in *);
  repeat match goal with
    | |- context [opens (?k :: ?a :: ?y)] => rewrite (opens_cons k (a :: y))
    | |- context [closes (?k :: ?a :: ?y)] => rewrite (closes_cons k (a :: y))
    | |- context [opens (?k :: ?y)] => is_var y; rewrite (opens_cons k y)
    | |- context [closes (?k :: ?y)] => is_var y; rewrite (closes_cons k y)
    | |- context [opens (?k :: ?y ++ ?z)] => rewrite (opens_cons k (y ++ z)), ?opens_app
    | |- context [closes (?k :: ?y ++ ?z)] => rewrite (closes_cons k (y ++ z)), ?closes_app
    end;
  repeat match goal with
    | |- context [opens [?k]] => change (opens [k]) with 1 || change (opens [k]) with 0
    | |- context [closes [?k]] => change (closes [k]) with 1 || change (closes [k]) with 0
    end; try lia.

Lemma skips_balanced :
  (forall x, skips x -> opens x = closes x) /\
  (forall x, skip_elems x -> closes x = S (opens x)) /\
  (forall x, skip_members x -> closes x = S (opens x)).
Proof. apply skips_ind3; intros; bal; reflexivity. Qed.

Lemma takes_balanced w :
  (forall t v x v', takes w t v x v' -> opens x = closes x) /\
  (forall t l x l', takes_elems w t l x l' -> closes x = S (opens x)) /\
  (forall ms g vs x vs', takes_members w ms g vs x vs' -> closes x = S (opens x)) /\
  (forall ms g vs name x vs', takes_member w ms g vs name x vs' -> opens x = closes x).
Proof.
  apply takes_ind4; intros; try (now apply (proj1 skips_balanced)); bal; try reflexivity.
  - destruct t; reflexivity.
  - destruct t; reflexivity.
Qed.

Section Any.
  Context (inp : bytes) (L : list jtok) (HL : all_toks (nolf inp) L) (d : nat) (Hd : nested_at_most d inp).

  (** [k] brackets are open before the tokens [l]. *)
  Definition lev (t : tokenizer) (l : list jtok) (k : nat) : Prop :=
    cur inp L t l /\ exists dn, dn ++ l = L /\ opens dn = closes dn + k.

  Lemma lev_le t l k : lev t l k -> k <= d.
  Proof.
    intros (((dn & pre & post & D & E & T & _) & _) & dn' & D' & O).
    rewrite <- D' in D. apply app_inv_tail in D. subst dn'. pose proof (Hd _ _ _ E T). lia.
  Qed.

  Lemma lev_by t l k p l1 t1 : lev t l k -> l = p ++ l1 -> opens p = closes p -> cur inp L t1 l1 -> lev t1 l1 k.
  Proof.
    intros (_ & dn & D & O) -> B C. split; [exact C|]. exists (dn ++ p). split; [now rewrite <- app_assoc|].
    rewrite opens_app, closes_app. lia.
  Qed.

  Lemma lev_head t l k id : lev t l k -> tk_id t = id -> id <> T_NONE -> id <> T_EOS ->
    exists c l1, l = c :: l1 /\ tid c = id.
  Proof.
    intros ((_ & C) & _) E N1 N2. destruct l as [|c l].
    - destruct C as [C|C]; congruence.
    - destruct C as (C & _). exists c, l. split; [reflexivity|]. congruence.
  Qed.

  Lemma lev_next n t c l k t1 : lev t (c :: l) k -> tk_next n t = Some t1 -> closes [c] = 0 -> lev t1 l (k + opens [c]).
  Proof.
    intros (C & dn & D & O) N Z. destruct (cur_next inp L HL _ _ _ _ _ C N) as [C1 _].
    split; [exact C1|]. exists (dn ++ [c]). split; [now rewrite <- app_assoc|].
    rewrite opens_app, closes_app. lia.
  Qed.

  Lemma lev_expect n id t l k t1 : lev t l k -> tk_expect n id t = Some (true, t1) -> id <> T_NONE -> id <> T_EOS ->
    id <> T_OBJE -> id <> T_ARRE ->
    exists l1, lev t1 l1 (match id with T_OBJS | T_ARRS => S k | _ => k end).
  Proof.
    intros V E N1 N2 N3 N4. unfold tk_expect in E. destruct (tid_eqb (tk_id t) id) eqn:I; [|discriminate E].
    apply tid_eqb_eq in I. destruct (lev_head _ _ _ _ V I N1 N2) as (c & l1 & -> & T).
    destruct (tk_next n t) as [t2|] eqn:N; [|discriminate E]. injection E as ->.
    exists l1. assert (Z : closes [c] = 0) by (destruct c; try reflexivity; simpl in T; congruence).
    pose proof (lev_next _ _ _ _ _ _ V N Z) as W. rewrite <- T.
    destruct c; cbn [tid] in *; simpl in W; rewrite ?Nat.add_0_r, ?Nat.add_1_r in W; exact W.
  Qed.

  Lemma lev_keep n id t l k t1 : lev t l k -> tk_expect n id t = Some (false, t1) -> lev t1 l k.
  Proof.
    intros V E. unfold tk_expect in E. destruct (tid_eqb (tk_id t) id); [|now injection E as ->].
    destruct (tk_next n t); discriminate E.
  Qed.

  (** ** Skipping *)
  Lemma lev_ignore n t l k t1 : lev t l k -> ignore_value n t = Some (PGR_OK, t1) -> exists l1, lev t1 l1 k.
  Proof.
    intros V E. pose proof V as (C & _).
    destruct (proj1 (sim_ignore inp L HL n) t l C PGR_OK tt t1) as (s & l1 & F & R & C1 & _); [unfold igu; now rewrite E|].
    destruct s; try contradiction R.
    destruct (proj1 (tign_run n) _ _ _ _ F) as (p & -> & _ & K). exists l1.
    eapply lev_by; [exact V|reflexivity| |exact C1]. now apply (proj1 skips_balanced).
  Qed.

  Lemma ignore_le n :
    (forall t l k, lev t l k -> ignore_depth n t + k <= S d) /\
    (forall t l k, lev t l k -> ignore_array_depth n t + k <= S d) /\
    (forall t l k, lev t l k -> ignore_object_depth n t + k <= S d).
  Proof.
    induction n as [|n (IV & IA & IO)].
    { repeat split; intros t l k V; pose proof (lev_le _ _ _ V); simpl; lia. }
    split; [|split]; intros t l k V; pose proof (lev_le _ _ _ V) as K.
    - cbn [ignore_depth]. destruct (tk_id t) eqn:I; try (simpl; lia).
      + destruct (lev_head _ _ _ _ V I) as (c & l1 & -> & T); try discriminate.
        destruct (tk_next n t) as [t1|] eqn:N; [|simpl; lia].
        destruct c; try discriminate T. pose proof (lev_next _ _ _ _ _ _ V N eq_refl) as W.
        change (opens [KLBrace]) with 1 in W. specialize (IO _ _ _ W). lia.
      + destruct (lev_head _ _ _ _ V I) as (c & l1 & -> & T); try discriminate.
        destruct (tk_next n t) as [t1|] eqn:N; [|simpl; lia].
        destruct c; try discriminate T. pose proof (lev_next _ _ _ _ _ _ V N eq_refl) as W.
        change (opens [KLBrack]) with 1 in W. specialize (IA _ _ _ W). lia.
    - cbn [ignore_array_depth]. destruct (tid_eqb (tk_id t) T_ARRE); [lia|].
      pose proof (IV _ _ _ V) as D1.
      destruct (ignore_value n t) as [[[] t1]|] eqn:E; try lia.
      destruct (lev_ignore _ _ _ _ _ V E) as (l1 & V1).
      destruct (tk_expect n T_COMMA t1) as [[[] t2]|] eqn:E2; try lia.
      destruct (lev_expect _ _ _ _ _ _ V1 E2) as (l2 & V2); try discriminate.
      pose proof (IA _ _ _ V2). lia.
    - cbn [ignore_object_depth]. destruct (tid_eqb (tk_id t) T_OBJE); [lia|].
      destruct (tk_expect n T_STRING t) as [[[] t1]|] eqn:E1; try lia.
      destruct (lev_expect _ _ _ _ _ _ V E1) as (l1 & V1); try discriminate.
      destruct (tk_expect n T_COLON t1) as [[[] t2]|] eqn:E2; try lia.
      destruct (lev_expect _ _ _ _ _ _ V1 E2) as (l2 & V2); try discriminate. cbv iota in V1, V2.
      pose proof (IV _ _ _ V2) as D1.
      destruct (ignore_value n t2) as [[[] t3]|] eqn:E; try lia.
      destruct (lev_ignore _ _ _ _ _ V2 E) as (l3 & V3).
      destruct (tk_expect n T_COMMA t3) as [[[] t4]|] eqn:E4; try lia.
      destruct (lev_expect _ _ _ _ _ _ V3 E4) as (l4 & V4); try discriminate.
      pose proof (IO _ _ _ V4). lia.
  Qed.

  (** ** Reading *)
  Lemma lev_read n ty0 t v l k r v' t1 : lookup_ok ty0 -> shape ty0 v = true -> lev t l k ->
    read n ty0 t v = Some (r, v', t1) -> r <> PGR_ERROR -> exists l1, lev t1 l1 k.
  Proof.
    intros LO S V E NE. pose proof V as (C & _).
    destruct (sim_read inp L HL n ty0 LO t v l S C _ _ _ E) as (s & l1 & F & R & C1 & _).
    destruct (tread_run false n ty0 LO v S _ _ _ _ F) as (p & -> & _ & K).
    exists l1. eapply lev_by; [exact V|reflexivity| |exact C1].
    destruct r, s; try contradiction R; try congruence.
    - exact (proj1 (takes_balanced false) _ _ _ _ K).
    - destruct K as [-> _]. reflexivity.
  Qed.

  Definition dp_le (n : nat) (ty0 : ty) : Prop := forall t v l k, shape ty0 v = true -> lev t l k ->
    read_depth n ty0 t v + k <= S d.

  Lemma array_le nf ty0 : lookup_ok ty0 -> dp_le nf ty0 -> forall n t l k, lev t l k ->
    array_loop_depth n nf (read nf ty0) (read_depth nf ty0) (dflt ty0) t + k <= S d.
  Proof.
    intros LO DP. induction n as [|n IH]; intros t l k V; pose proof (lev_le _ _ _ V) as K; [simpl; lia|].
    cbn [array_loop_depth]. pose proof (DP t (dflt ty0) l k (dflt_shape ty0) V) as D1.
    destruct (read nf ty0 t (dflt ty0)) as [[[r x] t1]|] eqn:E; [|lia].
    assert (More : r <> PGR_ERROR ->
      match tk_expect nf T_COMMA t1 with
      | Some (true, t2) => array_loop_depth n nf (read nf ty0) (read_depth nf ty0) (dflt ty0) t2
      | _ => 0 end + k <= S d).
    { intros NE. destruct (lev_read _ _ _ _ _ _ _ _ _ LO (dflt_shape ty0) V E NE) as (l1 & V1).
      destruct (tk_expect nf T_COMMA t1) as [[[] t2]|] eqn:E2; try lia.
      destruct (lev_expect _ _ _ _ _ _ V1 E2) as (l2 & V2); try discriminate. exact (IH _ _ _ V2). }
    destruct r.
    - assert (NE : PGR_OK <> PGR_ERROR) by discriminate. specialize (More NE). lia.
    - lia.
    - assert (NE : PGR_NIL <> PGR_ERROR) by discriminate. specialize (More NE). lia.
  Qed.

  Section Messages.
    Context (nf : nat) (ms : list ty) (g : gencode)
            (LO : forall name, select_member g name = member_named (g_write g) name)
            (LOs : Forall lookup_ok ms) (DP : Forall (dp_le nf) ms).

    Lemma member_le name t vs l k : shapes ms vs -> lev t l k ->
      read_member_depth g (map (read_depth nf) ms) name t vs + k <= S d.
    Proof.
      intros S V. pose proof (lev_le _ _ _ V) as K. unfold read_member_depth.
      destruct (select_member g name) as [i|]; [|lia]. rewrite nth_error_map.
      destruct (nth_error ms i) as [ty0|] eqn:M; cbn [option_map]; [|lia].
      destruct (Forall2_nth_error _ _ _ _ _ S M) as (v & E & Sv). rewrite E.
      rewrite Forall_forall in DP. exact (DP _ (nth_error_In _ _ M) t v l k Sv V).
    Qed.

    (** Taken or null: nothing but balanced tokens was read. *)
    Lemma lev_member name t vs l k r vs1 t1 : shapes ms vs -> lev t l k ->
      read_member g (map (read nf) ms) name t vs = Some (r, vs1, t1) -> r <> PGR_ERROR ->
      shapes ms vs1 /\ exists l1, lev t1 l1 k.
    Proof.
      intros S V E NE. unfold read_member in E.
      destruct (select_member g name) as [i|]; [|injection E as <- <- <-; eauto].
      rewrite nth_error_map in E.
      destruct (nth_error ms i) as [ty0|] eqn:M; cbn [option_map] in E; [|injection E as <- <- <-; eauto].
      destruct (Forall2_nth_error _ _ _ _ _ S M) as (v & Ev & Sv). rewrite Ev in E.
      destruct (read nf ty0 t v) as [[[r1 v'] t2]|] eqn:R; [|discriminate E]. injection E as -> <- ->.
      assert (LO1 : lookup_ok ty0) by (rewrite Forall_forall in LOs; eauto using nth_error_In).
      split; [|exact (lev_read _ _ _ _ _ _ _ _ _ LO1 Sv V R NE)].
      pose proof V as (C & _).
      destruct (sim_read inp L HL nf ty0 LO1 t v l Sv C _ _ _ R) as (s & l1 & F & RR & _).
      destruct (tread_run false nf ty0 LO1 v Sv _ _ _ _ F) as (p & _ & _ & K).
      assert (shape ty0 v' = true) as Sv'.
      { destruct r, s; try contradiction RR; try congruence.
        - exact (takes_shape _ _ _ _ _ K Sv).
        - destruct K as (_ & ->). destruct ty0, v; try discriminate Sv; try exact Sv; reflexivity. }
      exact (Forall2_set_nth _ _ _ _ _ _ S M Sv').
    Qed.

    Lemma object_le : forall n t vs l k, shapes ms vs -> lev t l k ->
      object_loop_depth n nf (read_member g (map (read nf) ms)) (read_member_depth g (map (read_depth nf) ms)) t vs + k <= S d.
    Proof.
      induction n as [|n IH]; intros t vs l k S V; pose proof (lev_le _ _ _ V) as K; [simpl; lia|].
      cbn [object_loop_depth]. cbv zeta. set (name := t_val (tk_cur t)). clearbody name.
      destruct (tk_expect nf T_STRING t) as [[[] t1]|] eqn:E1; try lia.
      destruct (lev_expect _ _ _ _ _ _ V E1) as (l1 & V1); try discriminate.
      destruct (tk_expect nf T_COLON t1) as [[[] t2]|] eqn:E2; try lia.
      destruct (lev_expect _ _ _ _ _ _ V1 E2) as (l2 & V2); try discriminate. cbv iota in V1, V2.
      pose proof (member_le name _ _ _ _ S V2) as D1.
      assert (More : forall vs1 t4 l4, shapes ms vs1 -> lev t4 l4 k ->
        match tk_expect nf T_COMMA t4 with
        | Some (true, t5) => object_loop_depth n nf (read_member g (map (read nf) ms)) (read_member_depth g (map (read_depth nf) ms)) t5 vs1
        | _ => 0 end + k <= Datatypes.S d).
      { intros vs1 t4 l4 S4 V4. destruct (tk_expect nf T_COMMA t4) as [[[] t5]|] eqn:E5; try lia.
        destruct (lev_expect _ _ _ _ _ _ V4 E5) as (l5 & V5); try discriminate. exact (IH _ _ _ _ S4 V5). }
      destruct (read_member g (map (read nf) ms) name t2 vs) as [[[r vs1] t3]|] eqn:E3; [|lia].
      destruct r; [|lia|].
      - destruct (lev_member _ _ _ _ _ _ _ _ S V2 E3) as (S3 & l3 & V3); [discriminate|].
        pose proof (More _ _ _ S3 V3). lia.
      - destruct (lev_member _ _ _ _ _ _ _ _ S V2 E3) as (S3 & l3 & V3); [discriminate|].
        pose proof (proj1 (ignore_le nf) _ _ _ V3) as D3.
        destruct (ignore_value nf t3) as [[r4 t4]|] eqn:E4; [|lia].
        destruct r4; [|lia|].
        + destruct (lev_ignore _ _ _ _ _ V3 E4) as (l4 & V4). pose proof (More _ _ _ S3 V4). lia.
        + exfalso. pose proof V3 as (C & _).
          destruct (proj1 (sim_ignore inp L HL nf) t3 l3 C PGR_NIL tt t4) as (s & l4 & F & R & _); [unfold igu; now rewrite E4|].
          destruct s; try contradiction R.
          destruct (proj1 (tign_run nf) _ _ _ _ F) as (p & _ & _ & _ & []).
    Qed.
  End Messages.

  Lemma read_le n ty0 : lookup_ok ty0 -> dp_le n ty0.
  Proof.
    induction ty0 as [p|p| | |ty' IH|ms g IH] using ty_ind2; intros LO t v l k S V; pose proof (lev_le _ _ _ V) as K;
      try (cbn [read_depth]; lia).
    - cbn [read_depth]. unfold read_array_depth.
      assert (B : match tk_expect n T_ARRS t with
          | Some (true, t1) => match tk_expect n T_ARRE t1 with
                               | Some (false, t2) => array_loop_depth n n (read n ty') (read_depth n ty') (dflt ty') t2
                               | _ => 0 end
          | _ => 0 end + k <= d).
      { destruct (tk_expect n T_ARRS t) as [[[] t1]|] eqn:E1; try lia.
        destruct (lev_expect _ _ _ _ _ _ V E1) as (l1 & V1); try discriminate. cbv iota in V1.
        destruct (tk_expect n T_ARRE t1) as [[[] t2]|] eqn:E2; try lia.
        pose proof (lev_keep _ _ _ _ _ _ V1 E2) as V2.
        pose proof (array_le n ty' LO (IH LO) n _ _ _ V2). lia. }
      destruct (tk_id t); lia.
    - cbn [read_depth]. destruct v; try lia. unfold read_object_depth.
      apply lookup_ok_msg in LO as [LO LOs]. apply shape_msg in S.
      assert (DP : Forall (dp_le n) ms) by (rewrite Forall_forall in *; auto).
      assert (B : match tk_expect n T_OBJS t with
          | Some (true, t1) => match tk_expect n T_OBJE t1 with
                               | Some (false, t2) => object_loop_depth n n (read_member g (map (read n) ms))
                                                       (read_member_depth g (map (read_depth n) ms)) t2 l0
                               | _ => 0 end
          | _ => 0 end + k <= d).
      { destruct (tk_expect n T_OBJS t) as [[[] t1]|] eqn:E1; try lia.
        destruct (lev_expect _ _ _ _ _ _ V E1) as (l1 & V1); try discriminate. cbv iota in V1.
        destruct (tk_expect n T_OBJE t1) as [[[] t2]|] eqn:E2; try lia.
        pose proof (lev_keep _ _ _ _ _ _ V1 E2) as V2.
        pose proof (object_le n ms g LO LOs DP n _ _ _ _ S V2). lia. }
      destruct (tk_id t); lia.
  Qed.
End Any.

Lemma any_depth ty0 v inp po d : shape ty0 v = true -> lookup_ok ty0 -> nested_at_most d inp ->
  deserialize_depth ty0 v inp po <= S d.
Proof.
  intros S LO N. unfold deserialize_depth.
  destruct (tk_make (fuel_for inp) (mk_istream inp) (p_err (ctx_params po))) as [t|] eqn:M; [|lia].
  destruct (all_toks_exist (nolf inp) (nolf_not_in _)) as [L HL].
  destruct (start_cur _ _ _ _ _ HL M) as [C _].
  pose proof (read_le inp L HL d N (fuel_for inp) ty0 LO t v L 0 S) as R.
  rewrite Nat.add_0_r in R. apply R. split; [exact C|]. exists []. split; reflexivity.
Qed.

Lemma within_enough ty0 v inp po d limit : shape ty0 v = true -> lookup_ok ty0 -> nested_at_most d inp ->
  d < limit -> exists r, deserialize ty0 v inp po = Some r /\ deserialize_within limit ty0 v inp po = SResult r.
Proof.
  intros S LO N H. destruct (deserialize_total ty0 v inp po) as (r & x & po' & E).
  exists (r, x, po'). split; [exact E|]. unfold deserialize_within.
  pose proof (any_depth ty0 v inp po d S LO N) as D.
  destruct (Nat.leb_spec (deserialize_depth ty0 v inp po) limit); [|lia]. now rewrite E.
Qed.

(** ** Counting bytes *)
Lemma brackets_app x y : brackets (x ++ y) = brackets x + brackets y.
Proof. unfold brackets. now rewrite filter_app, app_length. Qed.

Lemma brackets_nolf u : brackets (drop_lf u) = brackets u.
Proof.
  rewrite drop_lf_nolf. unfold brackets. induction u as [|c u IH]; [reflexivity|]. cbn [nolf filter]. unfold not_lf.
  destruct (Ascii.eqb_spec c LF) as [->|N]; cbn [negb filter].
  - exact IH.
  - destruct ((code c =? 123) || (code c =? 91))%Z; cbn [length]; [f_equal|]; exact IH.
Qed.

Lemma tokens_brackets pre post toks : tokens pre post toks -> opens toks <= brackets pre.
Proof.
  induction 1 as [x|pre c x l T IH W|pre u x l k T IH K]; [apply Nat.le_refl| |].
  - rewrite brackets_app. lia.
  - rewrite opens_app, brackets_app, <- (brackets_nolf u).
    assert (opens [k] <= brackets (drop_lf u)); [|lia].
    destruct K; try apply Nat.le_0_l; vm_compute; lia.
Qed.

Lemma nested_brackets inp : nested_at_most (brackets inp) inp.
Proof.
  intros pre post toks -> T. apply tokens_brackets in T. rewrite brackets_app. lia.
Qed.
