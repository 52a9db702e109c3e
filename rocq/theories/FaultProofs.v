(** The error reported, by context. *)
From Verif Require Import Bytes BaseProofs Num Dbl Types Stream Tokenizer Write Read
  SpecJson SpecErr SpecPos SpecInterp SpecTok SpecTakes SpecFault LexView LexMono FuelMono LexJson Termination ReadSim
  ApiProofs ErrProofs PosProofs TokRead TokRun TokComplete TokLex TokSim AcceptProofs.

(** ** Skipping *)
Lemma tign_ok_nil n l u : tign n l = Some (TOk, u, []) -> (2 <= length l)%nat.
Proof.
  intros E. destruct n as [|n]; [discriminate E|]. destruct l as [|k [|k2 l]]; [discriminate E| |simpl; lia].
  exfalso. destruct k; try discriminate E; cbn [tign] in E; (destruct n as [|n]; [discriminate E|]).
  - discriminate E.
  - rewrite tign_arr_S in E. destruct n; discriminate E.
Qed.

Lemma tign_ok n l u l' : tign n l = Some (TOk, u, l') -> exists p, l = p ++ l' /\ skips p.
Proof. intros E. apply (proj1 (tign_run n)) in E as (p & -> & _ & O). eauto. Qed.

Lemma tign_nil n l u l' : tign n l <> Some (TNil, u, l').
Proof. intros E. apply (proj1 (tign_run n)) in E as (p & _ & _ & _ & []). Qed.

Lemma tign_bad n l u l' : tign n l <> Some (TBad, u, l').
Proof. intros E. apply (proj1 (tign_run n)) in E as (p & _ & _ & K & _). discriminate K. Qed.

Lemma tign_fault n :
  (forall l c m u l', tign n l = Some (TErr c m, u, l') ->
     c = PGERR_IGNORE_FAILED /\ exists p, l = p ++ l' /\ skip_fault p (hd_error l') m) /\
  (forall l c m u l', tign_arr n l = Some (TErr c m, u, l') ->
     c = PGERR_IGNORE_FAILED /\ exists p, l = p ++ l' /\ skip_elems_fault p (hd_error l') m) /\
  (forall l c m u l', tign_obj n l = Some (TErr c m, u, l') ->
     c = PGERR_IGNORE_FAILED /\ exists p, l = p ++ l' /\ skip_members_fault p (hd_error l') m).
Proof.
  induction n as [|n (IV & IA & IO)]; [repeat split; discriminate|].
  split; [|split]; intros l c m u l' E.
  - assert (Sc : forall k l1, l = k :: l1 -> single k = true ->
      match l1 with [] => Some (ign_err (b "end of stream"), tt, l1) | _ => Some (TOk, tt, l1) end = Some (TErr c m, u, l') ->
      c = PGERR_IGNORE_FAILED /\ exists p, l = p ++ l' /\ skip_fault p (hd_error l') m).
    { intros k [|k1 l1] -> S K; [|discriminate K]. injection K as <- <- _ <-. split; [reflexivity|].
      exists [k]. split; [reflexivity|]. now constructor. }
    assert (Bd : forall k l1, l = k :: l1 -> begins k = false ->
      Some (ign_err (b "invalid value"), tt, l) = Some (TErr c m, u, l') ->
      c = PGERR_IGNORE_FAILED /\ exists p, l = p ++ l' /\ skip_fault p (hd_error l') m).
    { intros k l1 -> B K. injection K as <- <- _ <-. split; [reflexivity|]. exists []. split; [reflexivity|]. now constructor. }
    destruct l as [|k l1].
    { injection E as <- <- _ <-. split; [reflexivity|]. exists []. split; [reflexivity|constructor]. }
    destruct k; try (eapply Sc; [reflexivity|reflexivity|exact E]); try (eapply Bd; [reflexivity|reflexivity|exact E]);
      cbn [tign] in E.
    + apply IO in E as (-> & p & -> & F). split; [reflexivity|]. exists (KLBrace :: p). split; [reflexivity|now constructor].
    + apply IA in E as (-> & p & -> & F). split; [reflexivity|]. exists (KLBrack :: p). split; [reflexivity|now constructor].
  - rewrite tign_arr_S in E.
    assert (E' : match tign n l with
      | Some (TOk, _, l1) =>
          match l1 with
          | KComma :: l2 => tign_arr n l2
          | KRBrack :: l2 => Some (TOk, tt, l2)
          | _ => Some (ign_err (b "invalid array"), tt, l1)
          end
      | x => x
      end = Some (TErr c m, u, l') /\ (forall r, l <> KRBrack :: r)).
    { destruct l as [|[] l1]; try (split; [exact E|discriminate]). discriminate E. }
    clear E. destruct E' as [E NB].
    destruct (tign n l) as [[[[] u1] l1]|] eqn:E1; try discriminate E.
    + destruct (tign_ok _ _ _ _ E1) as (p & -> & K).
      assert (Sep : forall l3, l1 = l3 -> hd_error l3 <> Some KComma -> hd_error l3 <> Some KRBrack ->
        Some (ign_err (b "invalid array"), tt, l1) = Some (TErr c m, u, l') ->
        c = PGERR_IGNORE_FAILED /\ exists p0, p ++ l1 = p0 ++ l' /\ skip_elems_fault p0 (hd_error l') m).
      { intros l3 <- N1 N2 G. injection G as <- <- _ <-. split; [reflexivity|]. exists p. split; [reflexivity|].
        apply ke_sep; auto. intros N. destruct l1; [|discriminate N]. rewrite app_nil_r in E1. now apply tign_ok_nil in E1. }
      destruct l1 as [|[] l2]; try (eapply Sep; [reflexivity|discriminate|discriminate|exact E]); [discriminate E|].
      apply IA in E as (-> & q & -> & F). split; [reflexivity|]. exists (p ++ KComma :: q).
      split; [now rewrite <- app_assoc|]. now apply ke_more.
    + injection E as <- <- _ <-. destruct (IV _ _ _ _ _ E1) as (-> & p & -> & F). split; [reflexivity|].
      exists p. split; [reflexivity|]. apply ke_value; [exact F|]. intros -> K.
      destruct l1 as [|k l2]; [discriminate K|]. injection K as ->. now apply (NB l2).
  - rewrite tign_obj_S in E.
    destruct l as [|k l1].
    { injection E as <- <- _ <-. split; [reflexivity|]. exists []. split; [reflexivity|]. now constructor. }
    assert (Nm : (forall s, k <> KStr s) -> k <> KRBrace -> Some (ign_err (b "expected field name"), tt, k :: l1) = Some (TErr c m, u, l') ->
      c = PGERR_IGNORE_FAILED /\ exists p, k :: l1 = p ++ l' /\ skip_members_fault p (hd_error l') m).
    { intros N1 N2 G. injection G as <- <- _ <-. split; [reflexivity|]. exists []. split; [reflexivity|].
      constructor; simpl; congruence. }
    destruct k; try (apply Nm; [discriminate|discriminate|exact E]); [discriminate E|].
    assert (Cl : (forall r, l1 <> KColon :: r) -> Some (ign_err (b "expected colon"), tt, l1) = Some (TErr c m, u, l') ->
      c = PGERR_IGNORE_FAILED /\ exists p, KStr s :: l1 = p ++ l' /\ skip_members_fault p (hd_error l') m).
    { intros N G. injection G as <- <- _ <-. split; [reflexivity|]. exists [KStr s]. split; [reflexivity|].
      constructor. destruct l1; [discriminate|]. simpl. intros K. injection K as ->. now apply (N l1). }
    destruct l1 as [|[] l1]; try (apply Cl; [discriminate|exact E]).
    destruct (tign n l1) as [[[[] u1] l2]|] eqn:E1; try discriminate E.
    + destruct (tign_ok _ _ _ _ E1) as (p & -> & K).
      assert (Sep : forall l3, l2 = l3 -> hd_error l3 <> Some KComma -> hd_error l3 <> Some KRBrace ->
        Some (ign_err (b "invalid object"), tt, l2) = Some (TErr c m, u, l') ->
        c = PGERR_IGNORE_FAILED /\ exists p0, KStr s :: KColon :: p ++ l2 = p0 ++ l' /\ skip_members_fault p0 (hd_error l') m).
      { intros l3 <- N1 N2 G. injection G as <- <- _ <-. split; [reflexivity|]. exists (KStr s :: KColon :: p). split; [reflexivity|].
        apply km_sep; auto. intros N. destruct l2; [|discriminate N]. rewrite app_nil_r in E1. now apply tign_ok_nil in E1. }
      destruct l2 as [|[] l2]; try (eapply Sep; [reflexivity|discriminate|discriminate|exact E]); [discriminate E|].
      apply IO in E as (-> & q & -> & F). split; [reflexivity|]. exists (KStr s :: KColon :: p ++ KComma :: q).
      split; [cbn [app]; now rewrite <- app_assoc|]. now apply km_more.
    + injection E as <- <- _ <-. destruct (IV _ _ _ _ _ E1) as (-> & p & -> & F). split; [reflexivity|].
      exists (KStr s :: KColon :: p). split; [reflexivity|]. now apply km_value.
Qed.

Definition reports {A} (o : option (tres * A * list jtok)) c m l' : Prop :=
  forall r u l2, o = Some (r, u, l2) -> r = TErr c m /\ l2 = l'.

Lemma hd_nil {A} (l : list A) : hd_error l = None -> l = [].
Proof. destruct l; [reflexivity|discriminate]. Qed.

(** A complete value before something else is skipped. *)
Lemma skip_then n x l' r u l2 : skips x -> (hd_error l' = None -> (2 <= length x)%nat) ->
  tign n (x ++ l') = Some (r, u, l2) -> r = TOk /\ l2 = l'.
Proof.
  intros K N E. destruct l' as [|k l']; [|now apply (proj1 skips_complete _ K _ _ _ _ _ E)].
  specialize (N eq_refl). destruct n as [|n]; [discriminate E|].
  destruct K; try (simpl in N; lia); cbn [app tign] in E.
  - eapply (proj1 (proj2 skips_complete)); eauto.
  - eapply (proj2 (proj2 skips_complete)); eauto.
Qed.

Lemma skip_fault_complete :
  (forall p n m, skip_fault p n m -> forall k l', hd_error l' = n -> reports (tign k (p ++ l')) PGERR_IGNORE_FAILED m l') /\
  (forall p n m, skip_elems_fault p n m -> forall k l', hd_error l' = n -> reports (tign_arr k (p ++ l')) PGERR_IGNORE_FAILED m l') /\
  (forall p n m, skip_members_fault p n m -> forall k l', hd_error l' = n -> reports (tign_obj k (p ++ l')) PGERR_IGNORE_FAILED m l').
Proof.
  apply skip_fault_ind3.
  - intros [|k] l' H r u l2 E; [discriminate E|]. apply hd_nil in H as ->. injection E as <- <- <-. auto.
  - intros j B [|k] l' H r u l2 E; [discriminate E|]. destruct l' as [|j' l']; [discriminate H|]. injection H as ->.
    destruct j; try discriminate B; injection E as <- <- <-; auto.
  - intros j S [|k] l' H r u l2 E; [discriminate E|]. apply hd_nil in H as ->.
    destruct j; try discriminate S; injection E as <- <- <-; auto.
  - intros p n m _ IH [|k] l' H r u l2 E; [discriminate E|]. cbn [app tign] in E. eapply IH; eauto.
  - intros p n m _ IH [|k] l' H r u l2 E; [discriminate E|]. cbn [app tign] in E. eapply IH; eauto.
  - intros p n m K IH NB [|k] l' H r u l2 E; [discriminate E|]. rewrite tign_arr_S in E.
    assert (E' : match tign k (p ++ l') with
      | Some (TOk, _, l1) =>
          match l1 with
          | KComma :: l2 => tign_arr k l2
          | KRBrack :: l2 => Some (TOk, tt, l2)
          | _ => Some (ign_err (b "invalid array"), tt, l1)
          end
      | x => x
      end = Some (r, u, l2)).
    { destruct p as [|j p]; cbn [app] in *.
      - destruct l' as [|[] l']; try exact E. exfalso. apply NB; [reflexivity|]. now rewrite <- H.
      - destruct j; try exact E. exfalso. clear -K. inversion K; discriminate. }
    clear E. destruct (tign k (p ++ l')) as [[[r1 u1] l1]|] eqn:E1; [|discriminate E'].
    destruct (IH _ _ H _ _ _ E1) as [-> ->]. injection E' as <- <- <-. auto.
  - intros x n K N1 N2 N3 [|k] l' H r u l2 E; [discriminate E|].
    destruct (skips_head _ K) as (j & y & -> & O). cbn [app] in E. rewrite tign_arr_open in E by exact O.
    change (j :: y ++ l') with ((j :: y) ++ l') in E.
    destruct (tign k ((j :: y) ++ l')) as [[[r1 u1] l1]|] eqn:E1; [|discriminate E].
    rewrite <- H in N3. destruct (skip_then _ _ _ _ _ _ K N3 E1) as [-> ->].
    destruct l' as [|[] l']; simpl in H; subst n; try (injection E as <- <- <-; auto); congruence.
  - intros x p n m K _ IH [|k] l' H r u l2 E; [discriminate E|].
    destruct (skips_head _ K) as (j & y & -> & O). rewrite <- app_assoc in E. cbn [app] in E.
    rewrite tign_arr_open in E by exact O.
    change (j :: y ++ KComma :: p ++ l') with ((j :: y) ++ KComma :: p ++ l') in E.
    destruct (tign k ((j :: y) ++ KComma :: p ++ l')) as [[[r1 u1] l1]|] eqn:E1; [|discriminate E].
    destruct (proj1 skips_complete _ K _ _ _ _ _ E1) as [-> ->]; [discriminate|]. eapply IH; eauto.
  - intros n N1 N2 [|k] l' H r u l2 E; [discriminate E|]. cbn [app] in E. rewrite tign_obj_S in E.
    destruct l' as [|[] l']; simpl in H; subst n; try (injection E as <- <- <-; auto); congruence.
  - intros s n N [|k] l' H r u l2 E; [discriminate E|]. cbn [app] in E. rewrite tign_obj_S in E.
    destruct l' as [|[] l']; simpl in H; subst n; try (injection E as <- <- <-; auto); congruence.
  - intros s p n m K IH [|k] l' H r u l2 E; [discriminate E|]. cbn [app] in E. rewrite tign_obj_S in E.
    destruct (tign k (p ++ l')) as [[[r1 u1] l1]|] eqn:E1; [|discriminate E].
    destruct (IH _ _ H _ _ _ E1) as [-> ->]. injection E as <- <- <-. auto.
  - intros s x n K N1 N2 N3 [|k] l' H r u l2 E; [discriminate E|]. cbn [app] in E. rewrite tign_obj_S in E.
    destruct (tign k (x ++ l')) as [[[r1 u1] l1]|] eqn:E1; [|discriminate E].
    rewrite <- H in N3. destruct (skip_then _ _ _ _ _ _ K N3 E1) as [-> ->].
    destruct l' as [|[] l']; simpl in H; subst n; try (injection E as <- <- <-; auto); congruence.
  - intros s x p n m K _ IH [|k] l' H r u l2 E; [discriminate E|]. cbn [app] in E. rewrite <- app_assoc in E. cbn [app] in E.
    rewrite tign_obj_S in E.
    destruct (tign k (x ++ KComma :: p ++ l')) as [[[r1 u1] l1]|] eqn:E1; [|discriminate E].
    destruct (proj1 skips_complete _ K _ _ _ _ _ E1) as [-> ->]; [discriminate|]. eapply IH; eauto.
Qed.

(** ** Values *)

(** Whether tokens are a value does not depend on the previous value. *)
Lemma takes_any w t v x v' : takes w t v x v' -> forall u, shape t u = true -> exists u', takes w t u x u'.
Proof.
  revert t v x v'.
  apply (takes_mut w
    (fun t v x v' _ => forall u, shape t u = true -> exists u', takes w t u x u')
    (fun t l x l' _ => forall l2, exists l3, takes_elems w t l2 x l3)
    (fun ms g vs x vs' _ => forall us, shapes ms us -> exists us', takes_members w ms g us x us')
    (fun ms g vs name x vs' _ => forall us, shapes ms us -> exists us', takes_member w ms g us name x us')).
  - intros p x0 k x H u S. destruct u; try discriminate S. eexists. constructor. exact H.
  - intros p e x0 k x H u S. destruct u; try discriminate S. eexists. constructor. exact H.
  - intros e s0 s u S. destruct u; try discriminate S. eexists. constructor.
  - intros s0 s H u S. destruct u; try discriminate S. eexists. constructor. exact H.
  - intros t l u S. destruct u; try discriminate S. eexists. apply tk_arr0.
  - intros t l x l' H IH u S. destruct u; try discriminate S. destruct (IH l0) as [l3 T]. eexists. apply tk_arr. exact T.
  - intros ms g vs u S. destruct u; try discriminate S. eexists. apply tk_obj0.
  - intros ms g vs x vs' H IH u S. destruct u; try discriminate S. destruct (IH l) as [l3 T]; [now apply shape_msg in S|].
    eexists. apply tk_obj. exact T.
  - intros t l x v H IH l2. eexists. apply te_last. exact H.
  - intros t l x v y l' H IH H2 IH2 l2. destruct (IH2 (l2 ++ [v])) as [l3 T]. eexists. eapply te_more; eauto.
  - intros ms g vs name x vs' H IH us S. destruct (IH us S) as [us' T]. eexists. apply tm_last. exact T.
  - intros ms g vs name x vs1 y vs' H IH H2 IH2 us S. destruct (IH us S) as [us1 T].
    destruct (IH2 us1) as [us2 T2]; [eapply takes_member_shape; eauto|]. eexists. eapply tm_more; eauto.
  - intros ms g vs name x F K us S. eexists. now apply tf_unknown.
  - intros ms g vs name k t v F V us S. pose proof (field_of_some _ _ _ _ _ F) as [_ M].
    destruct (Forall2_nth_error _ _ _ _ _ S M) as (u & U & Su). eexists. eapply tf_null; eauto.
  - intros ms g vs name k t v x v' F V H IH us S. pose proof (field_of_some _ _ _ _ _ F) as [_ M].
    destruct (Forall2_nth_error _ _ _ _ _ S M) as (u & U & Su). destruct (IH u Su) as [u' T]. eexists. eapply tf_value; eauto.
Qed.

Lemma fits_read n t x v l' r v2 l2 : fits t x -> lookup_ok t -> shape t v = true ->
  tread true n t v (x ++ l') = Some (r, v2, l2) -> r = TOk /\ l2 = l' /\ takes true t v x v2.
Proof.
  intros (v0 & v1 & T) LO S E. destruct (takes_any _ _ _ _ _ T v S) as [v3 T3].
  destruct (complete _ _ _ _ _ T3 LO _ _ _ _ _ E) as (-> & -> & ->). auto.
Qed.

Lemma tmember_of w nf ms g name vs l :
  (forall name, select_member g name = member_named (g_write g) name) ->
  tmember g (map (tread w nf) ms) name vs l =
  match field_of ms g name with
  | Some (k, t) => match nth_error vs k with
                   | Some v => match tread w nf t v l with
                               | None => None
                               | Some (r, v', l1) => Some (r, set_nth k v' vs, l1)
                               end
                   | None => Some (TNil, vs, l)
                   end
  | None => Some (TNil, vs, l)
  end.
Proof.
  intros LO. unfold tmember, field_of. rewrite LO. destruct (member_named (g_write g) name) as [k|]; [|reflexivity].
  rewrite nth_error_map. destruct (nth_error ms k); reflexivity.
Qed.

Definition sound (n : nat) (t : ty) : Prop := forall v l c m x l', shape t v = true ->
  tread true n t v l = Some (TErr c m, x, l') -> exists p, l = p ++ l' /\ fault t p (hd_error l') c m.

Lemma start_fault t l c m : (c, m) = start_error t -> hd_error l <> Some KNull ->
  (forall k, hd_error l = Some k -> opens t k = false) -> exists p, l = p ++ l /\ fault t p (hd_error l) c m.
Proof.
  intros E N O. exists []. split; [reflexivity|]. replace c with (fst (start_error t)) by now rewrite <- E.
  replace m with (snd (start_error t)) by now rewrite <- E. now constructor.
Qed.

Lemma scalar_sound n t : match t with TRep _ | TMsg _ _ => False | _ => True end -> sound n t.
Proof.
  intros Sc v l c m x l' S E.
  assert (G : l' = l /\ (c, m) = start_error t /\ hd_error l <> Some KNull /\
    (forall k, hd_error l = Some k -> opens t k = false)).
  { destruct t, v; try contradiction; try discriminate S; cbn [tread] in E.
    - destruct (tprim p p0 l) as [[r1 x1] l1] eqn:P. cbn [tmap] in E. injection E as -> _ ->.
      destruct l as [|[] l0]; destruct p; simpl in P; try discriminate P; injection P as <- <- _ <-;
        (split; [reflexivity|]; split; [reflexivity|]; split; [discriminate|]; simpl; intros k K; try discriminate K; injection K as <-; reflexivity).
    - injection E as E. unfold tfield in E. destruct (tprim p (pzero p) l) as [[r1 x1] l1] eqn:P.
      assert (r1 = TErr c m /\ l1 = l') as [-> ->] by (destruct r1; try discriminate E; injection E; auto; intros; subst; auto). clear E.
      destruct l as [|[] l0]; destruct p; simpl in P; try discriminate P; injection P as <- <- _ <-;
        (split; [reflexivity|]; split; [reflexivity|]; split; [discriminate|]; simpl; intros k K; try discriminate K; injection K as <-; reflexivity).
    - injection E as E. destruct l as [|[] l0]; simpl in E; try discriminate E; injection E as <- <- _ <-;
        (split; [reflexivity|]; split; [reflexivity|]; split; [discriminate|]; simpl; intros k K; try discriminate K; injection K as <-; reflexivity).
    - injection E as E. destruct l as [|[] l0]; simpl in E; try discriminate E;
        try (injection E as <- <- _ <-;
        (split; [reflexivity|]; split; [reflexivity|]; split; [discriminate|]; simpl; intros k K; try discriminate K; injection K as <-; reflexivity)).
      destruct (b64_decode s0) as [o bad]. destruct (bad && true); discriminate E. }
  destruct G as (-> & G1 & G2 & G3). now apply start_fault.
Qed.

Lemma ok_fits n t v l x l' : lookup_ok t -> shape t v = true ->
  tread true n t v l = Some (TOk, x, l') -> exists p, l = p ++ l' /\ fits t p /\ takes true t v p x.
Proof.
  intros LO S E. destruct (run_ok _ _ _ _ _ _ _ LO S E) as (p & -> & T). exists p. split; [reflexivity|].
  split; [now exists v, x|exact T].
Qed.

Lemma tarr_sound nf t : lookup_ok t -> sound nf t -> forall n acc l c m x l',
  tarr n (tread true nf t) (dflt t) acc l = Some (TErr c m, x, l') ->
  exists p, l = p ++ l' /\ elems_fault t p (hd_error l') c m.
Proof.
  intros LO SD. induction n as [|n IH]; intros acc l c m x l' E; [discriminate E|]. rewrite tarr_S in E.
  destruct (tread true nf t (dflt t) l) as [[[r1 y1] l1]|] eqn:E1; [|discriminate E].
  destruct r1.
  - destruct (ok_fits _ _ _ _ _ _ LO (dflt_shape t) E1) as (p & -> & F & _). cbv zeta iota in E.
    assert (Sep : hd_error l1 <> Some KComma -> hd_error l1 <> Some KRBrack ->
      Some (TErr PGERR_INVALID_ARRAY (b "invalid array"), acc ++ [y1], l1) = Some (TErr c m, x, l') ->
      exists p0, p ++ l1 = p0 ++ l' /\ elems_fault t p0 (hd_error l') c m).
    { intros N1 N2 G. injection G as <- <- _ <-. exists p. split; [reflexivity|]. now apply fe_sep. }
    destruct l1 as [|[] l2]; try (apply Sep; [discriminate|discriminate|exact E]); [discriminate E|].
    apply IH in E as (q & -> & K). exists (p ++ KComma :: q). split; [now rewrite <- app_assoc|]. now apply fe_more.
  - destruct (tread_nil _ _ _ _ _ _ _ E1) as (-> & l0 & ->). cbv zeta iota in E. injection E as <- <- _ <-.
    exists []. split; [reflexivity|constructor].
  - injection E as <- <- _ <-. destruct (SD _ _ _ _ _ _ (dflt_shape t) E1) as (p & -> & F). exists p. split; [reflexivity|].
    now apply fe_value.
  - discriminate E.
Qed.

Lemma tvalue_ok nf ms g name vs l x l' : lookup_ok (TMsg ms g) -> shapes ms vs ->
  tvalue nf (tmember g (map (tread true nf) ms)) name vs l = Some (TOk, x, l') ->
  exists p, l = p ++ l' /\ takes_member true ms g vs name p x /\
    (match field_of ms g name with
     | None => skips p /\ (l' = [] -> (2 <= length p)%nat)
     | Some (_, t) => fits t p \/ (p = [KNull] /\ l' <> [])
     end).
Proof.
  intros LO S E. pose proof (lookup_ok_msg ms g) as [LM _]. destruct (LM LO) as [LO1 LO2]. clear LM.
  assert (RD : Forall (rd_run true nf) ms).
  { rewrite Forall_forall in *. intros t I. apply tread_run. auto. }
  destruct (tvalue_run true nf ms g name vs RD LO1 S _ _ _ _ E) as (p & -> & _ & T). exists p. split; [reflexivity|].
  split; [exact T|]. unfold tvalue in E. rewrite tmember_of in E by exact LO1.
  destruct (field_of ms g name) as [[k t]|] eqn:F.
  - pose proof (field_of_some _ _ _ _ _ F) as [_ M].
    destruct (Forall2_nth_error _ _ _ _ _ S M) as (v & V & Sv). rewrite V in E.
    rewrite Forall_forall in LO2. pose proof (LO2 t (nth_error_In _ _ M)) as LT.
    destruct (tread true nf t v (p ++ l')) as [[[r1 y1] l1]|] eqn:E1; [|discriminate E].
    destruct r1; try discriminate E.
    + left. injection E as _ <-. destruct (ok_fits _ _ _ _ _ _ LT Sv E1) as (q & Q & FT & _).
      apply app_inv_tail in Q. now subst.
    + right. destruct (tread_nil _ _ _ _ _ _ _ E1) as (-> & l0 & Q). rewrite Q in E.
      destruct nf as [|nf]; [discriminate E|]. cbn [tign] in E. destruct l0 as [|k0 l0]; [discriminate E|]. injection E as _ <-.
      split; [|discriminate]. apply (app_inv_tail (k0 :: l0)). exact Q.
  - destruct (tign nf (p ++ l')) as [[[r1 y1] l1]|] eqn:E1; [|discriminate E]. injection E as -> _ ->.
    destruct (tign_ok _ _ _ _ E1) as (q & Q & K). apply app_inv_tail in Q. subst q. split; [exact K|].
    intros ->. apply tign_ok_nil in E1. now rewrite app_nil_r in E1.
Qed.

Lemma tvalue_sound nf ms g name vs l c m x l' : lookup_ok (TMsg ms g) -> shapes ms vs -> Forall (sound nf) ms ->
  tvalue nf (tmember g (map (tread true nf) ms)) name vs l = Some (TErr c m, x, l') ->
  exists p, l = p ++ l' /\ member_fault ms g name p (hd_error l') c m.
Proof.
  intros LO S SD E. pose proof (lookup_ok_msg ms g) as [LM _]. destruct (LM LO) as [LO1 LO2]. clear LM.
  unfold tvalue in E. rewrite tmember_of in E by exact LO1.
  destruct (field_of ms g name) as [[k t]|] eqn:F.
  - pose proof (field_of_some _ _ _ _ _ F) as [_ M].
    destruct (Forall2_nth_error _ _ _ _ _ S M) as (v & V & Sv). rewrite V in E.
    destruct (tread true nf t v l) as [[[r1 y1] l1]|] eqn:E1; [|discriminate E].
    destruct r1; try discriminate E.
    + destruct (tread_nil _ _ _ _ _ _ _ E1) as (-> & l0 & ->).
      destruct nf as [|nf]; [discriminate E|]. cbn [tign] in E. destruct l0 as [|k0 l0]; [|discriminate E].
      injection E as <- <- _ <-. exists [KNull]. split; [reflexivity|]. eapply fv_null; eauto.
    + injection E as -> -> _ ->. rewrite Forall_forall in SD.
      destruct (SD t (nth_error_In _ _ M) _ _ _ _ _ _ Sv E1) as (p & -> & FT). exists p. split; [reflexivity|].
      eapply fv_value; eauto.
  - destruct (tign nf l) as [[[r1 y1] l1]|] eqn:E1; [|discriminate E]. injection E as -> _ ->.
    destruct (proj1 (tign_fault nf) _ _ _ _ _ E1) as (-> & p & -> & FT). exists p. split; [reflexivity|]. now apply fv_skip.
Qed.

Lemma tobj_sound nf ms g : lookup_ok (TMsg ms g) -> Forall (sound nf) ms -> forall n vs l c m x l', shapes ms vs ->
  tobj n nf (tmember g (map (tread true nf) ms)) vs l = Some (TErr c m, x, l') ->
  exists p, l = p ++ l' /\ members_fault ms g p (hd_error l') c m.
Proof.
  intros LO SD. induction n as [|n IH]; intros vs l c m x l' S E; [discriminate E|]. rewrite tobj_S in E.
  destruct l as [|k l1].
  { injection E as <- <- _ <-. exists []. split; [reflexivity|]. now constructor. }
  assert (Nm : (forall s, k <> KStr s) ->
    Some (TErr PGERR_INVALID_NAME (b "object key must be string"), vs, k :: l1) = Some (TErr c m, x, l') ->
    exists p, k :: l1 = p ++ l' /\ members_fault ms g p (hd_error l') c m).
  { intros N1 G. injection G as <- <- _ <-. exists []. split; [reflexivity|]. constructor; simpl; congruence. }
  destruct k; try (apply Nm; [discriminate|exact E]).
  assert (Cl : (forall r, l1 <> KColon :: r) ->
    Some (TErr PGERR_INVALID_SEPARATOR (b "field name and value must be separated by ':'"), vs, l1) = Some (TErr c m, x, l') ->
    exists p, KStr s :: l1 = p ++ l' /\ members_fault ms g p (hd_error l') c m).
  { intros N G. injection G as <- <- _ <-. exists [KStr s]. split; [reflexivity|].
    constructor. destruct l1; [discriminate|]. simpl. intros K. injection K as ->. now apply (N l1). }
  destruct l1 as [|[] l1]; try (apply Cl; [discriminate|exact E]).
  destruct (tvalue nf (tmember g (map (tread true nf) ms)) s vs l1) as [[[[] u1] l2]|] eqn:E1; try discriminate E.
  - destruct (tvalue_ok _ _ _ _ _ _ _ _ LO S E1) as (p & -> & T & K).
    assert (Sep : hd_error l2 <> Some KComma -> hd_error l2 <> Some KRBrace ->
      Some (TErr PGERR_INVALID_OBJECT (b "invalid JSON object"), u1, l2) = Some (TErr c m, x, l') ->
      exists p0, KStr s :: KColon :: p ++ l2 = p0 ++ l' /\ members_fault ms g p0 (hd_error l') c m).
    { intros N1 N2 G. injection G as <- <- _ <-. exists (KStr s :: KColon :: p). split; [reflexivity|].
      apply fm_value. destruct (field_of ms g s) as [[k t]|] eqn:F.
      - destruct K as [K|[-> K]]; [eapply fv_value_sep; eauto|].
        destruct l2 as [|j l2]; [congruence|]. simpl in *. eapply fv_null_sep; [exact F|congruence..].
      - destruct K as [K1 K2]. apply fv_skip_sep; auto. intros N. apply K2. now apply hd_nil. }
    destruct l2 as [|[] l2]; try (apply Sep; [discriminate|discriminate|exact E]); [discriminate E|].
    apply IH in E as (q & -> & G); [|eapply takes_member_shape; eauto].
    exists (KStr s :: KColon :: p ++ KComma :: q). split; [cbn [app]; now rewrite <- app_assoc|]. apply fm_more; [|exact G].
    destruct (field_of ms g s) as [[k t]|] eqn:F.
    + destruct K as [K|[-> K]]; [eapply mf_value; eauto|eapply mf_null; eauto].
    + destruct K as [K1 K2]. now apply mf_skip.
  - injection E as <- <- _ <-. destruct (tvalue_sound _ _ _ _ _ _ _ _ _ _ LO S SD E1) as (p & -> & G).
    exists (KStr s :: KColon :: p). split; [reflexivity|]. now apply fm_value.
Qed.

Lemma tread_sound n t : lookup_ok t -> sound n t.
Proof.
  induction t using ty_ind2; intros LO; try (apply scalar_sound; exact I).
  - intros v l c m x l' S E. destruct v; try discriminate S. cbn [tread] in E.
    destruct (tarray n (tread true n t) (dflt t) l0 l) as [[[r1 x1] l1]|] eqn:Q; [|discriminate E].
    cbn [tmap] in E. injection E as -> _ ->. unfold tarray in Q.
    assert (St : Some (TErr PGERR_INVALID_ARRAY (b "invalid array"), l0, l) = Some (TErr c m, x1, l') ->
      hd_error l <> Some KNull -> hd_error l <> Some KLBrack ->
      exists p, l = p ++ l' /\ fault (TRep t) p (hd_error l') c m).
    { intros G N1 N2. injection G as <- <- _ <-. apply start_fault; [reflexivity|exact N1|].
      intros k K. destruct k; try reflexivity. congruence. }
    destruct l as [|[] l]; try (apply St; [exact Q|discriminate|discriminate]); [|discriminate Q].
    assert (Q' : tarr n (tread true n t) (dflt t) l0 l = Some (TErr c m, x1, l') /\ hd_error l <> Some KRBrack).
    { destruct l as [|[] l]; try (split; [exact Q|discriminate]). discriminate Q. }
    clear Q St. destruct Q' as [Q N]. apply tarr_sound in Q as (p & -> & F); auto.
    exists (KLBrack :: p). split; [reflexivity|]. apply fa_arr; [exact F|]. intros ->. exact N.
  - rename H into IH. intros v l c m x l' S E. destruct v; try discriminate S. cbn [tread] in E.
    destruct (tobject n (tmember g (map (tread true n) ms)) l0 l) as [[[r1 x1] l1]|] eqn:Q; [|discriminate E].
    cbn [tmap] in E. injection E as -> _ ->. unfold tobject in Q.
    assert (SD : Forall (sound n) ms).
    { apply lookup_ok_msg in LO as [_ LO]. rewrite Forall_forall in *. auto. }
    apply shape_msg in S.
    assert (St : Some (TErr PGERR_INVALID_OBJECT (b "objects must start with '{'"), l0, l) = Some (TErr c m, x1, l') ->
      hd_error l <> Some KNull -> hd_error l <> Some KLBrace ->
      exists p, l = p ++ l' /\ fault (TMsg ms g) p (hd_error l') c m).
    { intros G N1 N2. injection G as <- <- _ <-. apply start_fault; [reflexivity|exact N1|].
      intros k K. destruct k; try reflexivity. congruence. }
    destruct l as [|[] l]; try (apply St; [exact Q|discriminate|discriminate]); [|discriminate Q].
    assert (Q' : tobj n n (tmember g (map (tread true n) ms)) l0 l = Some (TErr c m, x1, l') /\ hd_error l <> Some KRBrace).
    { destruct l as [|[] l]; try (split; [exact Q|discriminate]). discriminate Q. }
    clear Q St. destruct Q' as [Q N]. apply tobj_sound in Q as (p & -> & F); auto.
    exists (KLBrace :: p). split; [reflexivity|]. apply fa_obj; [exact F|]. intros ->. exact N.
Qed.

(** ** Completeness *)
Lemma start_reports k t v l' : shape t v = true -> hd_error l' <> Some KNull ->
  (forall j, hd_error l' = Some j -> opens t j = false) ->
  reports (tread true k t v l') (fst (start_error t)) (snd (start_error t)) l'.
Proof.
  intros S N O r u l2 E.
  assert (O' : match l' with j :: _ => j <> KNull /\ opens t j = false | [] => True end).
  { destruct l' as [|j l']; [exact I|]. split; [intros ->; now apply N|]. now apply O. }
  clear N O. destruct t, v; try discriminate S; cbn [tread] in E;
    (destruct l' as [|j l'];
     [|destruct O' as [N O]; destruct j; try (now elim N)]);
    try (destruct p; try discriminate O; cbn in E; injection E as <- <- <-; auto; fail);
    try (discriminate O); cbn in E; injection E as <- <- <-; auto.
Qed.

Lemma fits_head t x : fits t x -> exists k y, x = k :: y /\ opener k = true /\ k <> KNull.
Proof. intros (v & v' & T). eapply takes_head; eauto. Qed.

Lemma member_then nf ms g s x : member_fits ms g s x -> lookup_ok (TMsg ms g) -> forall vs k l' r u l2,
  shapes ms vs ->
  tvalue nf (tmember g (map (tread true nf) ms)) s vs (x ++ k :: l') = Some (r, u, l2) ->
  r = TOk /\ l2 = k :: l' /\ shapes ms u.
Proof.
  intros M LO vs k0 l' r u l2 S E. pose proof (lookup_ok_msg ms g) as [LM _]. destruct (LM LO) as [LO1 LO2]. clear LM.
  unfold tvalue in E. rewrite tmember_of in E by exact LO1. rewrite Forall_forall in LO2.
  destruct M as [ms g s x F K|ms g s k t F|ms g s k t x F K]; rewrite F in E.
  - destruct (tign nf (x ++ k0 :: l')) as [[[r1 y1] l1]|] eqn:E1; [|discriminate E]. injection E as <- <- <-.
    assert (N : hd_error (k0 :: l') = None -> (2 <= length x)%nat) by discriminate.
    destruct (skip_then _ _ _ _ _ _ K N E1) as [-> ->]. auto.
  - pose proof (field_of_some _ _ _ _ _ F) as [_ M]. destruct (Forall2_nth_error _ _ _ _ _ S M) as (v & V & Sv). rewrite V in E.
    destruct (tread true nf t v ([KNull] ++ k0 :: l')) as [[[r1 y1] l1]|] eqn:E1; [|discriminate E].
    pose proof (tread_run _ _ _ (LO2 t (nth_error_In _ _ M)) v Sv _ _ _ _ E1) as RUN.
    assert (r1 = TNil) as ->.
    { clear -E1 Sv. destruct t, v; try discriminate Sv; cbn in E1; try (injection E1 as <- _ _; reflexivity). }
    destruct (tread_nil _ _ _ _ _ _ _ E1) as (-> & _).
    destruct (tign nf ([KNull] ++ k0 :: l')) as [[[r2 y2] l3]|] eqn:E2; [|discriminate E]. injection E as <- <- <-.
    destruct nf as [|nf]; [discriminate E2|]. cbn [app tign] in E2. injection E2 as <- _ <-.
    split; [reflexivity|]. split; [reflexivity|]. unfold shapes. eapply Forall2_set_nth; eauto.
    destruct RUN as (q & _ & _ & _ & ->). clear -Sv. destruct t, v; try discriminate Sv; try exact Sv; reflexivity.
  - pose proof (field_of_some _ _ _ _ _ F) as [_ M]. destruct (Forall2_nth_error _ _ _ _ _ S M) as (v & V & Sv). rewrite V in E.
    destruct (tread true nf t v (x ++ k0 :: l')) as [[[r1 y1] l1]|] eqn:E1; [|discriminate E].
    destruct (fits_read _ _ _ _ _ _ _ _ K (LO2 t (nth_error_In _ _ M)) Sv E1) as (-> & -> & T). injection E as <- <- <-.
    split; [reflexivity|]. split; [reflexivity|]. unfold shapes. eapply Forall2_set_nth; eauto. eapply takes_shape; eauto.
Qed.

Lemma null_read n t v l' r v2 l2 : shape t v = true ->
  tread true n t v (KNull :: l') = Some (r, v2, l2) -> r = TNil /\ l2 = KNull :: l'.
Proof.
  intros S E. destruct t, v; try discriminate S; cbn in E; injection E as <- _ <-; auto.
Qed.

(** What the reader returned when it failed with an error inside a member, the array or
    the object itself. *)
Lemma fault_complete :
  forall t p n c m, fault t p n c m -> lookup_ok t -> forall k v l', shape t v = true -> hd_error l' = n ->
    reports (tread true k t v (p ++ l')) c m l'.
Proof.
  apply (fault_mut
    (fun t p n c m _ => lookup_ok t -> forall k v l', shape t v = true -> hd_error l' = n ->
       reports (tread true k t v (p ++ l')) c m l')
    (fun t p n c m _ => lookup_ok t -> forall k j acc l', hd_error l' = n ->
       reports (tarr j (tread true k t) (dflt t) acc (p ++ l')) c m l')
    (fun ms g p n c m _ => lookup_ok (TMsg ms g) -> forall k j vs l', shapes ms vs -> hd_error l' = n ->
       reports (tobj j k (tmember g (map (tread true k) ms)) vs (p ++ l')) c m l')
    (fun ms g s p n c m _ => lookup_ok (TMsg ms g) -> forall k j vs l', shapes ms vs -> hd_error l' = n ->
       reports (tobj j k (tmember g (map (tread true k) ms)) vs (KStr s :: KColon :: p ++ l')) c m l')).
  - intros t n N O LO k v l' S <-. now apply start_reports.
  - intros t p n c m F IH N LO k v l' S Hn r u l2 E. destruct v; try discriminate S. cbn [app tread] in E.
    destruct (tarray k (tread true k t) (dflt t) l (KLBrack :: p ++ l')) as [[[r1 x1] l1]|] eqn:Q; [|discriminate E].
    cbn [tmap] in E. injection E as <- <- <-. unfold tarray in Q.
    assert (Q' : tarr k (tread true k t) (dflt t) l (p ++ l') = Some (r1, x1, l1)).
    { destruct p as [|[] p]; cbn [app] in *; try exact Q.
      - specialize (N eq_refl). subst n. destruct l' as [|[] l']; try exact Q. now elim N.
      - exfalso. clear -F. inversion F; subst.
        + match goal with G : fault _ _ _ _ _ |- _ => inversion G end.
        + match goal with G : fits _ _ |- _ => apply fits_head in G as (k & y & G & O & _) end.
          match goal with G : _ :: _ = _ :: _ |- _ => injection G as <- _ end. discriminate O.
        + match goal with G : fits _ _ |- _ => apply fits_head in G as (k & y & -> & O & _) end.
          match goal with G : (_ :: _) ++ _ = _ :: _ |- _ => injection G as -> _ end. discriminate O. }
    eapply IH; eauto.
  - intros ms g p n c m F IH N LO k v l' S Hn r u l2 E. destruct v; try discriminate S. cbn [app tread] in E.
    destruct (tobject k (tmember g (map (tread true k) ms)) l (KLBrace :: p ++ l')) as [[[r1 x1] l1]|] eqn:Q; [|discriminate E].
    cbn [tmap] in E. injection E as <- <- <-. unfold tobject in Q.
    assert (Q' : tobj k k (tmember g (map (tread true k) ms)) l (p ++ l') = Some (r1, x1, l1)).
    { destruct p as [|[] p]; cbn [app] in *; try exact Q.
      - specialize (N eq_refl). subst n. destruct l' as [|[] l']; try exact Q. now elim N.
      - exfalso. clear -F. inversion F. }
    apply shape_msg in S. eapply IH; eauto.
  - intros t LO k j acc l' Hn r u l2 E. destruct l' as [|k0 l']; [discriminate Hn|]. injection Hn as ->. cbn [app] in E.
    destruct j as [|j]; [discriminate E|]. rewrite tarr_S in E.
    destruct (tread true k t (dflt t) (KNull :: l')) as [[[r1 y1] l1]|] eqn:E1; [|discriminate E].
    apply null_read in E1 as [-> ->]; [|apply dflt_shape]. cbv zeta iota in E. injection E as <- <- <-. auto.
  - intros t p n c m F IH LO k j acc l' Hn r u l2 E.
    destruct j as [|j]; [discriminate E|]. rewrite tarr_S in E.
    destruct (tread true k t (dflt t) (p ++ l')) as [[[r1 y1] l1]|] eqn:E1; [|discriminate E].
    apply IH in E1 as [-> ->]; auto using dflt_shape. cbv zeta iota in E. injection E as <- <- <-. auto.
  - intros t x n F N1 N2 LO k j acc l' Hn r u l2 E.
    destruct j as [|j]; [discriminate E|]. rewrite tarr_S in E.
    destruct (tread true k t (dflt t) (x ++ l')) as [[[r1 y1] l1]|] eqn:E1; [|discriminate E].
    destruct (fits_read _ _ _ _ _ _ _ _ F LO (dflt_shape t) E1) as (-> & -> & T). cbv zeta iota in E. subst n.
    destruct l' as [|[] l']; try (injection E as <- <- <-; auto; fail); [now elim N2|now elim N1].
  - intros t x p n c m F G IH LO k j acc l' Hn r u l2 E. rewrite <- app_assoc in E. cbn [app] in E.
    destruct j as [|j]; [discriminate E|]. rewrite tarr_S in E.
    destruct (tread true k t (dflt t) (x ++ KComma :: p ++ l')) as [[[r1 y1] l1]|] eqn:E1; [|discriminate E].
    destruct (fits_read _ _ _ _ _ _ _ _ F LO (dflt_shape t) E1) as (-> & -> & T). cbv zeta iota in E.
    eapply IH; eauto.
  - intros ms g n N LO k j vs l' S Hn r u l2 E. cbn [app] in E.
    destruct j as [|j]; [discriminate E|]. rewrite tobj_S in E. subst n.
    destruct l' as [|k0 l']; [injection E as <- <- <-; auto|].
    destruct k0; try (injection E as <- <- <-; auto; fail). now elim (N s).
  - intros ms g s n N LO k j vs l' S Hn r u l2 E. cbn [app] in E.
    destruct j as [|j]; [discriminate E|]. rewrite tobj_S in E. subst n.
    destruct l' as [|k0 l']; [injection E as <- <- <-; auto|].
    destruct k0; try (injection E as <- <- <-; auto; fail). now elim N.
  - intros ms g s p n c m F IH LO k j vs l' S Hn. exact (IH LO k j vs l' S Hn).
  - intros ms g s x p n c m F G IH LO k j vs l' S Hn r u l2 E. cbn [app] in E. rewrite <- app_assoc in E. cbn [app] in E.
    destruct j as [|j]; [discriminate E|]. rewrite tobj_S in E.
    destruct (tvalue k (tmember g (map (tread true k) ms)) s vs (x ++ KComma :: p ++ l')) as [[[r1 y1] l1]|] eqn:E1; [|discriminate E].
    destruct (member_then _ _ _ _ _ F LO _ _ _ _ _ _ S E1) as (-> & -> & S1). eapply IH; eauto.
  - intros ms g s p n m F K LO k j vs l' S Hn r u l2 E.
    destruct j as [|j]; [discriminate E|]. rewrite tobj_S in E. pose proof (proj1 (lookup_ok_msg ms g) LO) as [LO1 LO2].
    unfold tvalue in E. rewrite tmember_of in E by exact LO1. rewrite F in E.
    destruct (tign k (p ++ l')) as [[[r1 y1] l1]|] eqn:E1; [|discriminate E].
    destruct (proj1 skip_fault_complete _ _ _ K _ _ Hn _ _ _ E1) as [-> ->]. injection E as <- <- <-. auto.
  - intros ms g s x n F K N1 N2 LN LO k j vs l' S Hn r u l2 E.
    destruct j as [|j]; [discriminate E|]. rewrite tobj_S in E. pose proof (proj1 (lookup_ok_msg ms g) LO) as [LO1 LO2].
    unfold tvalue in E. rewrite tmember_of in E by exact LO1. rewrite F in E.
    destruct (tign k (x ++ l')) as [[[r1 y1] l1]|] eqn:E1; [|discriminate E]. subst n.
    destruct (skip_then _ _ _ _ _ _ K LN E1) as [-> ->].
    destruct l' as [|[] l']; try (injection E as <- <- <-; auto; fail); [now elim N2|now elim N1].
  - intros ms g s k0 t F LO k j vs l' S Hn r u l2 E. apply hd_nil in Hn as ->.
    destruct j as [|j]; [discriminate E|]. rewrite tobj_S in E. pose proof (proj1 (lookup_ok_msg ms g) LO) as [LO1 LO2].
    unfold tvalue in E. rewrite tmember_of in E by exact LO1. rewrite F in E.
    pose proof (field_of_some _ _ _ _ _ F) as [_ M]. destruct (Forall2_nth_error _ _ _ _ _ S M) as (v & V & Sv). rewrite V in E.
    destruct (tread true k t v ([KNull] ++ [])) as [[[r1 y1] l1]|] eqn:E1; [|discriminate E]. cbn [app] in E1.
    apply null_read in E1 as [-> ->]; [|exact Sv]. destruct k as [|k]; [discriminate E|]. cbn [tign] in E. injection E as <- <- <-. auto.
  - intros ms g s k0 t j0 F N1 N2 LO k j vs l' S Hn r u l2 E. destruct l' as [|k1 l']; [discriminate Hn|]. injection Hn as ->.
    destruct j as [|j]; [discriminate E|]. rewrite tobj_S in E. cbn [app] in E.
    destruct (tvalue k (tmember g (map (tread true k) ms)) s vs (KNull :: j0 :: l')) as [[[r1 y1] l1]|] eqn:E1; [|discriminate E].
    destruct (member_then k ms g s [KNull] (mf_null _ _ _ _ _ F) LO vs j0 l' _ _ _ S E1) as (-> & -> & S1).
    destruct j0; try (injection E as <- <- <-; auto; fail); [now elim N2|now elim N1].
  - intros ms g s k0 t p n c m F G IH LO k j vs l' S Hn r u l2 E.
    destruct j as [|j]; [discriminate E|]. rewrite tobj_S in E. pose proof (proj1 (lookup_ok_msg ms g) LO) as [LO1 LO2].
    unfold tvalue in E. rewrite tmember_of in E by exact LO1. rewrite F in E.
    pose proof (field_of_some _ _ _ _ _ F) as [_ M]. destruct (Forall2_nth_error _ _ _ _ _ S M) as (v & V & Sv). rewrite V in E.
    rewrite Forall_forall in LO2.
    destruct (tread true k t v (p ++ l')) as [[[r1 y1] l1]|] eqn:E1; [|discriminate E].
    apply IH in E1 as [-> ->]; eauto using nth_error_In. injection E as <- <- <-. auto.
  - intros ms g s k0 t x n F G N1 N2 LO k j vs l' S Hn r u l2 E.
    destruct j as [|j]; [discriminate E|]. rewrite tobj_S in E. pose proof (proj1 (lookup_ok_msg ms g) LO) as [LO1 LO2].
    unfold tvalue in E. rewrite tmember_of in E by exact LO1. rewrite F in E.
    pose proof (field_of_some _ _ _ _ _ F) as [_ M]. destruct (Forall2_nth_error _ _ _ _ _ S M) as (v & V & Sv). rewrite V in E.
    rewrite Forall_forall in LO2.
    destruct (tread true k t v (x ++ l')) as [[[r1 y1] l1]|] eqn:E1; [|discriminate E].
    destruct (fits_read _ _ _ _ _ _ _ _ G (LO2 t (nth_error_In _ _ M)) Sv E1) as (-> & -> & T). subst n.
    destruct l' as [|[] l']; try (injection E as <- <- <-; auto; fail); [now elim N2|now elim N1].
Qed.

Lemma skip_fault_msg : (forall p n m, skip_fault p n m -> m <> b "invalid base64 data") /\
  (forall p n m, skip_elems_fault p n m -> m <> b "invalid base64 data") /\
  (forall p n m, skip_members_fault p n m -> m <> b "invalid base64 data").
Proof. apply skip_fault_ind3; intros; (assumption || discriminate). Qed.

Lemma fault_msg t p n c m : fault t p n c m -> m <> b "invalid base64 data".
Proof.
  revert t p n c m. apply (fault_mut
    (fun t p n c m _ => m <> b "invalid base64 data") (fun t p n c m _ => m <> b "invalid base64 data")
    (fun ms g p n c m _ => m <> b "invalid base64 data") (fun ms g s p n c m _ => m <> b "invalid base64 data"));
    intros; try assumption; try discriminate.
  - destruct t as [[]|[]| | | |]; discriminate.
  - eapply (proj1 skip_fault_msg); eauto.
Qed.

(** ** The place and the next token are determined by the tokens read *)
Fixpoint trim (x : bytes) : bytes :=
  match x with c :: r => if is_ws_c c then trim r else x | [] => [] end.

Lemma lex_trim x : lex (trim x) = lex x.
Proof.
  induction x as [|c x IH]; [reflexivity|]. cbn [trim]. destruct (is_ws_c c) eqn:W; [|reflexivity].
  rewrite IH. symmetry. now apply lex_skip.
Qed.

Inductive lexn : bytes -> list jtok -> bytes -> Prop :=
  | ln_nil x : lexn x [] x
  | ln_tok x k r l y : lexn x l y -> lex y = Some (tid k, tval k, r) -> lexn x (l ++ [k]) r.

Lemma tokens_lexn pre post toks : tokens pre post toks ->
  exists y, lexn (nolf (pre ++ post)) toks y /\ trim y = trim (nolf post).
Proof.
  induction 1 as [x|pre c x l H IH W|pre u x l k H IH T].
  - eexists. split; [constructor|reflexivity].
  - destruct IH as (y & LN & E). exists y. rewrite <- app_assoc. split; [exact LN|]. rewrite E.
    clear -W. unfold ws_char in W. unfold nolf. cbn [filter]. unfold not_lf.
    destruct (Ascii.eqb c LF); [reflexivity|]. cbn [negb trim].
    replace (is_ws_c c) with true; [reflexivity|]. symmetry. unfold is_ws_c, is_ws_z. repeat rewrite schar_eqb by lia. lia.
  - destruct IH as (y & LN & E). rewrite <- app_assoc. exists (nolf x). split; [|reflexivity].
    apply (ln_tok _ _ _ _ _ LN). rewrite <- lex_trim, E, lex_trim, nolf_app.
    rewrite !drop_lf_nolf in T. now apply tok_lex.
Qed.

Lemma lexn_fun x l y : lexn x l y -> forall y2, lexn x l y2 -> y = y2.
Proof.
  induction 1 as [x|x k r l y H IH E]; intros y2 H2.
  - inversion H2 as [|? ? ? l0 ? ? ? E0]; [reflexivity|]. now destruct l0.
  - inversion H2 as [? E1 E0|? k0 r0 l0 y0 H0 E0 E1 E3]; [now destruct l|].
    match goal with G : _ ++ [_] = _ ++ [_] |- _ => apply app_inj_tail in G as [-> ->] end.
    apply IH in H0. subst y0. congruence.
Qed.

Lemma trim_token post : at_token post -> trim (nolf post) = nolf post.
Proof.
  destruct post as [|c r]; [reflexivity|]. intros W. cbn [at_token] in W. unfold ws_char in W.
  unfold nolf. cbn [filter]. destruct (not_lf c) eqn:N.
  - cbn [trim]. replace (is_ws_c c) with false; [reflexivity|]. symmetry. unfold is_ws_c, is_ws_z. repeat rewrite schar_eqb by lia. lia.
  - exfalso. unfold not_lf in N. destruct (Ascii.eqb_spec c LF) as [->|]; [discriminate W|discriminate N].
Qed.

Lemma nolf_nil x : nolf x = [] -> at_token x -> x = [].
Proof.
  destruct x as [|c r]; [reflexivity|]. unfold nolf. cbn [filter at_token]. intros E W. exfalso.
  unfold not_lf in E. destruct (Ascii.eqb_spec c LF) as [->|]; [discriminate W|discriminate E].
Qed.

Lemma same_place pre post toks pre' post' : pre ++ post = pre' ++ post' ->
  tokens pre post toks -> at_token post -> tokens pre' post' toks -> at_token post' -> pre = pre' /\ post = post'.
Proof.
  intros E T A T' A'. apply tokens_lexn in T as (y & LN & Y). apply tokens_lexn in T' as (y' & LN' & Y').
  rewrite E in LN. rewrite (lexn_fun _ _ _ LN _ LN') in Y. rewrite Y in Y'. rewrite !trim_token in Y' by assumption.
  assert (G : forall (d p q : bytes), p = d ++ q -> nolf p = nolf q -> at_token p -> d = []).
  { clear. intros d p q -> N A. destruct d as [|c d]; [reflexivity|]. rewrite nolf_app in N.
    assert (nolf (c :: d) = []) as K by (destruct (nolf (c :: d)); [reflexivity|]; apply (f_equal (@length _)) in N;
      rewrite app_length in N; simpl in N; lia).
    exfalso. apply nolf_nil in K; [discriminate K|exact A]. }
  destruct (app_eq_app _ _ _ _ E) as (d & [[-> ->]|[-> ->]]).
  - pose proof (G d (d ++ post) post eq_refl (eq_sym Y') A') as ->. now rewrite app_nil_r.
  - pose proof (G d (d ++ post') post' eq_refl Y' A) as ->. now rewrite app_nil_r.
Qed.

Lemma nolf_split post u r : nolf post = u ++ r -> exists p q, post = p ++ q /\ nolf p = u /\ nolf q = r.
Proof.
  revert u. induction post as [|c post IH]; intros u E.
  - destruct u; [|discriminate E]. exists [], []. split; [reflexivity|]. split; [reflexivity|exact E].
  - unfold nolf in E. cbn [filter] in E. fold (nolf post) in E. destruct (not_lf c) eqn:N.
    + destruct u as [|c' u].
      * exists [], (c :: post). split; [reflexivity|]. split; [reflexivity|]. unfold nolf. cbn [filter]. rewrite N. exact E.
      * injection E as -> E. destruct (IH _ E) as (p & q & -> & P & Q). exists (c' :: p), q.
        split; [reflexivity|]. split; [|exact Q]. unfold nolf. cbn [filter]. rewrite N. unfold nolf in P. now rewrite P.
    + destruct (IH _ E) as (p & q & -> & P & Q). exists (c :: p), q.
      split; [reflexivity|]. split; [|exact Q]. unfold nolf. cbn [filter]. now rewrite N.
Qed.

Lemma next_all post l : at_token post -> all_toks (nolf post) l -> next_is post (hd_error l).
Proof.
  intros A AL. inversion AL as [y ST E1 E2|y k r l3 LX AL2 E1 E2]; subst; cbn [hd_error next_is].
  - intros k u x -> T. rewrite !drop_lf_nolf in T. apply tok_lex in T. rewrite <- nolf_app in T.
    unfold stop_lex in ST. rewrite T in ST. destruct k; discriminate ST.
  - destruct (fun H1 => lex_tok (nolf post) _ _ _ H1 (nolf_not_in _) LX) as [E|(k2 & u & E & T & I & V)].
    + pose proof (trim_token _ A) as TR. destruct (nolf post) as [|c x]; [exact I|]. cbn [trim] in TR.
      destruct (is_ws_c c); [|reflexivity]. exfalso. apply (f_equal (@length _)) in TR. cbn [length] in TR.
      assert (L : forall z, (length (trim z) <= length z)%nat).
      { clear. induction z as [|a z IH]; [auto|]. cbn [trim]. destruct (is_ws_c a); simpl; lia. }
      specialize (L x). lia.
    + rewrite E in LX. destruct k; discriminate LX.
    + assert (k2 = k) as -> by (destruct k, k2; try discriminate I; simpl in V; congruence).
      destruct (nolf_split _ _ _ E) as (p & q & -> & P & Q). exists p, q. split; [reflexivity|].
      rewrite !drop_lf_nolf, P, Q. exact T.
Qed.

Lemma next_fun post n1 n2 : next_is post n1 -> next_is post n2 -> n1 = n2.
Proof.
  destruct n1 as [k|], n2 as [k2|]; intros A B; [|exfalso..|reflexivity].
  - destruct A as (u & x & -> & T), B as (u2 & x2 & E & T2). rewrite !drop_lf_nolf in T, T2. apply tok_lex in T, T2.
    rewrite <- nolf_app in T, T2. rewrite E, T2 in T. injection T as I V _. f_equal.
    destruct k, k2; try discriminate I; simpl in V; congruence.
  - destruct A as (u & x & E & T). exact (B _ _ _ E T).
  - destruct B as (u & x & E & T). exact (A _ _ _ E T).
Qed.

Lemma rest_toks inp L dn l' pre post : all_toks (nolf inp) L -> dn ++ l' = L -> inp = pre ++ post ->
  tokens pre post dn -> all_toks (nolf post) l'.
Proof.
  intros HL D -> T. destruct (all_toks_exist (nolf post) (nolf_not_in _)) as [rest AR].
  pose proof (tokens_all _ _ _ T _ AR) as G. pose proof (all_toks_fun _ _ HL _ G) as G2. rewrite <- D in G2.
  apply app_inv_head in G2. now subst.
Qed.

Lemma fault_found ty0 v inp p v' p' : has_ty ty0 v = true -> lookup_ok ty0 ->
  deserialize ty0 v inp (Some p) = Some (false, v', Some p') ->
  e_code (p_err p') <> PGERR_OK -> e_msg (p_err p') <> b "invalid base64 data" ->
  exists pre post toks next, inp = pre ++ post /\ tokens pre post toks /\ at_token post /\ next_is post next /\
    fault ty0 toks next (e_code (p_err p')) (e_msg (p_err p')).
Proof.
  intros S LO A NE NB. apply has_ty_shape in S.
  destruct (all_toks_exist (nolf inp) (nolf_not_in _)) as [L HL].
  destruct (deserialize_run _ _ _ _ _ _ _ _ HL S LO A) as (n & s & l' & t' & s2 & x2 & l2 & F & C & R & P & F2 & K).
  cbn [params_set_err clear_params] in P. injection P as ->. cbn [p_err] in *.
  destruct s2 as [| |c m|].
  - destruct K as (-> & _). destruct R as [_ R]. specialize (R eq_refl). discriminate R.
  - destruct K as (_ & _ & E). rewrite E in NE. now elim NE.
  - destruct K as (-> & -> & (-> & -> & _ & dn & pre & post & D & I & T & AT & LC)).
    destruct (tread_sound _ _ LO _ _ _ _ _ _ S F2) as (q & Q & FA).
    assert (q = dn) as -> by (rewrite <- D in Q; now apply app_inv_tail in Q).
    exists pre, post, dn, (hd_error l'). do 3 (split; [assumption|]). split; [|exact FA].
    apply next_all; [exact AT|]. eapply rest_toks; eauto.
  - destruct K as (EC & EM & _). congruence.
Qed.

Lemma fault_reported ty0 v p pre post toks next c m : has_ty ty0 v = true -> lookup_ok ty0 ->
  tokens pre post toks -> at_token post -> next_is post next -> fault ty0 toks next c m ->
  exists v' p', deserialize ty0 v (pre ++ post) (Some p) = Some (false, v', Some p') /\
    e_code (p_err p') = c /\ e_msg (p_err p') = m /\
    (line_col pre (e_line (p_err p')) (e_col (p_err p')) \/
     (e_line (p_err p') = 0 /\ e_col (p_err p') = 0 /\ at_quote post)).
Proof.
  intros S LO T AT N FA. apply has_ty_shape in S.
  destruct (all_toks_exist (nolf post) (nolf_not_in _)) as [rest AR].
  pose proof (tokens_all _ _ _ T _ AR) as HL.
  destruct (deserialize_total ty0 v (pre ++ post) (Some p)) as (r & v' & po' & A).
  destruct (deserialize_run _ _ _ _ _ _ _ _ HL S LO A) as (n & s & l' & t' & s2 & x2 & l2 & F & C & R & P & F2 & K).
  pose proof (next_fun _ _ _ N (next_all _ _ AT AR)) as E.
  destruct (fault_complete _ _ _ _ _ FA LO n v rest S (eq_sym E) _ _ _ F2) as [-> ->].
  destruct K as (-> & <- & (EC & EM & _ & dn & pre2 & post2 & D & I & T2 & AT2 & LC)).
  assert (r = false) as ->.
  { destruct r; [|reflexivity]. destruct R as [R _]. discriminate (R eq_refl). }
  cbn [params_set_err clear_params] in P. subst po'. exists v'. eexists. split; [exact A|]. cbn [p_err].
  split; [exact EC|]. split; [exact EM|].
  apply app_inv_tail in D. subst dn.
  destruct (same_place _ _ _ _ _ I T AT T2 AT2) as [-> ->]. exact LC.
Qed.

(** A Base64 text cut short: what is reported if the document is refused. *)
Lemma base64_reported ty0 v p pre post toks s0 v' p' : has_ty ty0 v = true -> lookup_ok ty0 ->
  tokens pre post (toks ++ [KStr s0]) -> at_token post -> viable true ty0 v toks ->
  (exists more v2, takes false ty0 v (toks ++ KStr s0 :: more) v2) ->
  (forall more v2, ~ takes true ty0 v (toks ++ KStr s0 :: more) v2) ->
  deserialize ty0 v (pre ++ post) (Some p) = Some (false, v', Some p') ->
  e_code (p_err p') = PGERR_INVALID_OBJECT /\ e_msg (p_err p') = b "invalid base64 data" /\
  (line_col pre (e_line (p_err p')) (e_col (p_err p')) \/
   (e_line (p_err p') = 0 /\ e_col (p_err p') = 0 /\ at_quote post)).
Proof.
  intros S LO T AT V X1 X2 A. apply has_ty_shape in S.
  destruct (all_toks_exist (nolf post) (nolf_not_in _)) as [rest AR].
  pose proof (tokens_all _ _ _ T _ AR) as HL. rewrite <- app_assoc in HL. cbn [app] in HL.
  destruct (deserialize_run _ _ _ _ _ _ _ _ HL S LO A) as (n & s & l' & t' & s2 & x2 & l2 & F & C & R & P & F2 & K).
  cbn [params_set_err clear_params] in P. injection P as ->. cbn [p_err] in *.
  destruct s2 as [| |c m|].
  - destruct K as (-> & _). destruct R as [_ R]. specialize (R eq_refl). discriminate R.
  - exfalso. destruct (tread_nil _ _ _ _ _ _ _ F2) as (_ & l0 & E). destruct X1 as (more & v2 & X1).
    destruct (takes_head _ _ _ _ _ X1) as (k & y & E2 & _ & NK). destruct toks as [|k0 toks]; [discriminate E|].
    cbn [app] in E, E2. congruence.
  - exfalso. destruct K as (-> & -> & _).
    destruct (run_stuck _ _ _ _ _ _ _ _ _ LO S F2) as (q & Q & (k & more & v2 & Vq) & _).
    destruct (run_stuck _ _ _ _ _ _ _ _ _ LO S F) as (q' & Q' & _ & DD).
    assert (q' = q) as -> by (rewrite Q' in Q; now apply app_inv_tail in Q).
    destruct (app_eq_app _ _ _ _ Q) as (d & [[E E2]|[E E2]]).
    + destruct d as [|k0 d].
      * cbn [app] in E2. subst l'. rewrite app_nil_r in E. subst q. destruct X1 as (m1 & v1 & X1). exact (DD _ _ X1).
      * subst l'. destruct X1 as (m1 & v1 & X1). rewrite E, <- app_assoc in X1. exact (DD _ _ X1).
    + destruct d as [|k0 d].
      * cbn [app] in E2. subst l'. rewrite app_nil_r in E. subst q. destruct X1 as (m1 & v1 & X1). exact (DD _ _ X1).
      * injection E2 as <- E2. rewrite E, <- app_assoc in Vq. exact (X2 _ _ Vq).
  - destruct K as (EC & EM & _ & dn & pre2 & post2 & D & I & T2 & AT2 & LC).
    destruct (run_bad _ _ _ _ _ _ LO S F2) as (q & s1 & Q & (k & more & v2 & Vq) & Y1 & Y2).
    assert (DN : dn = q ++ [KStr s1]).
    { apply (app_inv_tail l2). rewrite D, Q, <- app_assoc. reflexivity. }
    assert (E : toks ++ [KStr s0] = dn).
    { subst dn. destruct (app_eq_app _ _ _ _ Q) as (d & [[E E2]|[E E2]]).
      - destruct d as [|k0 d].
        + rewrite app_nil_r in E. subst q. cbn [app] in E2. injection E2 as -> ->. reflexivity.
        + injection E2 as <- E2. exfalso. destruct V as (k1 & m1 & v1 & V). rewrite E, <- app_assoc in V. exact (Y2 _ _ V).
      - destruct d as [|k0 d].
        + rewrite app_nil_r in E. subst q. cbn [app] in E2. injection E2 as -> ->. reflexivity.
        + injection E2 as <- E2. exfalso. rewrite E, <- app_assoc in Vq. exact (X2 _ _ Vq). }
    subst dn. rewrite E in T. destruct (same_place _ _ _ _ _ I T AT T2 AT2) as [-> ->].
    split; [exact EC|]. split; [exact EM|]. exact LC.
Qed.
