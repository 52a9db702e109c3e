(** Data after the document does not influence an accepted document. *)
From Verif Require Import Bytes BaseProofs Num Dbl Types Stream Tokenizer Write Read
  LexView LexMono FuelMono Termination RelProofs ReadSim.

Definition edge (id : token_id) : bool :=
  match id with T_NUMBER | T_NIL | T_BTRUE | T_BFALSE => true | _ => false end.

Lemma span_app p (u z : bytes) : snd (span p u) <> [] ->
  span p (u ++ z) = (fst (span p u), snd (span p u) ++ z).
Proof.
  induction u as [|c u IH]; simpl; [congruence|]. destruct (p c); [|reflexivity].
  destruct (span p u) as [a r]. simpl in *. intros N. now rewrite IH.
Qed.

Lemma lex_str_app l z lead value v r : lex_str l lead value = Some (v, r) ->
  lex_str (l ++ z) lead value = Some (v, r ++ z).
Proof.
  remember (length l) as m eqn:Hm. revert l Hm lead value.
  induction m as [m IH] using lt_wf_ind. intros l -> lead value H.
  destruct l as [|c l]; simpl in H; [discriminate|]. cbn [app lex_str].
  destruct (code c =? 34). { injection H as <- <-. reflexivity. }
  destruct (code c =? 92).
  - destruct l as [|e l2]; [discriminate|]. cbn [app].
    destruct (short_escape (schar e)). { eapply IH; [|reflexivity|exact H]. simpl; lia. }
    destruct (code e =? 117); [|discriminate].
    destruct l2 as [|h1 [|h2 [|h3 [|h4 r6]]]]; try discriminate. cbn [app].
    destruct (lex_hex4 h1 h2 h3 h4) as [cp|]; [|discriminate].
    destruct (utf8_step cp value lead) as [[v' l']|]; [|discriminate].
    eapply IH; [|reflexivity|exact H]. simpl; lia.
  - destruct (code c =? 0); [discriminate|]. eapply IH; [|reflexivity|exact H]. simpl; lia.
Qed.

Lemma lex_app y z id v r : lex y = Some (id, v, r) -> id <> T_EOS ->
  (edge id = true -> r <> []) -> lex (y ++ z) = Some (id, v, r ++ z).
Proof.
  induction y as [|c y IH]; intros H N E; cbn [lex] in H; [congruence|].
  cbn [app lex]. destruct (is_ws_c c); [auto|].
  destruct (punct (schar c)) as [i|]. { injection H as <- <- <-. reflexivity. }
  destruct (code c =? 34).
  { destruct (lex_str y 0 []) as [[v' r']|] eqn:L; [|discriminate]. injection H as <- <- <-.
    now rewrite (lex_str_app _ z _ _ _ _ L). }
  destruct (is_num_start_z (schar c)).
  - pose proof (span_app is_num_c (c :: y) z) as S.
    destruct (span is_num_c (c :: y)) as [a q]. injection H as <- <- <-.
    change (c :: y ++ z) with ((c :: y) ++ z). rewrite S; [reflexivity|]. apply E. reflexivity.
  - pose proof (span_app is_alpha_c (c :: y) z) as S.
    destruct (span is_alpha_c (c :: y)) as [a q] eqn:Sp.
    destruct (keyword a) as [i|] eqn:K; [|discriminate]. injection H as <- <- <-.
    change (c :: y ++ z) with ((c :: y) ++ z). rewrite S.
    + simpl. now rewrite K.
    + apply E. unfold keyword in K. destruct (bytes_eqb a (b "true")); [injection K as <-; reflexivity|].
      destruct (bytes_eqb a (b "false")); [injection K as <-; reflexivity|].
      destruct (bytes_eqb a (b "null")); [injection K as <-; reflexivity|discriminate].
Qed.

Lemma keyword_edge a i : keyword a = Some i -> edge i = true.
Proof.
  unfold keyword. destruct (bytes_eqb a (b "true")); [intros H; injection H as <-; reflexivity|].
  destruct (bytes_eqb a (b "false")); [intros H; injection H as <-; reflexivity|].
  destruct (bytes_eqb a (b "null")); [intros H; injection H as <-; reflexivity|discriminate].
Qed.

Lemma punct_edge c i : punct c = Some i -> edge i = false.
Proof.
  unfold punct. intros H.
  repeat match type of H with (if ?q then _ else _) = _ => destruct q; [injection H as <-; reflexivity|] end.
  discriminate.
Qed.

Lemma lex_app_edge y z id v r : lex y = Some (id, v, r) -> edge id = true ->
  match lex (y ++ z) with Some (id', _, _) => edge id' = true | None => True end.
Proof.
  induction y as [|c y IH]; intros H E; cbn [lex] in H; [injection H as <- _ _; discriminate|].
  cbn [app lex]. destruct (is_ws_c c); [exact (IH H E)|].
  destruct (punct (schar c)) as [i|] eqn:P.
  { apply punct_edge in P. injection H as <- _ _. congruence. }
  destruct (code c =? 34).
  { destruct (lex_str y 0 []) as [[v' r']|] eqn:L; [|discriminate]. injection H as <- _ _. discriminate. }
  destruct (is_num_start_z (schar c)).
  - destruct (span is_num_c (c :: y ++ z)). reflexivity.
  - destruct (span is_alpha_c (c :: y ++ z)) as [a q]. destruct (keyword a) eqn:K; [|exact I].
    eapply keyword_edge; eauto.
Qed.

(** [ignore_value] never returns PGR_NIL. *)
Lemma ignore_not_nil n :
  (forall t t1, ignore_value n t <> Some (PGR_NIL, t1)) /\
  (forall t t1, ignore_array_loop n t <> Some (PGR_NIL, t1)) /\
  (forall t t1, ignore_object_loop n t <> Some (PGR_NIL, t1)).
Proof.
  induction n as [|n (IV & IA & IO)]; [repeat split; discriminate|].
  split; [|split]; intros t t1; simpl; unfold ign_fail.
  - destruct (tk_id t); try discriminate; (destruct (tk_next n t) as [t2|]; [|discriminate]);
      try apply IO; try apply IA; destruct (tk_id t2); discriminate.
  - destruct (tid_eqb (tk_id t) T_ARRE).
    { destruct (tk_expect n T_ARRE t) as [[[] ?]|]; discriminate. }
    destruct (ignore_value n t) as [[[] t2]|] eqn:E; try discriminate.
    + destruct (tk_expect n T_COMMA t2) as [[[] t3]|]; [apply IA| |discriminate].
      destruct (tk_expect n T_ARRE t3) as [[[] ?]|]; discriminate.
    + intros _. apply (IV _ _ E).
  - destruct (tid_eqb (tk_id t) T_OBJE).
    { destruct (tk_expect n T_OBJE t) as [[[] ?]|]; discriminate. }
    destruct (tk_expect n T_STRING t) as [[[] t2]|]; try discriminate.
    destruct (tk_expect n T_COLON t2) as [[[] t3]|]; try discriminate.
    destruct (ignore_value n t3) as [[[] t4]|] eqn:E; try discriminate.
    + destruct (tk_expect n T_COMMA t4) as [[[] t5]|]; [apply IO| |discriminate].
      destruct (tk_expect n T_OBJE t5) as [[[] ?]|]; discriminate.
    + intros _. apply (IV _ _ E).
Qed.

Section Suffix.
  Variable z : bytes.

  Definition ahead (t u : tokenizer) : Prop := exists y, pos t y /\ pos u (y ++ z).

  Definition at_edge (t : tokenizer) : Prop := edge (tk_id t) = true /\ vw (tk_in t) = [].

  Lemma at_edge_dec t : {at_edge t} + {~ at_edge t}.
  Proof.
    unfold at_edge. destruct (edge (tk_id t)); [|right; intros [E _]; discriminate].
    destruct (vw (tk_in t)); [left; auto|right; intros [_ E]; discriminate].
  Qed.

  Lemma ahead_tok t u : ahead t u -> tk_id t <> T_NONE -> tk_id t <> T_EOS -> ~ at_edge t ->
    tk_id u = tk_id t /\ t_val (tk_cur u) = t_val (tk_cur t) /\
    forall n m t1 u1, tk_next n t = Some t1 -> tk_next m u = Some u1 -> ahead t1 u1.
  Proof.
    intros (y & [W P] & [W' Q]) N1 N2 E. destruct (lex y) as [[[id v] r]|] eqn:L; [|contradiction].
    destruct P as (A & B & C). rewrite A in N1, N2. unfold at_edge in E. rewrite A, C in E.
    rewrite (lex_app y z id v r L N2) in Q by (intros X Y; apply E; auto).
    destruct Q as (A' & B' & C'). split; [congruence|]. split; [congruence|].
    intros n m t1 u1 Nt Nu. apply tk_next_any in Nt as [P1 _]; [|exact W].
    apply tk_next_any in Nu as [Q1 _]; [|exact W']. rewrite C in P1. rewrite C' in Q1.
    exists r. auto.
  Qed.

  Lemma edge_next n t u t1 : ahead t u -> at_edge t -> tk_next n t = Some t1 -> tk_id t1 = T_EOS.
  Proof.
    intros (y & [W P] & _) [E V] Nt. apply tk_next_any in Nt as [P1 _]; [|exact W].
    rewrite V in P1. now destruct P1 as (_ & ? & _).
  Qed.

  Lemma ahead_error c msg t u : ahead t u -> ahead (tk_error c msg t) u.
  Proof. intros (y & P & Q). exists y. split; [now apply pos_error|exact Q]. Qed.
  Lemma ahead_error2 c msg t u : ahead t u -> ahead (tk_error c msg t) (tk_error c msg u).
  Proof. intros (y & P & Q). exists y. split; now apply pos_error. Qed.

  (** An expectation on a live token gives the same answer on both sides. *)
  Lemma ahead_expect n m id t u x t1 y u1 : ahead t u -> edge id = false -> id <> T_NONE -> id <> T_EOS ->
    tk_id t <> T_NONE -> tk_id t <> T_EOS -> edge (tk_id t) = false ->
    tk_expect n id t = Some (x, t1) -> tk_expect m id u = Some (y, u1) -> x = y /\ ahead t1 u1.
  Proof.
    intros H E N1 N2 M1 M2 D A B.
    assert (NE : ~ at_edge t) by (intros [X _]; congruence).
    destruct (ahead_tok t u H M1 M2 NE) as (I & _ & NX). unfold tk_expect in *. rewrite I in B.
    destruct (tid_eqb (tk_id t) id).
    - destruct (tk_next n t) as [t2|] eqn:Nt; [|discriminate].
      destruct (tk_next m u) as [u2|] eqn:Nu; [|discriminate].
      injection A as <- <-. injection B as <- <-. split; [reflexivity|]. eapply NX; eauto.
    - injection A as <- <-. injection B as <- <-. auto.
  Qed.

  (** A successful expectation. *)
  Lemma ahead_yes n m id t u t1 y u1 : ahead t u -> edge id = false -> id <> T_NONE -> id <> T_EOS ->
    tk_expect n id t = Some (true, t1) -> tk_expect m id u = Some (y, u1) ->
    y = true /\ ahead t1 u1 /\ tk_id t = id /\ t_val (tk_cur u) = t_val (tk_cur t).
  Proof.
    intros H E N1 N2 A B.
    assert (I : tk_id t = id).
    { unfold tk_expect in A. destruct (tid_eqb (tk_id t) id) eqn:X; [now apply tid_eqb_true in X|discriminate]. }
    destruct (ahead_expect n m id t u true t1 y u1 H E N1 N2) as [<- Q];
      try (rewrite I; assumption); auto.
    destruct (ahead_tok t u H) as (_ & V & _); try (rewrite I; assumption).
    { intros [X _]. rewrite I in X. congruence. }
    auto.
  Qed.

  Lemma ahead_no n m id id2 t u t1 y u1 : ahead t u -> edge id = false -> id <> T_NONE -> id <> T_EOS ->
    tk_id t = id2 -> id2 <> id -> edge id2 = false -> id2 <> T_NONE -> id2 <> T_EOS ->
    tk_expect n id t = Some (false, t1) -> tk_expect m id u = Some (y, u1) ->
    y = false /\ t1 = t /\ u1 = u.
  Proof.
    intros H E N1 N2 I D E2 M1 M2 A B.
    destruct (ahead_expect n m id t u false t1 y u1 H E N1 N2) as [<- Q]; try (rewrite I; assumption); auto.
    unfold tk_expect in *. destruct (tid_eqb (tk_id t) id); [destruct (tk_next n t); discriminate|].
    destruct (tid_eqb (tk_id u) id); [destruct (tk_next m u); discriminate|].
    split; [reflexivity|]. split; congruence.
  Qed.

  (** The first run stopped at the end of its input, inside or after a scalar. *)
  Definition bad (t : tokenizer) : Prop := wf_is (tk_in t) /\ (at_edge t \/ tk_id t = T_EOS).

  Lemma ahead_wf t u : ahead t u -> wf_is (tk_in t).
  Proof. intros (y & [W _] & _). exact W. Qed.

  Lemma edge_bad n t u t1 : ahead t u -> at_edge t -> tk_next n t = Some t1 -> bad t1.
  Proof.
    intros H E N. split; [|right; eapply edge_next; eauto].
    apply tk_next_any in N as [[W _] _]; [exact W|]. eapply ahead_wf; eauto.
  Qed.

  Lemma bad_tok t : bad t -> edge (tk_id t) = true \/ tk_id t = T_EOS.
  Proof. intros [_ [[E _]|E]]; auto. Qed.

  Lemma bad_no n id t x t1 : bad t -> edge id = false -> id <> T_EOS ->
    tk_expect n id t = Some (x, t1) -> x = false /\ t1 = t.
  Proof.
    intros B E N H. apply bad_tok in B. unfold tk_expect in H.
    destruct (tid_eqb (tk_id t) id) eqn:X.
    - apply tid_eqb_true in X. rewrite X in B. destruct B; congruence.
    - injection H as <- <-. auto.
  Qed.

  Lemma tk_expect_id n id t t1 : tk_expect n id t = Some (true, t1) -> tk_id t = id.
  Proof. unfold tk_expect. destruct (tid_eqb (tk_id t) id) eqn:X; [now apply tid_eqb_true in X|discriminate]. Qed.
  Lemma tk_expect_false n id t t1 : tk_expect n id t = Some (false, t1) -> t1 = t.
  Proof. unfold tk_expect. destruct (tid_eqb (tk_id t) id); [destruct (tk_next n t); discriminate|congruence]. Qed.

  Lemma comma_close n m k cl t u x t1 y u1 t2 : ahead t u -> cl = T_ARRE \/ cl = T_OBJE ->
    tk_expect n T_COMMA t = Some (x, t1) -> (x = false -> tk_expect k cl t1 = Some (true, t2)) ->
    tk_expect m T_COMMA u = Some (y, u1) -> x = y /\ ahead t1 u1.
  Proof.
    intros H C A A2 B. destruct x.
    - destruct (ahead_yes n m T_COMMA t u t1 y u1) as (-> & Q & _); auto; try discriminate.
    - specialize (A2 eq_refl). apply tk_expect_id in A2.
      pose proof (tk_expect_false _ _ _ _ A) as ->.
      destruct (ahead_no n m T_COMMA cl t u t y u1) as (-> & _ & ->); auto;
        destruct C as [-> | ->]; try discriminate; reflexivity.
  Qed.

  Definition ign_suffix (f g : tokenizer -> option (pgr * tokenizer)) : Prop :=
    forall t u t1 s u1, ahead t u -> f t = Some (PGR_OK, t1) -> g u = Some (s, u1) ->
      (s = PGR_OK /\ ahead t1 u1) \/ bad t1.

  Lemma ignore_suffix n : forall m,
    ign_suffix (ignore_value n) (ignore_value m) /\
    ign_suffix (ignore_array_loop n) (ignore_array_loop m) /\
    ign_suffix (ignore_object_loop n) (ignore_object_loop m).
  Proof.
    induction n as [|n IH]; intros m.
    { split; [|split]; intros ? ? ? ? ? _ A; discriminate A. }
    destruct m as [|m]. { split; [|split]; intros ? ? ? ? ? _ _ A; discriminate A. }
    destruct (IH m) as (IV & IA & IO).
    split; [|split]; intros t u t1 s u1 H A B; simpl in A, B.
    - unfold ign_fail in *.
      assert (Scalar : forall t2 u2, ahead t2 u2 ->
        match tk_id t2 with
        | T_NONE | T_EOS => Some (PGR_ERROR, tk_error PGERR_IGNORE_FAILED (b "end of stream") t2)
        | _ => Some (PGR_OK, t2) end = Some (PGR_OK, t1) ->
        match tk_id u2 with
        | T_NONE | T_EOS => Some (PGR_ERROR, tk_error PGERR_IGNORE_FAILED (b "end of stream") u2)
        | _ => Some (PGR_OK, u2) end = Some (s, u1) -> (s = PGR_OK /\ ahead t1 u1) \/ bad t1).
      { intros t2 u2 H2 A' B'.
        assert (t1 = t2 /\ tk_id t2 <> T_NONE /\ tk_id t2 <> T_EOS) as (-> & M1 & M2).
        { destruct (tk_id t2); try discriminate A'; injection A' as <-; repeat split; discriminate. }
        destruct (at_edge_dec t2) as [AE|NE]; [right; split; [eapply ahead_wf; eauto|left; exact AE]|]. left.
        destruct (ahead_tok t2 u2 H2 M1 M2 NE) as (Iu & _). rewrite Iu in B'.
        destruct (tk_id t2); try contradiction; injection B' as <- <-; auto. }
      destruct (tk_id t) eqn:I; try discriminate A;
        (destruct (tk_next n t) as [t2|] eqn:Nt; [|discriminate A]);
        (assert (NE : ~ at_edge t);
         [ intros AE; first [ now destruct AE as [X _]; rewrite I in X
             | rewrite (edge_next _ _ _ _ H AE Nt) in A; discriminate A ]
         | destruct (ahead_tok t u H) as (Iu & Vu & NX); [congruence|congruence|exact NE|];
           rewrite Iu, I in B; destruct (tk_next m u) as [u2|] eqn:Nu; [|discriminate B];
           pose proof (NX _ _ _ _ Nt Nu) as H2 ]);
        try (eapply IO; eauto; fail); try (eapply IA; eauto; fail); eapply Scalar; eauto.
    - assert (F : forall a c, ahead a c ->
        match tk_expect n T_ARRE a with
        | Some (true, t') => Some (PGR_OK, t')
        | Some (false, t') => ign_fail (b "invalid array") t'
        | None => None end = Some (PGR_OK, t1) ->
        match tk_expect m T_ARRE c with
        | Some (true, t') => Some (PGR_OK, t')
        | Some (false, t') => ign_fail (b "invalid array") t'
        | None => None end = Some (s, u1) -> (s = PGR_OK /\ ahead t1 u1) \/ bad t1).
      { intros a c Hac A' B'. left.
        destruct (tk_expect n T_ARRE a) as [[[] a1]|] eqn:Ea; try discriminate A'.
        destruct (tk_expect m T_ARRE c) as [[y c1]|] eqn:Ec; [|discriminate B'].
        destruct (ahead_yes n m T_ARRE a c a1 y c1) as (-> & Q & _); auto; try discriminate.
        injection A' as <-. injection B' as <- <-. auto. }
      destruct (tid_eqb (tk_id t) T_ARRE) eqn:X.
      { apply tid_eqb_true in X. destruct (ahead_tok t u H) as (Iu & _); try (rewrite X; discriminate).
        { intros [Y _]. rewrite X in Y. discriminate. }
        rewrite Iu, X in B. simpl tid_eqb in B. now apply (F t u). }
      destruct (ignore_value n t) as [[r t2]|] eqn:Et; [|discriminate A].
      destruct r; try discriminate A.
      assert (NB : ~ bad t2).
      { intros Bd. destruct (tk_expect n T_COMMA t2) as [[x t3]|] eqn:E2; [|discriminate A].
        destruct (bad_no n T_COMMA t2 x t3 Bd) as [-> ->]; auto; try discriminate.
        destruct (tk_expect n T_ARRE t2) as [[x t3]|] eqn:E3; [|discriminate A].
        destruct (bad_no n T_ARRE t2 x t3 Bd) as [-> ->]; auto; discriminate. }
      assert (Nu : tid_eqb (tk_id u) T_ARRE = false \/ exists w, tk_id u = T_ARRE /\ ignore_value m u = w).
      { destruct (tid_eqb (tk_id u) T_ARRE) eqn:Y; [right|auto]. apply tid_eqb_true in Y. eauto. }
      destruct Nu as [Nu|(w & Y & _)].
      2:{ (* the other side cannot be at the closer *)
        exfalso. destruct (at_edge_dec t) as [AE|NE].
        - destruct n as [|n0]; [discriminate Et|]. simpl in Et. destruct AE as [AE AV].
          destruct (tk_id t) eqn:I; try discriminate AE;
          (destruct (tk_next n0 t) as [t3|] eqn:Nt; [|discriminate Et];
           rewrite (edge_next n0 t u t3 H) in Et; [discriminate Et|split; [now rewrite I|exact AV]|exact Nt]).
        - destruct n as [|n0]; [discriminate Et|]. 
          assert (tk_id t <> T_NONE /\ tk_id t <> T_EOS) as [M1 M2]
            by (simpl in Et; destruct (tk_id t); split; try discriminate; discriminate Et).
          destruct (ahead_tok t u H M1 M2 NE) as (Iu & _). rewrite <- Iu, Y in X. discriminate. }
      rewrite Nu in B.
      destruct (ignore_value m u) as [[s2 u2]|] eqn:Eu; [|discriminate B].
      destruct (IV _ _ _ _ _ H Et Eu) as [[-> H2]|Bd]; [|contradiction].
      destruct (tk_expect n T_COMMA t2) as [[[] t3]|] eqn:E2; [| |discriminate A].
      + destruct (tk_expect m T_COMMA u2) as [[y u3]|] eqn:E3; [|discriminate B].
        destruct (ahead_yes n m T_COMMA t2 u2 t3 y u3) as (-> & Q & _); auto; try discriminate.
        eapply IA; eauto.
      + apply tk_expect_false in E2 as ->.
        destruct (tk_expect n T_ARRE t2) as [[[] t4]|] eqn:E4; try discriminate A.
        pose proof (tk_expect_id _ _ _ _ E4) as I4.
        destruct (tk_expect m T_COMMA u2) as [[y u3]|] eqn:E3; [|discriminate B].
        destruct (ahead_no n m T_COMMA T_ARRE t2 u2 t2 y u3) as (-> & _ & ->); auto; try discriminate.
        { unfold tk_expect. rewrite I4. reflexivity. }
        apply (F t2 u2); auto. now rewrite E4.
    - assert (F : forall a c, ahead a c ->
        match tk_expect n T_OBJE a with
        | Some (true, t') => Some (PGR_OK, t')
        | Some (false, t') => ign_fail (b "invalid object") t'
        | None => None end = Some (PGR_OK, t1) ->
        match tk_expect m T_OBJE c with
        | Some (true, t') => Some (PGR_OK, t')
        | Some (false, t') => ign_fail (b "invalid object") t'
        | None => None end = Some (s, u1) -> (s = PGR_OK /\ ahead t1 u1) \/ bad t1).
      { intros a c Hac A' B'. left.
        destruct (tk_expect n T_OBJE a) as [[[] a1]|] eqn:Ea; try discriminate A'.
        destruct (tk_expect m T_OBJE c) as [[y c1]|] eqn:Ec; [|discriminate B'].
        destruct (ahead_yes n m T_OBJE a c a1 y c1) as (-> & Q & _); auto; try discriminate.
        injection A' as <-. injection B' as <- <-. auto. }
      destruct (tid_eqb (tk_id t) T_OBJE) eqn:X.
      { apply tid_eqb_true in X. destruct (ahead_tok t u H) as (Iu & _); try (rewrite X; discriminate).
        { intros [Y _]. rewrite X in Y. discriminate. }
        rewrite Iu, X in B. simpl tid_eqb in B. now apply (F t u). }
      destruct (tk_expect n T_STRING t) as [[[] t2]|] eqn:E1; try discriminate A.
      pose proof (tk_expect_id _ _ _ _ E1) as I1.
      destruct (ahead_tok t u H) as (Iu & _); try (rewrite I1; discriminate).
      { intros [Y _]. rewrite I1 in Y. discriminate. }
      rewrite Iu, I1 in B. simpl tid_eqb in B. cbv iota in B.
      destruct (tk_expect m T_STRING u) as [[y u2]|] eqn:E2; [|discriminate B].
      destruct (ahead_yes n m T_STRING t u t2 y u2) as (-> & Q2 & _); auto; try discriminate.
      destruct (tk_expect n T_COLON t2) as [[[] t3]|] eqn:E3; try discriminate A.
      destruct (tk_expect m T_COLON u2) as [[y u3]|] eqn:E4; [|discriminate B].
      destruct (ahead_yes n m T_COLON t2 u2 t3 y u3) as (-> & Q3 & _); auto; try discriminate.
      destruct (ignore_value n t3) as [[[] t4]|] eqn:Et; try discriminate A.
      destruct (ignore_value m u3) as [[s4 u4]|] eqn:Eu; [|discriminate B].
      destruct (tk_expect n T_COMMA t4) as [[x t5]|] eqn:E5; [|discriminate A].
      assert (A2 : exists t6, x = false -> tk_expect n T_OBJE t5 = Some (true, t6)).
      { destruct x; [exists t; discriminate|].
        destruct (tk_expect n T_OBJE t5) as [[[] t6]|]; try discriminate A. eauto. }
      destruct A2 as (t6 & A2).
      destruct (IV _ _ _ _ _ Q3 Et Eu) as [[-> Q4]|Bd].
      2:{ exfalso. destruct (bad_no n T_COMMA t4 x t5 Bd) as [-> ->]; auto; try discriminate.
          specialize (A2 eq_refl). destruct (bad_no n T_OBJE t4 true t6 Bd) as [Z _];
            auto; discriminate. }
      destruct (tk_expect m T_COMMA u4) as [[y u5]|] eqn:E6; [|discriminate B].
      destruct (comma_close n m n T_OBJE t4 u4 x t5 y u5 t6) as [<- Q5]; auto.
      destruct x; [eapply IO; eauto|apply (F t5 u5); auto].
  Qed.

  (** Readers.  [strong] ones (arrays and objects) agree whenever they succeed. *)
  Definition rd_suffix {A} (f g : tokenizer -> A -> rres A) : Prop :=
    forall t u v r x t1 s y u1, ahead t u -> f t v = Some (r, x, t1) -> r <> PGR_ERROR ->
      g u v = Some (s, y, u1) -> (s = r /\ y = x /\ ahead t1 u1) \/ bad t1.

  Definition rd_strong {A} (f g : tokenizer -> A -> rres A) : Prop :=
    forall t u v x t1 s y u1, ahead t u -> f t v = Some (PGR_OK, x, t1) ->
      g u v = Some (s, y, u1) -> s = PGR_OK /\ y = x /\ ahead t1 u1.

  Lemma nil_suffix t u : ahead t u -> tk_id t = T_NIL -> (tk_id u = T_NIL) \/ bad t.
  Proof.
    intros H I. destruct (at_edge_dec t) as [AE|NE]; [right; split; [eapply ahead_wf; eauto|now left]|left].
    destruct (ahead_tok t u H) as (-> & _); auto; congruence.
  Qed.

  Lemma scalar_suffix n m t u t1 u1 : ahead t u -> tk_id t <> T_NONE -> tk_id t <> T_EOS ->
    tk_next n t = Some t1 -> tk_next m u = Some u1 ->
    (tk_id u = tk_id t /\ t_val (tk_cur u) = t_val (tk_cur t) /\ ahead t1 u1) \/ bad t1.
  Proof.
    intros H N1 N2 A B. destruct (at_edge_dec t) as [AE|NE].
    - right. eapply edge_bad; eauto.
    - left. destruct (ahead_tok t u H N1 N2 NE) as (I & V & NX). eauto.
  Qed.

  Lemma read_prim_suffix n m p : rd_suffix (read_prim n p) (read_prim m p).
  Proof.
    intros t u v r x t1 s y u1 H A NR B.
    destruct (at_edge_dec t) as [AE|NE].
    - right. unfold read_prim, rfail in A. pose proof AE as [E _].
      destruct (tk_id t) eqn:I; try discriminate E; destruct p;
        try (injection A as <- <- <-; congruence);
        try (injection A as <- <- <-; split; [eapply ahead_wf; eauto|now left]);
        (destruct (tk_next n t) as [t2|] eqn:Nt; [|discriminate A]; injection A as <- <- <-;
         eapply edge_bad; eauto).
    - assert (M : tk_id t <> T_NONE /\ tk_id t <> T_EOS).
      { unfold read_prim, rfail in A. destruct (tk_id t); split; try discriminate;
        destruct p; injection A as <- <- <-; congruence. }
      destruct (ahead_tok t u H (proj1 M) (proj2 M) NE) as (Iu & Vu & NX). left.
      unfold read_prim, rfail in A, B. rewrite Iu, Vu in B.
      destruct (tk_id t) eqn:I; destruct p; try (injection A as <- <- <-; congruence);
        try (injection A as <- <- <-; injection B as <- <- <-; auto);
        (destruct (tk_next n t) as [t2|] eqn:Nt; [|discriminate A];
         destruct (tk_next m u) as [u2|] eqn:Nu; [|discriminate B];
         injection A as <- <- <-; injection B as <- <- <-; eauto).
  Qed.

  Lemma close_suffix n m cl t u t1 y u1 : ahead t u -> cl = T_ARRE \/ cl = T_OBJE ->
    tk_expect n cl t = Some (true, t1) -> tk_expect m cl u = Some (y, u1) -> y = true /\ ahead t1 u1.
  Proof.
    intros H C A B. destruct (ahead_yes n m cl t u t1 y u1) as (-> & Q & _); auto;
      destruct C as [-> | ->]; try discriminate; reflexivity.
  Qed.

  Lemma bad_close n k cl t x t1 t2 : bad t -> cl = T_ARRE \/ cl = T_OBJE ->
    tk_expect n T_COMMA t = Some (x, t1) -> (x = false -> tk_expect k cl t1 = Some (true, t2)) -> False.
  Proof.
    intros Bd C A B. destruct (bad_no n T_COMMA t x t1 Bd) as [-> ->]; auto; try discriminate.
    specialize (B eq_refl). destruct (bad_no k cl t true t2 Bd) as [Z _]; auto; [| |discriminate];
      destruct C as [-> | ->]; try discriminate; reflexivity.
  Qed.

  Lemma array_loop_suffix n nf mf rd rd' d : rd_suffix rd rd' ->
    forall m, rd_strong (array_loop n nf rd d) (array_loop m mf rd' d).
  Proof.
    intros RD. induction n as [|n IH]; intros m t u v x t1 s y u1 H A B; [discriminate A|].
    destruct m as [|m]; [discriminate B|]. simpl in A, B.
    destruct (rd t d) as [[[r1 x1] t2]|] eqn:Et; [|discriminate A].
    assert (NR : r1 <> PGR_ERROR) by (intros ->; discriminate A).
    destruct (rd' u d) as [[[s1 y1] u2]|] eqn:Eu; [|discriminate B].
    set (l1 := match r1 with PGR_OK => v ++ [x1] | _ => v end).
    assert (A' : match tk_expect nf T_COMMA t2 with
                 | None => None
                 | Some (true, t2) => array_loop n nf rd d t2 l1
                 | Some (false, t2) =>
                     match tk_expect nf T_ARRE t2 with
                     | None => None
                     | Some (true, t3) => Some (PGR_OK, l1, t3)
                     | Some (false, t3) => rfail PGERR_INVALID_ARRAY (b "invalid array") l1 t3
                     end
                 end = Some (PGR_OK, x, t1)) by (destruct r1; [exact A|congruence|exact A]).
    clear A. destruct (tk_expect nf T_COMMA t2) as [[z1 t3]|] eqn:E1; [|discriminate A'].
    assert (A2 : exists t6, z1 = false -> tk_expect nf T_ARRE t3 = Some (true, t6)).
    { destruct z1; [exists t; discriminate|].
      destruct (tk_expect nf T_ARRE t3) as [[[] t6]|]; try discriminate A'. eauto. }
    destruct A2 as (t6 & A2).
    destruct (RD _ _ _ _ _ _ _ _ _ H Et NR Eu) as [(-> & -> & H2)|Bd].
    2:{ exfalso. eapply (bad_close nf nf T_ARRE); eauto. }
    assert (B' : match tk_expect mf T_COMMA u2 with
                 | None => None
                 | Some (true, t2) => array_loop m mf rd' d t2 l1
                 | Some (false, t2) =>
                     match tk_expect mf T_ARRE t2 with
                     | None => None
                     | Some (true, t3) => Some (PGR_OK, l1, t3)
                     | Some (false, t3) => rfail PGERR_INVALID_ARRAY (b "invalid array") l1 t3
                     end
                 end = Some (s, y, u1)) by (destruct r1; [exact B|congruence|exact B]).
    destruct (tk_expect mf T_COMMA u2) as [[z2 u3]|] eqn:E2; [|discriminate B'].
    destruct (comma_close nf mf nf T_ARRE t2 u2 z1 t3 z2 u3 t6) as [<- H3]; auto.
    destruct z1; [eapply IH; eauto|]. rewrite (A2 eq_refl) in A'.
    destruct (tk_expect mf T_ARRE u3) as [[z2 u4]|] eqn:E3; [|discriminate B'].
    destruct (close_suffix nf mf T_ARRE t3 u3 t6 z2 u4) as [-> H4]; auto.
    injection A' as <- <-. injection B' as <- <- <-. auto.
  Qed.

  Definition live (t : tokenizer) : Prop := tk_id t <> T_NONE /\ tk_id t <> T_EOS.

  Lemma expect_closer_suffix n m cl t u x t1 y u1 : ahead t u -> cl = T_ARRE \/ cl = T_OBJE -> live t ->
    tk_expect n cl t = Some (x, t1) -> tk_expect m cl u = Some (y, u1) -> x = y /\ ahead t1 u1.
  Proof.
    intros H C [N1 N2] A B. destruct x.
    - destruct (close_suffix n m cl t u t1 y u1) as [-> Q]; auto.
    - pose proof (tk_expect_false _ _ _ _ A) as ->.
      assert (N : tk_id u <> cl).
      { intros Iu. destruct (at_edge_dec t) as [[E _]|NE].
        - destruct H as (w & [_ P] & [_ Q]). destruct (lex w) as [[[id v] r]|] eqn:L; [|contradiction].
          destruct P as (P & _). rewrite P in E. pose proof (lex_app_edge w z id v r L E) as X.
          destruct (lex (w ++ z)) as [[[id' v'] r']|].
          + destruct Q as (Q & _). rewrite <- Q, Iu in X. destruct C as [-> | ->]; discriminate.
          + rewrite Q in Iu. destruct C as [-> | ->]; discriminate.
        - destruct (ahead_tok t u H N1 N2 NE) as (I & _). rewrite Iu in I.
          unfold tk_expect in A. rewrite <- I, tid_eqb_refl in A. destruct (tk_next n t); discriminate. }
      unfold tk_expect in B. rewrite tid_eqb_neq in B by exact N. injection B as <- <-. auto.
  Qed.

  Definition rd_live {A} (f : tokenizer -> A -> rres A) : Prop :=
    forall t v r x t1, f t v = Some (r, x, t1) -> r <> PGR_ERROR -> live t.

  Lemma array_loop_live n nf rd d : rd_live rd -> forall t v r x t1,
    array_loop n nf rd d t v = Some (r, x, t1) -> r <> PGR_ERROR -> live t.
  Proof.
    intros RD t v r x t1 A NR. destruct n as [|n]; [discriminate A|]. simpl in A.
    destruct (rd t d) as [[[r1 x1] t2]|] eqn:Et; [|discriminate A].
    apply (RD _ _ _ _ _ Et). intros ->. injection A as <- _ _. congruence.
  Qed.

  Lemma expect_live n id t t1 : id <> T_NONE -> id <> T_EOS -> tk_expect n id t = Some (true, t1) -> live t.
  Proof. intros N1 N2 H. apply tk_expect_id in H. unfold live. rewrite H. auto. Qed.

  Lemma object_loop_live n nf rf t v r x t1 :
    object_loop n nf rf t v = Some (r, x, t1) -> r <> PGR_ERROR -> live t.
  Proof.
    intros A NR. destruct n as [|n]; [discriminate A|]. cbn [object_loop] in A.
    destruct (tk_expect nf T_STRING t) as [[[] t2]|] eqn:Et; [| |discriminate A].
    - eapply expect_live; [| |exact Et]; discriminate.
    - unfold rfail in A. injection A as <- _ _. congruence.
  Qed.

  Lemma read_live n ty0 : rd_live (read n ty0).
  Proof.
    intros t v r x t1 A NR. destruct (tk_id t) eqn:I; unfold live; try (rewrite I; split; discriminate);
      exfalso; apply NR; destruct ty0; cbn [read] in A; destruct v; try (injection A as <- _ _; reflexivity).
    all: unfold read_fieldnum, read_strfield, read_string, read_prim, read_b64, read_array, read_object,
           tk_expect, rmap in A; rewrite I in A; try (destruct p); simpl in A; injection A as <- _ _; reflexivity.
  Qed.

  Lemma read_array_suffix n m rd rd' d : rd_suffix rd rd' -> rd_live rd ->
    rd_strong (read_array n rd d) (read_array m rd' d).
  Proof.
    intros RD RL t u v x t1 s y u1 H A B. unfold read_array in A.
    assert (I : tk_id t = T_ARRS).
    { destruct (tk_id t) eqn:I; try discriminate A; try reflexivity;
      unfold tk_expect in A; rewrite I in A; discriminate A. }
    destruct (ahead_tok t u H) as (Iu & _ & _); try (rewrite I; discriminate).
    { intros [E _]. rewrite I in E. discriminate. }
    unfold read_array in B. rewrite Iu, I in B. rewrite I in A.
    destruct (tk_expect n T_ARRS t) as [[[] t2]|] eqn:E1; try discriminate A.
    destruct (tk_expect m T_ARRS u) as [[z2 u2]|] eqn:E2; [|discriminate B].
    destruct (ahead_yes n m T_ARRS t u t2 z2 u2) as (-> & H2 & _); auto; try discriminate.
    destruct (tk_expect n T_ARRE t2) as [[x3 t3]|] eqn:E3; [|discriminate A].
    destruct (tk_expect m T_ARRE u2) as [[y3 u3]|] eqn:E4; [|discriminate B].
    assert (L : live t2).
    { destruct x3; [eapply expect_live; [| |exact E3]; discriminate|].
      apply tk_expect_false in E3 as ->. eapply array_loop_live; [exact RL|exact A|discriminate]. }
    destruct (expect_closer_suffix n m T_ARRE t2 u2 x3 t3 y3 u3) as [<- H3]; auto.
    destruct x3; [injection A as <- <-; injection B as <- <- <-; auto|].
    eapply array_loop_suffix; eauto.
  Qed.

  Lemma object_loop_suffix n nf mf rf rf' : (forall name, rd_suffix (rf name) (rf' name)) ->
    forall m, rd_strong (object_loop n nf rf) (object_loop m mf rf').
  Proof.
    intros RF. induction n as [|n IH]; intros m t u v x t1 s y u1 H A B; [discriminate A|].
    destruct m as [|m]; [discriminate B|]. cbn [object_loop] in A, B.
    destruct (tk_expect nf T_STRING t) as [[[] t2]|] eqn:E1; try discriminate A.
    destruct (tk_expect mf T_STRING u) as [[z2 u2]|] eqn:E2; [|discriminate B].
    destruct (ahead_yes nf mf T_STRING t u t2 z2 u2) as (-> & H2 & _ & V); auto; try discriminate.
    rewrite V in B.
    destruct (tk_expect nf T_COLON t2) as [[[] t3]|] eqn:E3; try discriminate A.
    destruct (tk_expect mf T_COLON u2) as [[z3 u3]|] eqn:E4; [|discriminate B].
    destruct (ahead_yes nf mf T_COLON t2 u2 t3 z3 u3) as (-> & H3 & _); auto; try discriminate.
    destruct (rf (t_val (tk_cur t)) t3 v) as [[[r1 x1] t4]|] eqn:Et; [|discriminate A].
    assert (NR : r1 <> PGR_ERROR) by (intros ->; discriminate A).
    destruct (rf' (t_val (tk_cur t)) u3 v) as [[[s1 y1] u4]|] eqn:Eu; [|discriminate B].
    set (ign := fun nf r (a : tokenizer) => match r with PGR_OK => Some (PGR_OK, a) | _ => ignore_value nf a end).
    assert (A' : exists t5, ign nf r1 t4 = Some (PGR_OK, t5) /\
       match tk_expect nf T_COMMA t5 with
       | None => None
       | Some (true, t5) => object_loop n nf rf t5 x1
       | Some (false, t5) =>
           match tk_expect nf T_OBJE t5 with
           | None => None
           | Some (true, t6) => Some (PGR_OK, x1, t6)
           | Some (false, t6) => rfail PGERR_INVALID_OBJECT (b "invalid JSON object") x1 t6
           end
       end = Some (PGR_OK, x, t1)).
    { unfold ign. destruct r1; [exists t4; auto|congruence|].
      destruct (ignore_value nf t4) as [[[] t5]|] eqn:G; try discriminate A; eauto.
      exfalso. exact (proj1 (ignore_not_nil nf) _ _ G). }
    destruct A' as (t5 & G & A'). clear A.
    destruct (tk_expect nf T_COMMA t5) as [[x6 t6]|] eqn:E5; [|discriminate A'].
    assert (A2 : exists t7, x6 = false -> tk_expect nf T_OBJE t6 = Some (true, t7)).
    { destruct x6; [exists t; discriminate|].
      destruct (tk_expect nf T_OBJE t6) as [[[] t7]|]; try discriminate A'. eauto. }
    destruct A2 as (t7 & A2).
    assert (NB : ~ bad t5) by (intros Bd; eapply (bad_close nf nf T_OBJE); eauto).
    assert (NB4 : ~ bad t4).
    { intros Bd. unfold ign in G. destruct r1; [injection G as <-; contradiction|congruence|].
      destruct nf as [|nf']; [discriminate G|]. simpl in G. unfold ign_fail in G.
      destruct Bd as [W [[AE AV]|Bd]]; [|rewrite Bd in G; discriminate G].
      destruct (tk_id t4) eqn:I4; try discriminate AE;
        (destruct (tk_next nf' t4) as [t8|] eqn:N8; [|discriminate G]).
      all: apply tk_next_any in N8 as [[_ P8] _]; [|exact W]; rewrite AV in P8; simpl in P8;
        destruct P8 as (P8 & _); rewrite P8 in G; discriminate G. }
    destruct (RF _ _ _ _ _ _ _ _ _ _ H3 Et NR Eu) as [(-> & -> & H4)|Bd]; [|contradiction].
    assert (B' : exists u5, ahead t5 u5 /\
       match tk_expect mf T_COMMA u5 with
       | None => None
       | Some (true, t5) => object_loop m mf rf' t5 x1
       | Some (false, t5) =>
           match tk_expect mf T_OBJE t5 with
           | None => None
           | Some (true, t6) => Some (PGR_OK, x1, t6)
           | Some (false, t6) => rfail PGERR_INVALID_OBJECT (b "invalid JSON object") x1 t6
           end
       end = Some (s, y, u1)).
    { unfold ign in G. destruct r1; [|congruence|].
      - injection G as <-. exists u4. auto.
      - destruct (ignore_value mf u4) as [[s5 u5]|] eqn:Gu; [|discriminate B].
        destruct (proj1 (ignore_suffix nf mf) _ _ _ _ _ H4 G Gu) as [[-> H5]|Bd]; [|contradiction].
        eauto. }
    destruct B' as (u5 & H5 & B').
    destruct (tk_expect mf T_COMMA u5) as [[y6 u6]|] eqn:E6; [|discriminate B'].
    destruct (comma_close nf mf nf T_OBJE t5 u5 x6 t6 y6 u6 t7) as [<- H6]; auto.
    destruct x6; [eapply IH; eauto|]. rewrite (A2 eq_refl) in A'.
    destruct (tk_expect mf T_OBJE u6) as [[y7 u7]|] eqn:E7; [|discriminate B'].
    destruct (close_suffix nf mf T_OBJE t6 u6 t7 y7 u7) as [-> H7]; auto.
    injection A' as <- <-. injection B' as <- <- <-. auto.
  Qed.

  Lemma read_object_suffix n m rf rf' : (forall name, rd_suffix (rf name) (rf' name)) ->
    rd_strong (read_object n rf) (read_object m rf').
  Proof.
    intros RF t u v x t1 s y u1 H A B. unfold read_object in A.
    assert (I : tk_id t = T_OBJS).
    { destruct (tk_id t) eqn:I; try discriminate A; try reflexivity;
      unfold tk_expect in A; rewrite I in A; discriminate A. }
    destruct (ahead_tok t u H) as (Iu & _ & _); try (rewrite I; discriminate).
    { intros [E _]. rewrite I in E. discriminate. }
    unfold read_object in B. rewrite Iu, I in B. rewrite I in A.
    destruct (tk_expect n T_OBJS t) as [[[] t2]|] eqn:E1; try discriminate A.
    destruct (tk_expect m T_OBJS u) as [[z2 u2]|] eqn:E2; [|discriminate B].
    destruct (ahead_yes n m T_OBJS t u t2 z2 u2) as (-> & H2 & _); auto; try discriminate.
    destruct (tk_expect n T_OBJE t2) as [[x3 t3]|] eqn:E3; [|discriminate A].
    destruct (tk_expect m T_OBJE u2) as [[y3 u3]|] eqn:E4; [|discriminate B].
    assert (L : live t2).
    { destruct x3; [eapply expect_live; [| |exact E3]; discriminate|].
      apply tk_expect_false in E3 as ->. eapply object_loop_live; [exact A|discriminate]. }
    destruct (expect_closer_suffix n m T_OBJE t2 u2 x3 t3 y3 u3) as [<- H3]; auto.
    destruct x3; [injection A as <- <-; injection B as <- <- <-; auto|].
    eapply object_loop_suffix; eauto.
  Qed.

  (** A container that gives PGR_NIL is at a null token and consumes nothing. *)
  Lemma container_nil n ty0 t v x t1 : (match ty0 with TRep _ | TMsg _ _ => True | _ => False end) ->
    read n ty0 t v = Some (PGR_NIL, x, t1) -> tk_id t = T_NIL /\ t1 = t /\ x = v.
  Proof.
    intros C A. destruct ty0 as [| | | |ty'|ms g]; try contradiction; cbn [read] in A; destruct v; try discriminate A.
    - unfold read_array, rmap in A. destruct (tk_id t) eqn:I;
        try (injection A as <- <-; auto; fail); exfalso;
        (destruct (tk_expect n T_ARRS t) as [[[] t2]|]; try discriminate A;
         destruct (tk_expect n T_ARRE t2) as [[[] t3]|]; try discriminate A;
         destruct (array_loop n n (read n ty') (dflt ty') t3 l) as [[[r1 x1] t4]|] eqn:L; try discriminate A;
         injection A as -> _ _;
         revert t3 l L; generalize n at 1 as k; induction k as [|k IH]; intros t3 l L; [discriminate L|];
         simpl in L; destruct (read n ty' t3 (dflt ty')) as [[[[| |] x2] t5]|]; try discriminate L;
         destruct (tk_expect n T_COMMA t5) as [[[] t6]|]; try discriminate L; eauto;
         destruct (tk_expect n T_ARRE t6) as [[[] t7]|]; discriminate L).
    - unfold read_object, rmap in A. destruct (tk_id t) eqn:I;
        try (injection A as <- <-; auto; fail); exfalso;
        (destruct (tk_expect n T_OBJS t) as [[[] t2]|]; try discriminate A;
         destruct (tk_expect n T_OBJE t2) as [[[] t3]|]; try discriminate A;
         destruct (object_loop n n (read_member g (map (read n) ms)) t3 l) as [[[r1 x1] t4]|] eqn:L; try discriminate A;
         injection A as -> _ _;
         revert t3 l L; generalize n at 1 as k; induction k as [|k IH]; intros t3 l L; [discriminate L|];
         cbn [object_loop] in L;
         destruct (tk_expect n T_STRING t3) as [[[] t5]|]; try discriminate L;
         destruct (tk_expect n T_COLON t5) as [[[] t6]|]; try discriminate L;
         destruct (read_member g (map (read n) ms) (t_val (tk_cur t3)) t6 l) as [[[[| |] x2] t7]|]; try discriminate L;
         [| destruct (ignore_value n t7) as [[[| |] t8]|]; try discriminate L];
         match type of L with context [tk_expect n T_COMMA ?a] =>
           destruct (tk_expect n T_COMMA a) as [[[] t9]|]; try discriminate L; eauto;
           destruct (tk_expect n T_OBJE t9) as [[[] t10]|]; discriminate L end).
  Qed.

  Lemma strong_suffix n m ty0 : (match ty0 with TRep _ | TMsg _ _ => True | _ => False end) ->
    rd_strong (read n ty0) (read m ty0) -> rd_suffix (read n ty0) (read m ty0).
  Proof.
    intros C S t u v r x t1 s y u1 H A NR B. destruct r; [|congruence|].
    - left. eapply S; eauto.
    - destruct (container_nil n ty0 t v x t1 C A) as (I & -> & ->).
      destruct (nil_suffix t u H I) as [Iu|Bd]; [left|auto].
      destruct ty0 as [| | | |ty'|ms g]; try contradiction; cbn [read] in A, B; destruct v; try discriminate A.
      + unfold read_array, rmap in B. rewrite Iu in B. injection B as <- <- <-. auto.
      + unfold read_object, rmap in B. rewrite Iu in B. injection B as <- <- <-. auto.
  Qed.

  Lemma read_suffix n m ty0 : rd_suffix (read n ty0) (read m ty0) /\
    ((match ty0 with TRep _ | TMsg _ _ => True | _ => False end) -> rd_strong (read n ty0) (read m ty0)).
  Proof.
    induction ty0 using ty_ind2.
    - split; [|contradiction]. intros t u v r x t1 s y u1 H A NR B. cbn [read] in A, B.
      destruct v; try (injection A as <- _ _; congruence). unfold rmap in A, B.
      destruct (read_prim n p t p0) as [[[r1 x1] t2]|] eqn:Et; [|discriminate A].
      destruct (read_prim m p u p0) as [[[s1 y1] u2]|] eqn:Eu; [|discriminate B].
      injection A as -> <- ->. injection B as <- <- <-.
      destruct (read_prim_suffix n m p _ _ _ _ _ _ _ _ _ H Et NR Eu) as [(-> & -> & Q)|Bd]; auto.
    - split; [|contradiction]. intros t u v r x t1 s y u1 H A NR B. cbn [read] in A, B.
      destruct v; try (injection A as <- _ _; congruence). unfold read_fieldnum in A, B.
      destruct (read_prim n p t (pzero p)) as [[[r1 x1] t2]|] eqn:Et; [|discriminate A].
      destruct (read_prim m p u (pzero p)) as [[[s1 y1] u2]|] eqn:Eu; [|discriminate B].
      assert (NR1 : r1 <> PGR_ERROR) by (intros ->; injection A as <- _ _; congruence).
      destruct (read_prim_suffix n m p _ _ _ _ _ _ _ _ _ H Et NR1 Eu) as [(-> & -> & Q)|Bd].
      + left. destruct r1; injection A as <- <- <-; injection B as <- <- <-; auto.
      + right. destruct r1; injection A as <- <- <-; auto.
    - split; [|contradiction]. intros t u v r x t1 s y u1 H A NR B. cbn [read] in A, B.
      destruct v; try (injection A as <- _ _; congruence). unfold read_strfield, read_string in A, B.
      destruct (tk_id t) eqn:I;
        try (unfold tk_expect in A; rewrite I in A; simpl in A; injection A as <- _ _; congruence).
      + destruct (ahead_tok t u H) as (Iu & Vu & NX); try (rewrite I; discriminate).
        { intros [E _]. rewrite I in E. discriminate. }
        rewrite Iu, Vu, I in B. left.
        destruct (tk_expect n T_STRING t) as [[x1 t2]|] eqn:E1; [|discriminate A].
        destruct x1; [|simpl in A; injection A as <- _ _; congruence].
        destruct (tk_expect m T_STRING u) as [[y1 u2]|] eqn:E2; [|discriminate B].
        destruct (ahead_yes n m T_STRING t u t2 y1 u2) as (-> & H2 & _); auto; try discriminate.
        simpl in A, B. injection A as <- <- <-. injection B as <- <- <-. auto.
      + destruct (nil_suffix t u H I) as [Iu|Bd]; [left|right; simpl in A; injection A as <- <- <-; exact Bd].
        rewrite Iu in B. simpl in A, B. injection A as <- <- <-. injection B as <- <- <-. auto.
    - split; [|contradiction]. intros t u v r x t1 s y u1 H A NR B. cbn [read] in A, B.
      destruct v; try (injection A as <- _ _; congruence). unfold read_b64, rfail in A, B.
      destruct (tk_id t) eqn:I; try (injection A as <- _ _; congruence).
      + destruct (ahead_tok t u H) as (Iu & Vu & NX); try (rewrite I; discriminate).
        { intros [E _]. rewrite I in E. discriminate. }
        rewrite Iu, Vu, I in B. left.
        destruct (tk_next n t) as [t2|] eqn:E1; [|discriminate A].
        destruct (tk_next m u) as [u2|] eqn:E2; [|discriminate B].
        pose proof (NX _ _ _ _ eq_refl eq_refl) as H2 || pose proof (NX _ _ _ _ E1 E2) as H2.
        destruct (b64_decode (cstr (t_val (tk_cur t)))) as [o bd].
        injection A as <- <- <-. injection B as <- <- <-. split; [reflexivity|]. split; [reflexivity|].
        destruct bd; [now apply ahead_error2|exact H2].
      + destruct (nil_suffix t u H I) as [Iu|Bd]; [left|right; injection A as <- <- <-; exact Bd].
        rewrite Iu in B. injection A as <- <- <-. injection B as <- <- <-. auto.
    - assert (S : rd_strong (read n (TRep ty0)) (read m (TRep ty0))).
      { intros t u v x t1 s y u1 H A B. cbn [read] in A, B. destruct v; try discriminate A.
        unfold rmap in A, B.
        destruct (read_array n (read n ty0) (dflt ty0) t l) as [[[r1 x1] t2]|] eqn:Et; [|discriminate A].
        destruct (read_array m (read m ty0) (dflt ty0) u l) as [[[s1 y1] u2]|] eqn:Eu; [|discriminate B].
        injection A as -> <- ->. injection B as <- <- <-.
        destruct (read_array_suffix n m _ _ (dflt ty0) (proj1 IHty0) (read_live n ty0) _ _ _ _ _ _ _ _ H Et Eu)
          as (-> & -> & Q). auto. }
      split; [apply strong_suffix; [exact I|exact S]|auto].
    - assert (S : rd_strong (read n (TMsg ms g)) (read m (TMsg ms g))).
      { intros t u v x t1 s y u1 Ha A B. cbn [read] in A, B. destruct v; try discriminate A.
        unfold rmap in A, B.
        destruct (read_object n (read_member g (map (read n) ms)) t l) as [[[r1 x1] t2]|] eqn:Et; [|discriminate A].
        destruct (read_object m (read_member g (map (read m) ms)) u l) as [[[s1 y1] u2]|] eqn:Eu; [|discriminate B].
        injection A as -> <- ->. injection B as <- <- <-.
        assert (RM : forall name, rd_suffix (read_member g (map (read n) ms) name) (read_member g (map (read m) ms) name)).
        { clear - H. intros name t u vs r x t1 s y u1 Ha A NR B. unfold read_member in A, B.
          destruct (select_member g name) as [k|];
            [|left; injection A as <- <- <-; injection B as <- <- <-; auto].
          rewrite nth_error_map in A, B. destruct (nth_error ms k) as [ty1|] eqn:M;
            [|left; injection A as <- <- <-; injection B as <- <- <-; auto].
          simpl in A, B. destruct (nth_error vs k) as [v|];
            [|left; injection A as <- <- <-; injection B as <- <- <-; auto].
          rewrite Forall_forall in H. destruct (H ty1 (nth_error_In _ _ M)) as [S _].
          destruct (read n ty1 t v) as [[[r1 x1] t2]|] eqn:Et; [|discriminate A].
          destruct (read m ty1 u v) as [[[s1 y1] u2]|] eqn:Eu; [|discriminate B].
          injection A as -> <- ->. injection B as <- <- <-.
          destruct (S _ _ _ _ _ _ _ _ _ Ha Et NR Eu) as [(-> & -> & Q)|Bd]; auto. }
        destruct (read_object_suffix n m _ _ RM _ _ _ _ _ _ _ _ Ha Et Eu) as (-> & -> & Q). auto. }
      split; [apply strong_suffix; [exact I|exact S]|auto].
  Qed.
End Suffix.

Lemma deserialize_suffix ty0 v inp sfx po v' po1 :
  (match ty0 with TRep _ | TMsg _ _ => True | _ => False end) ->
  deserialize ty0 v inp po = Some (true, v', po1) ->
  deserialize ty0 v (inp ++ sfx) po = Some (true, v', po1).
Proof.
  intros C A. destruct (deserialize_total ty0 v (inp ++ sfx) po) as (s & v2 & po2 & B).
  rewrite B. unfold deserialize, deserialize_fuel, tk_make in A, B.
  destruct (tk_next (fuel_for inp) _) as [t|] eqn:Nt; [|discriminate A].
  destruct (tk_next (fuel_for (inp ++ sfx)) _) as [u|] eqn:Nu; [|discriminate B].
  destruct (mk_istream_spec inp) as [W1 V1]. destruct (mk_istream_spec (inp ++ sfx)) as [W2 V2].
  apply tk_next_any in Nt as [P1 E1]; [|exact W1]. apply tk_next_any in Nu as [P2 E2]; [|exact W2].
  cbn [tk_in tk_err] in P1, P2, E1, E2. rewrite V1 in P1. rewrite V2, nolf_app in P2.
  assert (H : ahead (nolf sfx) t u) by (exists (nolf inp); auto).
  destruct (read (fuel_for inp) ty0 t v) as [[[r1 x1] t1]|] eqn:Rt; [|discriminate A].
  destruct (read (fuel_for (inp ++ sfx)) ty0 u v) as [[[r2 x2] t2]|] eqn:Ru; [|discriminate B].
  destruct r1; try discriminate A. injection A as <- <-.
  destruct (read_suffix (nolf sfx) (fuel_for inp) (fuel_for (inp ++ sfx)) ty0) as [_ S].
  destruct (S C _ _ _ _ _ _ _ _ H Rt Ru) as (-> & -> & _). injection B as <- <- <-. reflexivity.
Qed.
