(** The text written for an arbitrary string. *)
From Verif Require Import Bytes BaseProofs BitProofs Num Dbl Types Stream Tokenizer Write Read SpecJson SpecStr SpecErr SpecInterp SpecTok SpecTakes
  LexJson StrProofs ReadSim ApiProofs SpecLoose TokLex AcceptProofs.

Lemma hexd_low d : 0 <= d < 16 -> hexd d = hex_low d.
Proof.
  intros R. apply Ascii.eqb_eq.
  apply (range_check (fun d => Ascii.eqb (hexd d) (hex_low d)) 16); [vm_compute; reflexivity|lia].
Qed.

Lemma u_escape_text cp : 0 <= cp < 65536 -> u_escape cp = u_text cp.
Proof. intros R. unfold u_escape, u_text. rewrite !hexd_low by lia. reflexivity. Qed.

Lemma esc1_cases c : (exists e, short e c /\ esc1 c = [chr 92; e]) \/ ((forall e, ~ short e c) /\ esc1 c = [c]).
Proof.
  unfold esc1.
  repeat match goal with
  | |- context [code c =? ?z] => destruct (Z.eqb_spec (code c) z) as [E|?];
      [apply code_is in E; [subst c|lia]; left; eexists; split; [constructor|reflexivity]|]
  end.
  right. split; [|reflexivity]. intros e SH. inversion SH; subst;
    match goal with H : code ?x <> _ |- _ => vm_compute in H; congruence end.
Qed.

Lemma cont_is c : is_cont c = true <-> cont c.
Proof.
  unfold is_cont, cont. pose proof (code_range c) as R.
  assert (H : (Z.land (code c) 192 =? 128) = ((128 <=? code c) && (code c <? 192))).
  { apply Bool.eqb_prop. apply (range_check (fun z => Bool.eqb (Z.land z 192 =? 128) ((128 <=? z) && (z <? 192))) 256);
      [vm_compute; reflexivity|lia]. }
  rewrite H. lia.
Qed.

Lemma units2 c1 c2 : 192 <= code c1 <= 223 -> cont c2 ->
  u_escape (Z.lor (Z.shiftl (Z.land (code c1) 31) 6) (Z.land (code c2) 63)) =
  u_text ((code c1 - 192) * 64 + (code c2 - 128)).
Proof.
  intros R C. unfold cont in C. rewrite land31, land63, shiftl6, lor_64 by lia.
  replace (code c1 mod 32) with (code c1 - 192) by lia. replace (code c2 mod 64) with (code c2 - 128) by lia.
  apply u_escape_text. lia.
Qed.

Lemma units3 c1 c2 c3 : 224 <= code c1 <= 239 -> cont c2 -> cont c3 ->
  u_escape (Z.lor (Z.lor (Z.shiftl (Z.land (code c1) 15) 12) (Z.shiftl (Z.land (code c2) 63) 6)) (Z.land (code c3) 63)) =
  u_text ((code c1 - 224) * 4096 + (code c2 - 128) * 64 + (code c3 - 128)).
Proof.
  intros R C2 C3. unfold cont in *. rewrite land15, !land63, shiftl12, shiftl6. rewrite lor_4096 by lia.
  replace (code c1 mod 16 * 4096 + code c2 mod 64 * 64) with ((code c1 mod 16 * 64 + code c2 mod 64) * 64) by lia.
  rewrite lor_64 by lia.
  replace (code c1 mod 16) with (code c1 - 224) by lia. replace (code c2 mod 64) with (code c2 - 128) by lia.
  replace (code c3 mod 64) with (code c3 - 128) by lia.
  replace (((code c1 - 224) * 64 + (code c2 - 128)) * 64 + (code c3 - 128))
    with ((code c1 - 224) * 4096 + (code c2 - 128) * 64 + (code c3 - 128)) by lia.
  apply u_escape_text. lia.
Qed.

Lemma point4 c1 c2 c3 c4 : 240 <= code c1 <= 244 -> cont c2 -> cont c3 -> cont c4 ->
  Z.lor (Z.lor (Z.lor (Z.shiftl (Z.land (code c1) 7) 18) (Z.shiftl (Z.land (code c2) 63) 12))
               (Z.shiftl (Z.land (code c3) 63) 6)) (Z.land (code c4) 63) =
  (code c1 - 240) * 262144 + (code c2 - 128) * 4096 + (code c3 - 128) * 64 + (code c4 - 128).
Proof.
  intros R C2 C3 C4. unfold cont in *. rewrite land7, !land63, shiftl18, shiftl12, shiftl6. rewrite lor_262144 by lia.
  replace (code c1 mod 8 * 262144 + code c2 mod 64 * 4096) with ((code c1 mod 8 * 64 + code c2 mod 64) * 4096) by lia.
  rewrite lor_4096 by lia.
  replace ((code c1 mod 8 * 64 + code c2 mod 64) * 4096 + code c3 mod 64 * 64)
    with (((code c1 mod 8 * 64 + code c2 mod 64) * 64 + code c3 mod 64) * 64) by lia.
  rewrite lor_64 by lia. lia.
Qed.

Lemma units4 cp : 0 <= cp < 5 * 262144 ->
  u_escape (LEAD_OFFSET + Z.shiftr cp 10) = u_text (55296 + cp / 1024 - 64) /\
  u_escape (56320 + Z.land cp 1023) = u_text (56320 + cp mod 1024).
Proof.
  intros R. rewrite shiftr10, land1023. change LEAD_OFFSET with (55296 - 64).
  replace (55296 - 64 + cp / 1024) with (55296 + cp / 1024 - 64) by lia. split; apply u_escape_text; lia.
Qed.

(** No sequence begins here. *)
Lemma stuck_no c x : 128 <= code c ->
  (forall c2 r, x = c2 :: r -> 192 <= code c <= 223 -> cont c2 -> False) ->
  (forall c2 c3 r, x = c2 :: c3 :: r -> 224 <= code c <= 239 -> cont c2 -> cont c3 -> False) ->
  (forall c2 c3 c4 r, x = c2 :: c3 :: c4 :: r -> 240 <= code c <= 244 -> cont c2 -> cont c3 -> cont c4 -> False) ->
  stuck (c :: x).
Proof.
  intros H N2 N3 N4. exists c, x. split; [reflexivity|]. split; [exact H|]. intros q us y S E.
  destruct S; injection E as -> ->; [eapply N2|eapply N3|eapply N4]; eauto.
Qed.

Lemma loop_exact ea : forall n s, (length s <= n)%nat -> exists u r t, s = u ++ r /\ written_as ea u t /\
  ((r = [] /\ esc_loop ea s = (t, true)) \/ (ea = true /\ stuck r /\ esc_loop ea s = (t, false))).
Proof.
  induction n as [|n IH]; intros s L.
  - destruct s; [|simpl in L; lia]. exists [], [], []. repeat split; [constructor|auto].
  - destruct s as [|c1 r1]; [exists [], [], []; repeat split; [constructor|auto]|]. cbn [length] in L.
    assert (Step : forall q us rest, ea = true -> seq_units q us -> (length rest <= n)%nat -> c1 :: r1 = q ++ rest ->
      (forall o k, esc_loop ea rest = (o, k) -> esc_loop ea (c1 :: r1) = (flat_map u_text us ++ o, k)) ->
      exists u r t, c1 :: r1 = u ++ r /\ written_as ea u t /\
        ((r = [] /\ esc_loop ea (c1 :: r1) = (t, true)) \/ (ea = true /\ stuck r /\ esc_loop ea (c1 :: r1) = (t, false)))).
    { intros q us rest EA SU LR EQ LP. destruct (IH rest LR) as (u & r & t & -> & W & D).
      exists (q ++ u), r, (flat_map u_text us ++ t). split; [rewrite EQ; now rewrite app_assoc|].
      split; [now apply wa_seq|]. destruct D as [(R0 & E)|(_ & ST & E)]; [left|right]; repeat split; auto. }
    assert (Stop : ea = true -> 128 <= code c1 -> esc_loop ea (c1 :: r1) = ([], false) -> stuck (c1 :: r1) ->
      exists u r t, c1 :: r1 = u ++ r /\ written_as ea u t /\
        ((r = [] /\ esc_loop ea (c1 :: r1) = (t, true)) \/ (ea = true /\ stuck r /\ esc_loop ea (c1 :: r1) = (t, false)))).
    { intros EA H E ST. exists [], (c1 :: r1), []. split; [reflexivity|]. split; [constructor|]. right. auto. }
    destruct (Z.leb_spec (code c1) 127) as [H|H].
    + destruct (IH r1 ltac:(lia)) as (u & r & t & -> & W & D).
      assert (E : forall o k, esc_loop ea (u ++ r) = (o, k) -> esc_loop ea (c1 :: u ++ r) = (esc1 c1 ++ o, k)).
      { intros o k E. cbn [esc_loop]. rewrite E. destruct (Z.leb_spec (code c1) 127); [reflexivity|lia]. }
      destruct (esc1_cases c1) as [(e & SH & X)|(NS & X)]; rewrite X in E.
      * exists (c1 :: u), r, (chr 92 :: e :: t). split; [reflexivity|]. split; [now apply wa_short|].
        destruct D as [(R0 & E0)|(EA & ST & E0)]; [left|right]; repeat split; auto; now rewrite (E _ _ E0).
      * exists (c1 :: u), r, (c1 :: t). split; [reflexivity|]. split; [apply wa_plain; auto; lia|].
        destruct D as [(R0 & E0)|(EA & ST & E0)]; [left|right]; repeat split; auto; now rewrite (E _ _ E0).
    + destruct ea eqn:EA.
      2:{ destruct (IH r1 ltac:(lia)) as (u & r & t & -> & W & [(R0 & E0)|(? & _)]); [|discriminate].
          exists (c1 :: u), r, (c1 :: t). split; [reflexivity|]. split; [apply wa_high; auto; lia|]. left. split; [exact R0|].
          cbn [esc_loop]. rewrite E0. destruct (Z.leb_spec (code c1) 127); [lia|reflexivity]. }
      destruct r1 as [|c2 r2].
      { apply Stop; auto; [lia|cbn [esc_loop]; destruct (Z.leb_spec (code c1) 127); [lia|reflexivity]|].
        apply stuck_no; [lia|discriminate..]. }
      destruct ((192 <=? code c1) && (code c1 <=? 223) && is_cont c2) eqn:B2.
      { assert (R2 : 192 <= code c1 <= 223) by lia. assert (C2 : cont c2) by (apply cont_is; destruct (is_cont c2); [reflexivity|lia]).
        apply (Step [c1; c2] [(code c1 - 192) * 64 + (code c2 - 128)] r2); auto; [constructor; auto|simpl in L; lia|].
        intros o k E. cbn [esc_loop]. rewrite B2, E, (units2 c1 c2) by auto.
        destruct (Z.leb_spec (code c1) 127); [lia|]. cbn [negb flat_map]. now rewrite app_nil_r. }
      assert (N2 : forall d r, c2 :: r2 = d :: r -> 192 <= code c1 <= 223 -> cont d -> False).
      { intros d r EQ R C. injection EQ as <- <-. apply cont_is in C. rewrite C in B2. lia. }
      destruct r2 as [|c3 r3].
      { apply Stop; auto; [lia|cbn [esc_loop]; rewrite B2; destruct (Z.leb_spec (code c1) 127); [lia|reflexivity]|].
        apply stuck_no; [lia|exact N2|discriminate..]. }
      destruct ((224 <=? code c1) && (code c1 <=? 239) && is_cont c2 && is_cont c3) eqn:B3.
      { apply andb_prop in B3 as [B3 C3]. apply andb_prop in B3 as [B3 C2]. assert (R3 : 224 <= code c1 <= 239) by lia.
        pose proof C2 as C2'. pose proof C3 as C3'. apply cont_is in C2', C3'.
        apply (Step [c1; c2; c3] [(code c1 - 224) * 4096 + (code c2 - 128) * 64 + (code c3 - 128)] r3); auto; [constructor; auto|simpl in L; lia|].
        intros o k E. cbn [esc_loop]. rewrite B2, B3, C2, C3, E, (units3 c1 c2 c3) by auto.
        destruct (Z.leb_spec (code c1) 127); [lia|]. cbn [negb flat_map andb]. now rewrite app_nil_r. }
      assert (N3 : forall d f r, c2 :: c3 :: r3 = d :: f :: r -> 224 <= code c1 <= 239 -> cont d -> cont f -> False).
      { intros d f r EQ R C C'. injection EQ as <- <- <-. apply cont_is in C, C'. rewrite C, C' in B3. lia. }
      destruct r3 as [|c4 r4].
      { apply Stop; auto; [lia|cbn [esc_loop]; rewrite B2, B3; destruct (Z.leb_spec (code c1) 127); [lia|reflexivity]|].
        apply stuck_no; [lia|exact N2|exact N3|discriminate]. }
      destruct ((240 <=? code c1) && (code c1 <=? 244) && is_cont c2 && is_cont c3 && is_cont c4) eqn:B4.
      { apply andb_prop in B4 as [B4 C4]. apply andb_prop in B4 as [B4 C3]. apply andb_prop in B4 as [B4 C2].
        assert (R4 : 240 <= code c1 <= 244) by lia.
        pose proof C2 as C2'. pose proof C3 as C3'. pose proof C4 as C4'. apply cont_is in C2', C3', C4'.
        remember ((code c1 - 240) * 262144 + (code c2 - 128) * 4096 + (code c3 - 128) * 64 + (code c4 - 128)) as cp eqn:CP.
        assert (RC : 0 <= cp < 5 * 262144) by (unfold cont in *; lia).
        apply (Step [c1; c2; c3; c4] [55296 + cp / 1024 - 64; 56320 + cp mod 1024] r4); auto; [constructor; auto|simpl in L; lia|].
        intros o k E. cbn [esc_loop]. rewrite B2, B3, B4, C2, C3, C4, E, (point4 c1 c2 c3 c4), <- CP by auto.
        destruct (units4 cp RC) as [U1 U2]. rewrite U1, U2.
        destruct (Z.leb_spec (code c1) 127); [lia|]. cbn [negb flat_map andb]. now rewrite app_nil_r, <- app_assoc. }
      apply Stop; auto; [lia|cbn [esc_loop]; rewrite B2, B3, B4; destruct (Z.leb_spec (code c1) 127); [lia|reflexivity]|].
      apply stuck_no; [lia|exact N2|exact N3|].
      intros d f g r EQ R C C' C''. injection EQ as <- <- <- <-. apply cont_is in C, C', C''. rewrite C, C', C'' in B4. lia.
Qed.

Lemma string_written ea sn s e : exists u r t, s = u ++ r /\ written_as ea u t /\
  ((r = [] /\ write ea sn TStr (VStr false s) e = (PGR_OK, [chr 34] ++ t ++ [chr 34], e)) \/
   (ea = true /\ stuck r /\ exists e', write ea sn TStr (VStr false s) e = (PGR_ERROR, [chr 34] ++ t, e') /\
     (e_code e = PGERR_OK -> e' = EI PGERR_INVALID_VALUE (b "invalid UTF-8 code point") 0 0) /\
     (e_code e <> PGERR_OK -> e' = e))).
Proof.
  destruct (loop_exact ea _ s (le_n _)) as (u & r & t & E & W & D). exists u, r, t. split; [exact E|]. split; [exact W|].
  cbn [write vempty andb]. unfold write_string. destruct D as [(R0 & ->)|(EA & ST & ->)]; [left; auto|right].
  split; [exact EA|]. split; [exact ST|]. eexists. split; [reflexivity|]. unfold set_error.
  split; destruct (e_code e); congruence.
Qed.

(** ** Reading it back *)
Lemma ascii_lchars pend t s : lchars pend t s -> pend_ok pend -> all_ascii t -> utf8 s.
Proof.
  induction 1 as [pend|pend c t s R H IH|pend e c t s S H IH|pend h cp t s X L SC H IH
                 |pend h hi t s X R H IH|hi h lo t s X R H IH]; intros P A.
  - constructor.
  - inversion A as [|? ? C A']; subst. pose proof (code_range c).
    replace (c :: s) with (utf8_encode (code c) ++ s).
    + apply utf8_cons; [split; lia|auto].
    + unfold utf8_encode. destruct (Z.ltb_spec (code c) 128); [|lia]. now rewrite chr_code.
  - inversion A as [|? ? C A']; subst. inversion A' as [|? ? C' A'']; subst. assert (code c < 128) by (destruct S; reflexivity).
    pose proof (code_range c). replace (c :: s) with (utf8_encode (code c) ++ s).
    + apply utf8_cons; [split; lia|auto].
    + unfold utf8_encode. destruct (Z.ltb_spec (code c) 128); [|lia]. now rewrite chr_code.
  - apply Forall_app in A as [_ A]. apply Forall_app in A as [_ A]. apply utf8_cons; [exact SC|]. now apply IH.
  - apply Forall_app in A as [_ A]. apply Forall_app in A as [_ A]. apply IH; auto.
  - apply Forall_app in A as [_ A]. apply Forall_app in A as [_ A]. cbn [pend_ok] in P.
    apply utf8_cons; [split; lia|]. now apply IH.
Qed.

Lemma ascii_tokens pre post l : tokens pre post l -> all_ascii pre ->
  forall s, In (KStr s) l -> utf8 s /\ ~ In NUL s.
Proof.
  induction 1 as [x|pre c x l H IH W|pre u x l k H IH T]; intros A s I.
  - destruct I.
  - apply Forall_app in A as [A _]. now apply IH.
  - apply Forall_app in A as [A A']. apply in_app_iff in I as [I|[->|[]]]; [now apply IH|].
    split; [|exact (tok_nonul _ _ _ T)].
    assert (B : all_ascii (drop_lf u)).
    { apply Forall_forall. intros c C. apply filter_In in C as [C _]. apply (proj1 (Forall_forall _ _) A' c C). }
    revert B T. generalize (drop_lf u) (drop_lf x). clear. intros u x B T.
    inversion T as [| | | | | |t s0 x0 L E1 E2| | | |]; subst. inversion B as [|? ? _ B']; subst.
    apply Forall_app in B' as [B' _]. eapply ascii_lchars; [exact L|exact Logic.I|exact B'].
Qed.

Lemma hex_low_ascii d : code (hex_low d) < 128.
Proof.
  unfold hex_low. destruct (Nat.lt_ge_cases (Z.to_nat d) 16) as [L|L].
  - pose proof (proj1 (Forall_forall (fun c => code c < 128) (b "0123456789abcdef")) ltac:(repeat constructor)) as F.
    apply F. apply nth_In. exact L.
  - rewrite nth_overflow by exact L. reflexivity.
Qed.

Lemma written_ascii s t : written_as true s t -> all_ascii t.
Proof.
  induction 1 as [|e c s t S W IH|c s t L NS W IH|c s t E H W IH|q us s t _ S W IH]; unfold all_ascii in *.
  - constructor.
  - constructor; [reflexivity|]. constructor; [destruct S; reflexivity|exact IH].
  - constructor; [exact L|exact IH].
  - discriminate E.
  - apply Forall_app. split; [|exact IH]. clear. induction us as [|z us IH]; cbn [flat_map]; [constructor|].
    apply Forall_app. split; [|exact IH]. unfold u_text. do 2 (constructor; [reflexivity|]).
    repeat constructor; apply hex_low_ascii.
Qed.

Lemma read_back s text sn e po : write true sn TStr (VStr false s) e = (PGR_OK, text, e) ->
  (exists po', deserialize TStr (VStr true []) text po = Some (true, VStr false s, po')) <-> utf8 s /\ ~ In NUL s.
Proof.
  intros W. split.
  - intros D. apply accepts in D as (pre & post & toks & E & T & K); [|reflexivity|exact I].
    inversion K; subst. eapply ascii_tokens; [exact T| |now left].
    destruct (string_written true sn s e) as (u & r & t & -> & WA & [(-> & X)|(_ & _ & e' & X & _)]); rewrite X in W; [|discriminate W].
    injection W as W. assert (A : all_ascii (pre ++ post)).
    { rewrite <- W. constructor; [reflexivity|]. apply Forall_app. split; [eapply written_ascii; exact WA|]. constructor; [reflexivity|constructor]. }
    apply Forall_app in A as [A _]. exact A.
  - intros [U N].
    destruct (write_string_jstring true false s e (fun _ => U)) as (o & X & J & _).
    { apply Forall_forall. intros c C Z. apply N. now replace NUL with c by (apply code_inj; exact Z). }
    cbn [write vempty andb] in W. rewrite X in W. injection W as ->.
    destruct (deserialize_interp false TStr (VStr true []) (JStr s) text po) as (po' & D).
    + exists [], [], text. repeat split; auto; try constructor; [now rewrite app_nil_r|exact J].
    + reflexivity.
    + exact I.
    + exists po'. rewrite D. reflexivity.
Qed.
