(** Consequences of the simulation, in the form used by the theorems. *)
From Verif Require Import Bytes BaseProofs Num Dbl Types Stream Tokenizer Write Read
  SpecJson SpecStr SpecInterp SpecNum SpecB64 LexView LexMono LexJson Termination ReadSim StrProofs IntProofs
  B64Proofs.

Lemma pval_ok_pshape p v : pval_ok p v = true -> pshape p v = true.
Proof. destruct p, v; simpl; congruence || reflexivity. Qed.

Lemma has_ty_shape t : forall v, has_ty t v = true -> shape t v = true.
Proof.
  induction t using ty_ind2; intros v H'; destruct v; try discriminate; try reflexivity;
    try (apply pval_ok_pshape, H').
  - simpl in *. rewrite forallb_forall in *. auto.
  - apply shape_msg. unfold shapes. simpl in H'. revert l H'.
    induction H as [|t ms Ht Hms IH]; intros [|v l] H'; try discriminate; constructor.
    + apply andb_prop in H' as [A _]. auto.
    + apply andb_prop in H' as [_ A]. auto.
Qed.

(** ** Strings (C01, C02) *)
Definition no_nul_b (s : bytes) : Prop := ~ In NUL s.

Lemma okc_false s : ~ In NUL s -> Forall (okc false) s.
Proof.
  intros H. apply Forall_forall. intros c I E. apply H. replace NUL with c; [exact I|].
  apply code_inj. exact E.
Qed.

Lemma read_string_literal strict lit s rest n e : jstring strict lit s ->
  (2 * length (lit ++ rest) + 3 <= n)%nat ->
  exists t t', tk_make n (mk_istream (lit ++ rest)) e = Some t /\
    read_string n t [] = Some (PGR_OK, s, t').
Proof.
  intros J L. destruct (tk_make_pos n (lit ++ rest) e L) as (t & E & P).
  rewrite nolf_app, (jstring_nolf _ _ _ J) in P.
  pose proof (lex_jstring strict lit s (nolf rest) J) as LX.
  destruct (pos_lex _ _ _ _ _ P LX) as (I & V & _).
  destruct (expect_yes n t _ _ _ _ P LX) as (t' & E' & _).
  { pose proof (nolf_length rest). len. }
  exists t, t'. split; [exact E|]. unfold read_string. rewrite I, V, E'. reflexivity.
Qed.

Lemma C01_lemma s rest e : ~ In NUL s ->
  exists lit, write_string false s e = (PGR_OK, lit, e) /\
    forall n, (2 * length (lit ++ rest) + 3 <= n)%nat ->
    exists t t', tk_make n (mk_istream (lit ++ rest)) e = Some t /\
      read_string n t [] = Some (PGR_OK, s, t').
Proof.
  intros H. destruct (write_string_jstring false false s e) as (lit & E & J & _).
  { intros X; discriminate. }
  { now apply okc_false. }
  exists lit. split; [exact E|]. intros n L. eapply read_string_literal; eauto.
Qed.

Lemma C02_lemma s rest e : utf8 s -> ~ In NUL s ->
  exists lit, write_string true s e = (PGR_OK, lit, e) /\ Forall (fun c => code c < 128) lit /\
    forall n, (2 * length (lit ++ rest) + 3 <= n)%nat ->
    exists t t', tk_make n (mk_istream (lit ++ rest)) e = Some t /\
      read_string n t [] = Some (PGR_OK, s, t').
Proof.
  intros U H. destruct (write_string_jstring true false s e) as (lit & E & J & A).
  { intros _; exact U. }
  { now apply okc_false. }
  exists lit. split; [exact E|]. split; [now apply A|]. intros n L. eapply read_string_literal; eauto.
Qed.

(** A string with a NUL byte is never read back. *)
Lemma esc_false_app s1 s2 : esc_loop false (s1 ++ s2) =
  (fst (esc_loop false s1) ++ fst (esc_loop false s2), true).
Proof.
  assert (T : forall s, snd (esc_loop false s) = true).
  { induction s as [|c s IH]; [reflexivity|]. cbn [esc_loop negb].
    destruct (esc_loop false s) as [o k]. simpl in IH. subst k.
    destruct (code c <=? 127); reflexivity. }
  induction s1 as [|c s1 IH].
  - cbn [app]. specialize (T s2). destruct (esc_loop false s2) as [o k]. simpl in *. now subst k.
  - cbn [app esc_loop negb]. rewrite IH. clear IH. specialize (T s1).
    destruct (esc_loop false s1) as [o k]. simpl in *. subst k.
    destruct (code c <=? 127); simpl; [now rewrite app_assoc|reflexivity].
Qed.

Lemma split_nul s : In NUL s -> exists s1 s2, s = s1 ++ NUL :: s2 /\ ~ In NUL s1.
Proof.
  induction s as [|c s IH]; [intros []|]. intros H.
  destruct (ascii_dec c NUL) as [->|N]; [exists [], s; auto|].
  destruct H as [->|H]; [contradiction|]. destruct (IH H) as (s1 & s2 & -> & H1).
  exists (c :: s1), s2. split; [reflexivity|]. intros [->|I]; auto.
Qed.

Lemma jchars_lex_gen strict t s x acc : jchars strict t s ->
  lex_str (t ++ x) 0 acc = lex_str x 0 (acc ++ s).
Proof.
  intros H. revert acc. induction H as [|c t s R H IH|e c t s S H IH|h cp t s X L SC H IH
                                       |h1 h2 hi lo t s X1 X2 R1 R2 H IH]; intros acc.
  - simpl. rewrite app_nil_r. reflexivity.
  - simpl. destruct R as (R1 & R2 & R3).
    destruct (Z.eqb_spec (code c) 34); [contradiction|].
    destruct (Z.eqb_spec (code c) 92); [contradiction|].
    destruct (Z.eqb_spec (code c) 0).
    + destruct strict; [lia|]. tauto.
    + rewrite IH, <- app_assoc. reflexivity.
  - cbn [app lex_str]. rewrite chr92. apply short_lex in S as (-> & _ & _). simpl.
    rewrite IH, <- app_assoc. reflexivity.
  - apply hex4_lex in X as (c1 & c2 & c3 & c4 & -> & E & R & _).
    change (b "\u" ++ [c1; c2; c3; c4] ++ t) with (chr 92 :: "u"%char :: c1 :: c2 :: c3 :: c4 :: t).
    cbn [app lex_str]. rewrite chr92. simpl Z.eqb. cbv iota.
    change (short_escape (schar "u")) with (@None ascii). cbv iota.
    rewrite E, utf8_step_bmp by (auto; lia). rewrite IH, <- app_assoc. reflexivity.
  - apply hex4_lex in X1 as (c1 & c2 & c3 & c4 & -> & E1 & _).
    apply hex4_lex in X2 as (d1 & d2 & d3 & d4 & -> & E2 & _).
    change (b "\u" ++ [c1; c2; c3; c4] ++ b "\u" ++ [d1; d2; d3; d4] ++ t)
      with (chr 92 :: "u"%char :: c1 :: c2 :: c3 :: c4 :: chr 92 :: "u"%char :: d1 :: d2 :: d3 :: d4 :: t).
    cbn [app lex_str]. rewrite chr92. simpl Z.eqb. cbv iota.
    change (short_escape (schar "u")) with (@None ascii). cbv iota.
    rewrite E1, utf8_step_lead by auto. rewrite E2, utf8_step_trail by auto.
    rewrite IH, <- app_assoc. reflexivity.
Qed.

Lemma C01_nul_lemma s e : In NUL s ->
  exists lit, write_string false s e = (PGR_OK, lit, e) /\
    forall rest n, (2 * length (lit ++ rest) + 3 <= n)%nat ->
    exists t t', tk_make n (mk_istream (lit ++ rest)) e = Some t /\
      read_string n t [] = Some (PGR_ERROR, [], t').
Proof.
  intros H. destruct (split_nul s H) as (s1 & s2 & -> & N).
  destruct (esc_loop_jchars false false s1) as (o1 & E1 & J1 & _).
  { intros X; discriminate. }
  { now apply okc_false. }
  unfold write_string. rewrite esc_false_app, E1.
  set (o2 := fst (esc_loop false (NUL :: s2))).
  assert (E2 : exists o3, o2 = NUL :: o3).
  { unfold o2. cbn [esc_loop]. change (code NUL <=? 127) with true. cbv iota.
    destruct (esc_loop false s2) as [o3 k]. exists o3. reflexivity. }
  destruct E2 as (o3 & E2). rewrite E2. cbn [fst].
  eexists. split; [reflexivity|]. intros rest n L.
  destruct (tk_make_pos n _ e L) as (t & E & P). exists t.
  assert (LX : lex (nolf (([chr 34] ++ (o1 ++ NUL :: o3) ++ [chr 34]) ++ rest)) = None).
  { rewrite !nolf_app. rewrite (nolf_id o1) by (eapply jchars_nolf; eauto).
    change (nolf [chr 34]) with [chr 34]. change (nolf (NUL :: o3)) with (NUL :: nolf o3).
    cbn [app lex]. change (is_ws_c (chr 34)) with false. change (punct (schar (chr 34))) with (@None token_id).
    change (code (chr 34) =? 34) with true. cbv iota.
    rewrite <- !app_assoc. rewrite (jchars_lex_gen _ _ _ _ _ J1). reflexivity. }
  destruct P as [_ P]. rewrite LX in P. rename P into P1.
  unfold read_string. rewrite P1, (expect_no n t T_STRING) by (rewrite P1; discriminate).
  unfold rfail. eauto.
Qed.

(** ** Integers (C15) *)
Lemma in_range_minmax sg bits z : width bits ->
  in_range sg bits z = true <-> int_min sg bits <= z <= int_max sg bits.
Proof.
  intros W. unfold in_range, int_min, int_max. destruct sg; rewrite andb_true_iff, Z.leb_le, Z.ltb_lt; lia.
Qed.

Lemma numeral_dec z : numeral z (dec z).
Proof.
  exists (dec_nat (Z.abs z)). destruct (dec_nat_spec (Z.abs z)) as (V & _ & _); [lia|].
  split; [apply dec_nat_int_part; lia|]. split; [exact V|].
  unfold dec. destruct (Z.ltb_spec z 0).
  - rewrite Z.abs_neq by lia. reflexivity.
  - rewrite Z.abs_eq by lia. reflexivity.
Qed.

Lemma C15_roundtrip_lemma ea sn sg bits z e : int_width bits -> int_min sg bits <= z <= int_max sg bits ->
  exists text, write ea sn (TField (PInt sg bits)) (VField false (VInt z)) e = (PGR_OK, text, e) /\
    numeral z text /\
    forall v w1 w2 po, has_ty (TField (PInt sg bits)) v = true -> ws w1 -> ws w2 -> exists po',
      deserialize (TField (PInt sg bits)) v (w1 ++ text ++ w2) po
      = Some (true, VField false (VInt z), po').
Proof.
  intros W R. apply in_range_minmax in R; [|exact W]. exists (dec z). split; [reflexivity|].
  split; [apply numeral_dec|]. intros v w1 w2 po Hv W1 W2.
  destruct (deserialize_interp true (TField (PInt sg bits)) v (JNum (dec z)) (w1 ++ dec z ++ w2) po)
    as (po' & E).
  - exists w1, w2, (dec z). repeat split; auto. constructor. apply dec_json.
  - now apply has_ty_shape.
  - exact I.
  - exists po'. rewrite E. destruct v; try discriminate. simpl.
    now rewrite string_to_int_dec.
Qed.

Lemma wide_strtol neg i f e : int_part i -> frac_part f -> exp_part e ->
  strtol ((if neg : bool then b "-" else []) ++ i ++ f ++ e) = wide true neg (dval i) /\
  strtoul ((if neg : bool then b "-" else []) ++ i ++ f ++ e) = wide false neg (dval i).
Proof.
  intros I F E. unfold strtol, strtoul. rewrite json_split by assumption. split; reflexivity.
Qed.

Lemma C15_text_lemma sg bits neg i f e v w1 w2 po :
  int_width bits -> int_part i -> frac_part f -> exp_part e ->
  has_ty (TField (PInt sg bits)) v = true -> ws w1 -> ws w2 ->
  exists z po', deserialize (TField (PInt sg bits)) v
                  (w1 ++ ((if neg : bool then b "-" else []) ++ i ++ f ++ e) ++ w2) po
                = Some (true, VField false (VInt z), po') /\
    int_min sg bits <= z <= int_max sg bits /\
    exists k, z = wide sg neg (dval i) + k * 2 ^ bits.
Proof.
  intros W I F E Hv W1 W2.
  set (s := (if neg : bool then b "-" else []) ++ i ++ f ++ e).
  destruct (deserialize_interp true (TField (PInt sg bits)) v (JNum s) (w1 ++ s ++ w2) po)
    as (po' & D).
  - exists w1, w2, s. repeat split; auto. constructor.
    exists (if neg then b "-" else []), i, f, e. repeat split; auto. destruct neg; auto.
  - now apply has_ty_shape.
  - exact Logic.I.
  - destruct (wide_strtol neg i f e I F E) as [E1 E2].
    exists (string_to_int sg bits s), po'. split.
    { rewrite D. destruct v; try discriminate. reflexivity. }
    assert (C : string_to_int sg bits s = cast_int sg bits (wide sg neg (dval i))).
    { unfold string_to_int, s. rewrite E1, E2. now destruct sg. }
    rewrite C. destruct (cast_int_spec sg bits (wide sg neg (dval i)) W) as [R M].
    split; [now apply in_range_minmax|].
    assert (0 < 2 ^ bits) by (apply Z.pow_pos_nonneg; destruct W as [->|[->| ->]]; lia).
    exists ((cast_int sg bits (wide sg neg (dval i)) - wide sg neg (dval i)) / 2 ^ bits).
    pose proof (Z.div_mod (cast_int sg bits (wide sg neg (dval i)) - wide sg neg (dval i)) (2 ^ bits)).
    lia.
Qed.

(** ** Base64 (C14) *)
Lemma b64_jstring v : jstring true ([chr 34] ++ b64_encode v ++ [chr 34]) (b64_encode v).
Proof.
  exists (b64_encode v). split; [reflexivity|]. pose proof (b64_encode_text v) as H.
  induction H as [|c l (R & N1 & N2) H IH]; constructor; [|exact IH].
  split; [exact N2|]. split; [exact N1|]. lia.
Qed.

Lemma C14_lemma ea sn s e : 
  exists text, write ea sn TB64 (VB64 s) e = (PGR_OK, [chr 34] ++ text ++ [chr 34], e) /\
    text = rfc4648 s /\ length text = (4 * ((length s + 2) / 3))%nat /\
    forall old w1 w2 po, ws w1 -> ws w2 -> exists po',
      deserialize TB64 (VB64 old) (w1 ++ ([chr 34] ++ text ++ [chr 34]) ++ w2) po
      = Some (true, VB64 (old ++ s), po').
Proof.
  exists (b64_encode s). split; [reflexivity|]. split; [apply b64_encode_rfc|].
  split; [apply b64_encode_length|]. intros old w1 w2 po W1 W2.
  destruct (deserialize_interp true TB64 (VB64 old) (JStr (b64_encode s))
     (w1 ++ ([chr 34] ++ b64_encode s ++ [chr 34]) ++ w2) po) as (po' & D).
  - exists w1, w2, ([chr 34] ++ b64_encode s ++ [chr 34]). repeat split; auto. constructor. apply b64_jstring.
  - reflexivity.
  - exact I.
  - exists po'. rewrite D. cbn [interp]. rewrite b64_decode_encode. reflexivity.
Qed.
