(** C16: floating point fields through [write] and [deserialize]. *)
From Verif Require Import Bytes BaseProofs Num Dbl Types Stream Tokenizer Write Read
  SpecJson SpecInterp SpecNum SpecDbl IntProofs DblProofs ReadSim ApiProofs.

Lemma millionths_half m e :
  2 * Z.abs (millionths m e * 2 ^ Z.max 0 (- e) - Zpos m * 2 ^ Z.max 0 e * 1000000) <= 2 ^ Z.max 0 (- e).
Proof.
  unfold millionths.
  assert (D : 0 < scale_den 1 (- e)) by (unfold scale_den; pose proof (pow2_pos (Z.max 0 (- e))); lia).
  pose proof (div_rne_half (scale_num (Zpos m * 1000000) (- e)) _ D) as H.
  unfold scale_den at 2 3 in H. rewrite !Z.mul_1_l in H. unfold scale_num at 2 in H.
  rewrite Z.opp_involutive in H.
  replace (Zpos m * 2 ^ Z.max 0 e * 1000000) with (Zpos m * 1000000 * 2 ^ Z.max 0 e) by ring. exact H.
Qed.

Lemma millionths_tie m e :
  2 * Z.abs (millionths m e * 2 ^ Z.max 0 (- e) - Zpos m * 2 ^ Z.max 0 e * 1000000) = 2 ^ Z.max 0 (- e) ->
  Z.even (millionths m e) = true.
Proof.
  unfold millionths.
  assert (D : 0 < scale_den 1 (- e)) by (unfold scale_den; pose proof (pow2_pos (Z.max 0 (- e))); lia).
  pose proof (div_rne_tie (scale_num (Zpos m * 1000000) (- e)) _ D) as H.
  unfold scale_den at 2 3 in H. rewrite !Z.mul_1_l in H. unfold scale_num at 2 in H.
  rewrite Z.opp_involutive in H.
  replace (Zpos m * 2 ^ Z.max 0 e * 1000000) with (Zpos m * 1000000 * 2 ^ Z.max 0 e) by ring. exact H.
Qed.

Lemma C16_text_lemma s m e :
  dbl_valid binary64 (DFin s m e) = true \/ dbl_valid binary32 (DFin s m e) = true ->
  (length (dbl_to_string (DFin s m e)) <= 317)%nat /\
  exists i f, dbl_to_string (DFin s m e) = (if s then b "-" else []) ++ i ++ b "." ++ f /\
    int_part i /\ forallb digit_char f = true /\ length f = 6%nat /\
    2 * Z.abs (dval (i ++ f) * 2 ^ Z.max 0 (- e) - Zpos m * 2 ^ Z.max 0 e * 10 ^ 6) <= 2 ^ Z.max 0 (- e) /\
    (2 * Z.abs (dval (i ++ f) * 2 ^ Z.max 0 (- e) - Zpos m * 2 ^ Z.max 0 e * 10 ^ 6) = 2 ^ Z.max 0 (- e) ->
     Z.even (dval (i ++ f)) = true).
Proof.
  intros V. assert (F : fin_ok (DFin s m e) = true).
  { cbn [fin_ok]. destruct V as [-> | ->]; [reflexivity|apply orb_true_r]. }
  rewrite dbl_to_string_full by exact F. split; [now apply fmt_f_length|].
  destruct (fmt_f_split _ F) as (i & f & E & A & _ & _ & B & C & D).
  exists i, f. split; [exact E|]. split; [exact A|]. split; [exact B|]. split; [exact C|].
  change (dval (i ++ f)) with (digits_val (i ++ f)). rewrite D. cbn [dbl_mill].
  change (10 ^ 6) with 1000000. split; [apply millionths_half|apply millionths_tie].
Qed.

Lemma prim_text_back (single : bool) d : dbl_valid (fformat single) d = true -> six d ->
  string_to_prim (fprim single) (dbl_to_string d) = VDbl d /\ json_number (dbl_to_string d).
Proof.
  intros V S.
  assert (F : fin_ok d = true).
  { destruct d; try contradiction; [reflexivity|]. cbn [fin_ok]. destruct single; simpl in V; simpl; rewrite V; auto using orb_true_r. }
  split.
  - destruct single; cbn [fprim string_to_prim]; f_equal; [apply float_round_trip|apply double_round_trip]; auto.
  - rewrite dbl_to_string_full by exact F. now apply fmt_f_json.
Qed.

Lemma C16_back_lemma (single : bool) d ea sn e v w1 w2 po :
  dbl_valid (fformat single) d = true -> six d ->
  has_ty (TField (fprim single)) v = true -> ws w1 -> ws w2 ->
  exists text po', write ea sn (TField (fprim single)) (VField false (VDbl d)) e = (PGR_OK, text, e) /\
    json_number text /\
    deserialize (TField (fprim single)) v (w1 ++ text ++ w2) po = Some (true, VField false (VDbl d), po').
Proof.
  intros V S Hv W1 W2. destruct (prim_text_back single d V S) as [B J].
  exists (dbl_to_string d).
  destruct (deserialize_interp true (TField (fprim single)) v (JNum (dbl_to_string d))
     (w1 ++ dbl_to_string d ++ w2) po) as (po' & E).
  - exists w1, w2, (dbl_to_string d). repeat split; auto. now constructor.
  - now apply has_ty_shape.
  - exact I.
  - exists po'. split; [reflexivity|]. split; [exact J|]. rewrite E.
    destruct v; try (destruct single; discriminate).
    cbn [interp].
    assert (IP : interp_prim (fprim single) (pzero (fprim single)) (JNum (dbl_to_string d))
      = (RGood, string_to_prim (fprim single) (dbl_to_string d))) by (destruct single; reflexivity).
    rewrite IP, B. reflexivity.
Qed.
