(** Base64: the writer implements RFC 4648, the reader inverts it. *)
From Verif Require Import Bytes BaseProofs BitProofs Num Dbl Types Stream Tokenizer Write Read SpecB64.

Lemma code_bits b0 b1 b2 b3 b4 b5 b6 b7 :
  code (Ascii b0 b1 b2 b3 b4 b5 b6 b7) =
  Z.b2z b0 + 2 * Z.b2z b1 + 4 * Z.b2z b2 + 8 * Z.b2z b3 + 16 * Z.b2z b4 + 32 * Z.b2z b5
  + 64 * Z.b2z b6 + 128 * Z.b2z b7.
Proof. destruct b0, b1, b2, b3, b4, b5, b6, b7; reflexivity. Qed.

Lemma b2z_range x : 0 <= Z.b2z x <= 1.
Proof. destruct x; simpl; lia. Qed.

Lemma bits_val6 x1 x2 x3 x4 x5 x6 : bits_val [x1; x2; x3; x4; x5; x6] =
  32 * Z.b2z x1 + 16 * Z.b2z x2 + 8 * Z.b2z x3 + 4 * Z.b2z x4 + 2 * Z.b2z x5 + Z.b2z x6.
Proof. unfold bits_val. cbn [fold_left]. lia. Qed.

Lemma b64_sym_char i : 0 <= i < 64 -> b64_sym i = b64_char i.
Proof.
  intros R. apply Ascii.eqb_eq.
  apply (range_check (fun i => Ascii.eqb (b64_sym i) (b64_char i)) 64); [vm_compute; reflexivity|lia].
Qed.

Lemma b64_int_char i : 0 <= i < 64 -> b64_int (schar (b64_char i)) = i.
Proof.
  intros R. apply Z.eqb_eq.
  apply (range_check (fun i => b64_int (schar (b64_char i)) =? i) 64); [vm_compute; reflexivity|lia].
Qed.

Lemma land48 s : 0 <= s < 64 -> Z.shiftr (Z.land s 48) 4 = s / 16.
Proof.
  intros R. apply Z.eqb_eq.
  apply (range_check (fun s => Z.shiftr (Z.land s 48) 4 =? s / 16) 64); [vm_compute; reflexivity|lia].
Qed.
Lemma land60 s : 0 <= s < 64 -> Z.shiftr (Z.land s 60) 2 = s / 4 mod 16.
Proof.
  intros R. apply Z.eqb_eq.
  apply (range_check (fun s => Z.shiftr (Z.land s 60) 2 =? s / 4 mod 16) 64); [vm_compute; reflexivity|lia].
Qed.
Lemma land240 s : 0 <= s < 256 -> Z.shiftr (Z.land s 240) 4 = s / 16.
Proof.
  intros R. apply Z.eqb_eq.
  apply (range_check (fun s => Z.shiftr (Z.land s 240) 4 =? s / 16) 256); [vm_compute; reflexivity|lia].
Qed.
Lemma land192 s : 0 <= s < 256 -> Z.shiftr (Z.land s 192) 6 = s / 64.
Proof.
  intros R. apply Z.eqb_eq.
  apply (range_check (fun s => Z.shiftr (Z.land s 192) 6 =? s / 64) 256); [vm_compute; reflexivity|lia].
Qed.
Lemma lor_16 x y : 0 <= y < 16 -> Z.lor (x * 16) y = x * 16 + y.
Proof. intros. apply (lor_add x y 4); lia. Qed.
Lemma lor_4 x y : 0 <= y < 4 -> Z.lor (x * 4) y = x * 4 + y.
Proof. intros. apply (lor_add x y 2); lia. Qed.
Lemma lor_64' x y : 0 <= y < 64 -> Z.lor (x * 64) y = x * 64 + y.
Proof. intros. apply (lor_add x y 6); lia. Qed.

(** The four numbers of a group. *)
Definition q1 (x : Z) := x / 4.
Definition q2 (x y : Z) := x mod 4 * 16 + y / 16.
Definition q3 (y z : Z) := y mod 16 * 4 + z / 64.
Definition q4 (z : Z) := z mod 64.

Lemma enc1 x : b64_sym (Z.shiftr (Z.land (code x) 255) 2) = b64_char (q1 (code x)).
Proof.
  pose proof (code_range x). rewrite land255, shiftr2, Z.mod_small by lia.
  apply b64_sym_char. unfold q1. lia.
Qed.
Lemma enc2 x y : b64_sym (Z.lor (Z.shiftl (Z.land (code x) 3) 4) (Z.shiftr (Z.land (code y) 240) 4))
                 = b64_char (q2 (code x) (code y)).
Proof.
  pose proof (code_range x). pose proof (code_range y).
  rewrite land3, shiftl4, land240, lor_16 by lia. apply b64_sym_char. unfold q2. lia.
Qed.
Lemma enc3 y z : b64_sym (Z.lor (Z.shiftl (Z.land (code y) 15) 2) (Z.shiftr (Z.land (code z) 192) 6))
                 = b64_char (q3 (code y) (code z)).
Proof.
  pose proof (code_range y). pose proof (code_range z).
  rewrite land15, shiftl2, land192, lor_4 by lia. apply b64_sym_char. unfold q3. lia.
Qed.
Lemma enc4 z : b64_sym (Z.land (code z) 63) = b64_char (q4 (code z)).
Proof. rewrite land63. apply b64_sym_char. unfold q4. lia. Qed.
Lemma enc2' x : b64_sym (Z.shiftl (Z.land (code x) 3) 4) = b64_char (q2 (code x) 0).
Proof. rewrite land3, shiftl4. unfold q2. rewrite Z.add_0_r. apply b64_sym_char. lia. Qed.
Lemma enc3' y : b64_sym (Z.shiftl (Z.land (code y) 15) 2) = b64_char (q3 (code y) 0).
Proof. rewrite land15, shiftl2. unfold q3. rewrite Z.add_0_r. apply b64_sym_char. lia. Qed.

Lemma list3_ind {A} (P : list A -> Prop) :
  P [] -> (forall x, P [x]) -> (forall x y, P [x; y]) ->
  (forall x y z r, P r -> P (x :: y :: z :: r)) -> forall l, P l.
Proof.
  intros H0 H1 H2 H3. fix IH 1. intros [|x [|y [|z r]]]; [exact H0|apply H1|apply H2|].
  apply H3, IH.
Qed.

Lemma sextets3 x y z r : sextets (bits8 x ++ bits8 y ++ bits8 z ++ r) =
  q1 (code x) :: q2 (code x) (code y) :: q3 (code y) (code z) :: q4 (code z) :: sextets r.
Proof.
  destruct x as [x0 x1 x2 x3 x4 x5 x6 x7], y as [y0 y1 y2 y3 y4 y5 y6 y7], z as [z0 z1 z2 z3 z4 z5 z6 z7].
  cbn [bits8 app sextets]. rewrite !bits_val6, !code_bits. unfold q1, q2, q3, q4.
  repeat match goal with |- context [Z.b2z ?v] =>
    lazymatch goal with h : 0 <= Z.b2z v <= 1 |- _ => fail | _ => idtac end;
    pose proof (b2z_range v); generalize dependent (Z.b2z v); intros end.
  repeat (apply f_equal2; [lia|]). reflexivity.
Qed.

Lemma sextets2 x y : sextets (bits8 x ++ bits8 y) =
  [q1 (code x); q2 (code x) (code y); q3 (code y) 0].
Proof.
  destruct x as [x0 x1 x2 x3 x4 x5 x6 x7], y as [y0 y1 y2 y3 y4 y5 y6 y7].
  cbn [bits8 app sextets firstn repeat]. rewrite !bits_val6, !code_bits. unfold q1, q2, q3, q4.
  cbn [Z.b2z].
  repeat match goal with |- context [Z.b2z ?v] =>
    pose proof (b2z_range v); generalize dependent (Z.b2z v); intros end.
  repeat (apply f_equal2; [lia|]). reflexivity.
Qed.

Lemma sextets1 x : sextets (bits8 x) = [q1 (code x); q2 (code x) 0].
Proof.
  destruct x as [x0 x1 x2 x3 x4 x5 x6 x7].
  cbn [bits8 app sextets firstn repeat]. rewrite !bits_val6, !code_bits. unfold q1, q2, q3, q4.
  cbn [Z.b2z].
  repeat match goal with |- context [Z.b2z ?v] =>
    pose proof (b2z_range v); generalize dependent (Z.b2z v); intros end.
  repeat (apply f_equal2; [lia|]). reflexivity.
Qed.

Lemma b64_encode_rfc v : b64_encode v = rfc4648 v.
Proof.
  unfold rfc4648. induction v as [|x|x y|x y z r IH] using list3_ind.
  - reflexivity.
  - cbn [flat_map]. rewrite app_nil_r, sextets1. cbn [b64_encode]. rewrite enc1, enc2'. reflexivity.
  - cbn [flat_map]. rewrite app_nil_r, sextets2. cbn [b64_encode]. rewrite enc1, enc2, enc3'. reflexivity.
  - cbn [flat_map]. rewrite sextets3. cbn [b64_encode map]. rewrite enc1, enc2, enc3, enc4, IH.
    cbn [length app]. do 4 f_equal.
    set (l := map b64_char (sextets (flat_map bits8 r))).
    do 2 f_equal. change (S (S (S (S (length l))))) with (4 + length l)%nat.
    replace (4 + length l)%nat with (length l + 1 * 4)%nat by lia.
    now rewrite Nat.mod_add by lia.
Qed.

Lemma dec_group x y z : b64_group (q1 (code x)) (q2 (code x) (code y)) (q3 (code y) (code z)) (q4 (code z))
  = [x; y; z].
Proof.
  pose proof (code_range x). pose proof (code_range y). pose proof (code_range z).
  assert (R1 : 0 <= q1 (code x) < 64) by (unfold q1; lia).
  assert (R2 : 0 <= q2 (code x) (code y) < 64) by (unfold q2; lia).
  assert (R3 : 0 <= q3 (code y) (code z) < 64) by (unfold q3; lia).
  assert (R4 : 0 <= q4 (code z) < 64) by (unfold q4; lia).
  unfold b64_group. destruct (Z.eqb_spec (q3 (code y) (code z)) 64); [lia|].
  destruct (Z.eqb_spec (q4 (code z)) 64); [lia|].
  rewrite land48, land60 by assumption.
  rewrite land255, land15, land3, shiftl2, shiftl4, shiftl6.
  rewrite lor_4, lor_16, lor_64' by lia. unfold q1, q2, q3, q4 in *.
  f_equal; [|f_equal; [|f_equal]]; apply code_inj; rewrite code_chr; lia.
Qed.

Lemma dec_group2 x y : b64_group (q1 (code x)) (q2 (code x) (code y)) (q3 (code y) 0) 64 = [x; y].
Proof.
  pose proof (code_range x). pose proof (code_range y).
  assert (R1 : 0 <= q1 (code x) < 64) by (unfold q1; lia).
  assert (R2 : 0 <= q2 (code x) (code y) < 64) by (unfold q2; lia).
  assert (R3 : 0 <= q3 (code y) 0 < 64) by (unfold q3; lia).
  unfold b64_group. destruct (Z.eqb_spec (q3 (code y) 0) 64); [lia|].
  rewrite Z.eqb_refl. rewrite land48, land60 by assumption.
  rewrite land255, land15, shiftl2, shiftl4.
  rewrite lor_4, lor_16 by lia. unfold q1, q2, q3, q4 in *.
  f_equal; [|f_equal]; apply code_inj; rewrite code_chr; lia.
Qed.

Lemma dec_group1 x : b64_group (q1 (code x)) (q2 (code x) 0) 64 64 = [x].
Proof.
  pose proof (code_range x).
  assert (R1 : 0 <= q1 (code x) < 64) by (unfold q1; lia).
  assert (R2 : 0 <= q2 (code x) 0 < 64) by (unfold q2; lia).
  unfold b64_group. rewrite !Z.eqb_refl. rewrite land48 by assumption.
  rewrite land255, shiftl2. rewrite lor_4 by lia. unfold q1, q2 in *.
  f_equal; apply code_inj; rewrite code_chr; lia.
Qed.

Lemma b64_decode_encode v : b64_decode (b64_encode v) = (v, false).
Proof.
  induction v as [|x|x y|x y z r IH] using list3_ind.
  - reflexivity.
  - cbn [b64_encode]. rewrite enc1, enc2'. cbn [b64_decode].
    pose proof (code_range x). rewrite !b64_int_char by (unfold q1, q2; lia).
    change (b64_int (schar (chr 61))) with 64. now rewrite dec_group1.
  - cbn [b64_encode]. rewrite enc1, enc2, enc3'. cbn [b64_decode].
    pose proof (code_range x). pose proof (code_range y).
    rewrite !b64_int_char by (unfold q1, q2, q3; lia).
    change (b64_int (schar (chr 61))) with 64. now rewrite dec_group2.
  - cbn [b64_encode app]. rewrite enc1, enc2, enc3, enc4. cbn [b64_decode].
    pose proof (code_range x). pose proof (code_range y). pose proof (code_range z).
    rewrite !b64_int_char by (unfold q1, q2, q3, q4; lia). rewrite IH. now rewrite dec_group.
Qed.

(** Characters of the encoded text. *)
Definition b64_text_char (c : ascii) : Prop := 43 <= code c <= 122 /\ code c <> 92 /\ code c <> 34.

Lemma b64_char_text i : 0 <= i < 64 -> b64_text_char (b64_char i).
Proof.
  intros R. unfold b64_text_char.
  pose proof (range_check (fun i => let c := code (b64_char i) in
    (43 <=? c) && (c <=? 122) && negb (c =? 92) && negb (c =? 34)) 64 eq_refl i ltac:(lia)) as H.
  cbn beta zeta in H. lia.
Qed.

Lemma b64_encode_text v : Forall b64_text_char (b64_encode v).
Proof.
  assert (EQ : b64_text_char (chr 61)) by (unfold b64_text_char; rewrite code_chr_small; lia).
  induction v as [|x|x y|x y z r IH] using list3_ind.
  - constructor.
  - pose proof (code_range x).
    cbn [b64_encode]. rewrite enc1, enc2'. repeat (apply Forall_cons; [first [exact EQ|apply b64_char_text; unfold q1, q2, q3; lia]|]).
    constructor.
  - pose proof (code_range x). pose proof (code_range y).
    cbn [b64_encode]. rewrite enc1, enc2, enc3'. repeat (apply Forall_cons; [first [exact EQ|apply b64_char_text; unfold q1, q2, q3; lia]|]).
    constructor.
  - pose proof (code_range x). pose proof (code_range y). pose proof (code_range z).
    cbn [b64_encode app]. rewrite enc1, enc2, enc3, enc4. 
    repeat (constructor; [apply b64_char_text; unfold q1, q2, q3, q4; lia|]). exact IH.
Qed.

Lemma b64_encode_length v : length (b64_encode v) = (4 * ((length v + 2) / 3))%nat.
Proof.
  induction v as [|x|x y|x y z r IH] using list3_ind; try reflexivity.
  cbn [b64_encode app length]. rewrite IH.
  replace (S (S (S (length r))) + 2)%nat with (length r + 2 + 1 * 3)%nat by lia.
  rewrite Nat.div_add by lia. lia.
Qed.
