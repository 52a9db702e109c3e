(** Floating point: exact rounding, "%f" text, round trip. *)
From Verif Require Import Bytes BaseProofs Num Dbl SpecJson SpecNum IntProofs SpecDbl.

Lemma pow2_pos x : 0 <= x -> 0 < 2 ^ x.
Proof. intros. apply Z.pow_pos_nonneg; lia. Qed.

(** ** Exact quotients *)
Lemma div_rne_exact q d : 0 < d -> div_rne (q * d) d = q.
Proof.
  intros D. unfold div_rne. rewrite Z.div_mul, Z.mod_mul by lia.
  destruct (Z.ltb_spec (2 * 0) d); [reflexivity|lia].
Qed.

Lemma div_rne_half n d : 0 < d -> 2 * Z.abs (div_rne n d * d - n) <= d.
Proof.
  intros D. unfold div_rne. pose proof (Z.div_mod n d). pose proof (Z.mod_pos_bound n d D).
  destruct (Z.ltb_spec (2 * (n mod d)) d); [nia|].
  destruct (Z.ltb_spec d (2 * (n mod d))); [nia|].
  destruct (Z.even (n / d)); nia.
Qed.

Lemma div_rne_tie n d : 0 < d -> 2 * Z.abs (div_rne n d * d - n) = d -> Z.even (div_rne n d) = true.
Proof.
  intros D. unfold div_rne. pose proof (Z.div_mod n d). pose proof (Z.mod_pos_bound n d D).
  destruct (Z.ltb_spec (2 * (n mod d)) d); [nia|].
  destruct (Z.ltb_spec d (2 * (n mod d))); [nia|].
  intros _. destruct (Z.even (n / d)) eqn:E; [exact E|]. rewrite Z.even_add, E. reflexivity.
Qed.

Lemma div_rne_nonneg n d : 0 < d -> 0 <= n -> 0 <= div_rne n d.
Proof.
  intros D N. unfold div_rne. pose proof (Z.div_pos n d N D).
  destruct (2 * (n mod d) <? d); [lia|]. destruct (d <? 2 * (n mod d)); [lia|].
  destruct (Z.even (n / d)); lia.
Qed.

Lemma squeeze_low m d v q P : 0 < d -> m < 2 * P -> P * d <= v -> 0 <= v -> 2 <= q -> m * d = v * q -> False.
Proof.
  intros D M L N Q E. assert (m * d < 2 * P * d) by (apply Z.mul_lt_mono_pos_r; lia).
  assert (v * 2 <= v * q) by (apply Z.mul_le_mono_nonneg_l; lia). lia.
Qed.

Lemma squeeze_high a d v q v2 P : 0 < d -> a * d = v -> v2 = v * q -> v2 < P * d -> 1 <= q -> 0 <= v -> a < P.
Proof.
  intros D A E L Q N. apply (Z.mul_lt_mono_pos_r d); [exact D|].
  assert (v * 1 <= v * q) by (apply Z.mul_le_mono_nonneg_l; lia). lia.
Qed.

Section Round.
  Variables (f : fmt) (num den e0 : Z).
  Let p := f_prec f.
  Hypothesis Hp : 1 <= p.
  Hypothesis Hnum : 0 < num.
  Hypothesis Hden : 0 < den.

  Let l := Z.log2 num - Z.log2 den.
  Let K := Z.abs l + Z.abs e0 + Z.abs (f_emin f) + p + 10.
  Let D := den * 2 ^ K.
  Let V x := num * 2 ^ (K - x).

  Lemma Kpos : 10 <= K. Proof. unfold K. lia. Qed.
  Lemma Dpos : 0 < D.
  Proof. unfold D. pose proof Kpos. pose proof (pow2_pos K). nia. Qed.

  Lemma Vscale x : - K <= x <= K -> scale_num num x * D = V x * scale_den den x.
  Proof.
    intros R. pose proof Kpos. unfold scale_num, scale_den, V, D.
    destruct (Z.le_gt_cases 0 x).
    - rewrite Z.max_l, (Z.max_r 0 x) by lia.
      replace (2 ^ K) with (2 ^ (K - x) * 2 ^ x) by (rewrite <- Z.pow_add_r by lia; f_equal; lia). ring.
    - rewrite Z.max_r, (Z.max_l 0 x) by lia.
      replace (2 ^ (K - x)) with (2 ^ K * 2 ^ (- x)) by (rewrite <- Z.pow_add_r by lia; f_equal; lia). ring.
  Qed.

  Lemma scale_den_pos x : 0 < scale_den den x.
  Proof. unfold scale_den. pose proof (pow2_pos (Z.max 0 x)). nia. Qed.

  Lemma Vshift x y : x <= y -> y <= K -> V x = V y * 2 ^ (y - x).
  Proof.
    intros. unfold V. rewrite <- Z.mul_assoc, <- Z.pow_add_r by lia. do 2 f_equal. lia.
  Qed.

  Lemma Vlow : D < V (l - 1).
  Proof.
    pose proof Kpos. unfold D, V. pose proof (Z.log2_spec num Hnum) as [A _].
    pose proof (Z.log2_spec den Hden) as [_ B]. pose proof (Z.log2_nonneg num). pose proof (Z.log2_nonneg den).
    assert (Q : 2 ^ (Z.log2 num) * 2 ^ (K - (l - 1)) = 2 ^ Z.succ (Z.log2 den) * 2 ^ K).
    { rewrite <- !Z.pow_add_r by (unfold K, l in *; lia). f_equal. unfold l. lia. }
    pose proof (pow2_pos K). pose proof (pow2_pos (K - (l - 1))).
    assert (0 < 2 ^ (K - (l - 1))) by (apply pow2_pos; unfold K; lia). nia.
  Qed.

  Lemma Vhigh : V (l + 1) < D.
  Proof.
    pose proof Kpos. unfold D, V. pose proof (Z.log2_spec num Hnum) as [_ A].
    pose proof (Z.log2_spec den Hden) as [B _]. pose proof (Z.log2_nonneg num). pose proof (Z.log2_nonneg den).
    assert (Q : 2 ^ Z.succ (Z.log2 num) * 2 ^ (K - (l + 1)) = 2 ^ (Z.log2 den) * 2 ^ K).
    { rewrite <- !Z.pow_add_r by (unfold K, l in *; lia). f_equal. unfold l. lia. }
    pose proof (pow2_pos K).
    assert (0 < 2 ^ (K - (l + 1))) by (apply pow2_pos; unfold K; lia). nia.
  Qed.

  Let e1 := l - (p - 1).
  Let e2 := if scale_num num e1 / scale_den den e1 <? 2 ^ (p - 1) then e1 - 1 else e1.

  Lemma e2_range : 2 ^ (p - 1) * D <= V e2 < 2 ^ p * D /\ - K <= e2 <= K.
  Proof.
    pose proof Kpos. assert (Re : - K <= e1 - 1 /\ e1 <= K) by (unfold e1, K; lia).
    pose proof (Vscale e1) as S. pose proof (scale_den_pos e1) as SP. pose proof Dpos as DP.
    pose proof Vlow as VL. pose proof Vhigh as VH.
    assert (P : 2 ^ p = 2 * 2 ^ (p - 1)) by (rewrite <- Z.pow_succ_r by lia; f_equal; lia).
    assert (T : (scale_num num e1 / scale_den den e1 <? 2 ^ (p - 1)) = (V e1 <? 2 ^ (p - 1) * D)).
    { specialize (S ltac:(lia)).
      destruct (Z.ltb_spec (V e1) (2 ^ (p - 1) * D)) as [L|L].
      - apply Z.ltb_lt. apply Z.div_lt_upper_bound; [lia|].
        assert (scale_num num e1 * D < scale_den den e1 * 2 ^ (p - 1) * D) by nia. nia.
      - apply Z.ltb_ge. apply Z.div_le_lower_bound; [lia|].
        assert (scale_den den e1 * 2 ^ (p - 1) * D <= scale_num num e1 * D) by nia. nia. }
    unfold e2. rewrite T. destruct (Z.ltb_spec (V e1) (2 ^ (p - 1) * D)) as [L|L]; (split; [|lia]).
    - assert (V (e1 - 1) = 2 * V e1) as E.
      { rewrite (Vshift (e1 - 1) e1) by lia. replace (e1 - (e1 - 1)) with 1 by lia. lia. }
      assert (V (e1 - 1) = V (l - 1) * 2 ^ (p - 1)) as E'.
      { rewrite (Vshift (e1 - 1) (l - 1)) by (unfold e1, K in *; lia). do 2 f_equal. unfold e1. lia. }
      pose proof (pow2_pos (p - 1)). nia.
    - assert (V e1 = V (l + 1) * 2 ^ p) as E'.
      { rewrite (Vshift e1 (l + 1)) by (unfold e1, K in *; lia). do 2 f_equal. unfold e1. lia. }
      pose proof (pow2_pos p). nia.
  Qed.

  (** The result of rounding is a value of the format. *)
  Lemma round_to_low : 2 ^ (p - 1) * scale_den den e2 <= scale_num num e2.
  Proof.
    pose proof e2_range as [[VL _] R2]. pose proof (Vscale e2 R2) as E. pose proof Dpos as DP.
    pose proof (scale_den_pos e2) as SP. apply (Z.mul_le_mono_pos_r _ _ D); [exact DP|]. rewrite E.
    replace (2 ^ (p - 1) * scale_den den e2 * D) with (2 ^ (p - 1) * D * scale_den den e2) by ring.
    apply Z.mul_le_mono_nonneg_r; [lia|exact VL].
  Qed.

  Lemma div_rne_ge n d q : 0 < d -> q * d <= n -> q <= div_rne n d.
  Proof.
    intros P L. assert (q <= n / d) by (apply Z.div_le_lower_bound; lia). unfold div_rne.
    destruct (2 * (n mod d) <? d); [lia|]. destruct (d <? 2 * (n mod d)); [lia|].
    destruct (Z.even (n / d)); lia.
  Qed.

  Lemma round_to_high : scale_num num (Z.max (f_emin f) e2) < 2 ^ p * scale_den den (Z.max (f_emin f) e2).
  Proof.
    set (e := Z.max (f_emin f) e2).
    pose proof e2_range as [[_ VH] R2]. assert (Re : - K <= e <= K) by (unfold e, K in *; lia).
    pose proof (Vscale e Re) as E. pose proof Dpos as DP. pose proof (scale_den_pos e) as SP.
    assert (VE : V e < 2 ^ p * D).
    { pose proof (Vshift e2 e ltac:(unfold e; lia) ltac:(lia)) as E'.
      assert (1 <= 2 ^ (e - e2)) by (pose proof (pow2_pos (e - e2)); unfold e in *; lia).
      assert (0 <= V e) by (unfold V; apply Z.mul_nonneg_nonneg; [lia|apply Z.pow_nonneg; lia]).
      assert (V e * 1 <= V e * 2 ^ (e - e2)) by (apply Z.mul_le_mono_nonneg_l; lia). lia. }
    apply (Z.mul_lt_mono_pos_r D); [exact DP|]. rewrite E.
    replace (2 ^ p * scale_den den e * D) with (2 ^ p * D * scale_den den e) by ring.
    apply Z.mul_lt_mono_pos_r; assumption.
  Qed.

  (** The choice of exponent and mantissa. *)
  Lemma round_to_steps s : exists e q, f_emin f <= e /\ q = div_rne (scale_num num e) (scale_den den e) /\
    scale_num num e < 2 ^ p * scale_den den e /\
    (f_emin f < e -> 2 ^ (p - 1) * scale_den den e <= scale_num num e) /\
    round_to f s num den =
      (if q <=? 0 then DZero s
       else if 2 ^ p <=? q then
         (if f_emax f <? e + 1 then DInf s else DFin s (Z.to_pos (2 ^ (p - 1))) (e + 1))
       else if f_emax f <? e then DInf s else DFin s (Z.to_pos q) e).
  Proof.
    exists (Z.max (f_emin f) e2), (div_rne (scale_num num (Z.max (f_emin f) e2)) (scale_den den (Z.max (f_emin f) e2))).
    split; [lia|]. split; [reflexivity|]. split; [apply round_to_high|]. split.
    - intros L. rewrite Z.max_r by lia. apply round_to_low.
    - unfold round_to. destruct (Z.leb_spec num 0); [lia|]. reflexivity.
  Qed.

  Lemma round_to_fin_valid s : dbl_valid f (round_to f s num den) = true.
  Proof.
    unfold round_to. destruct (Z.leb_spec num 0); [lia|].
    set (e := Z.max (f_emin f) e2).
    change (dbl_valid f (let q := div_rne (scale_num num e) (scale_den den e) in
            (if q <=? 0 then DZero s
             else if 2 ^ p <=? q then
               (if f_emax f <? e + 1 then DInf s else DFin s (Z.to_pos (2 ^ (p - 1))) (e + 1))
             else if f_emax f <? e then DInf s else DFin s (Z.to_pos q) e)) = true).
    cbv zeta. set (q := div_rne (scale_num num e) (scale_den den e)).
    destruct (Z.leb_spec q 0); [reflexivity|].
    pose proof (pow2_pos (p - 1)) as PP.
    assert (P2 : 2 ^ p = 2 * 2 ^ (p - 1)) by (rewrite <- Z.pow_succ_r by lia; f_equal; lia).
    destruct (Z.leb_spec (2 ^ p) q).
    - destruct (Z.ltb_spec (f_emax f) (e + 1)); [reflexivity|]. cbn [dbl_valid].
      fold p. rewrite Z2Pos.id by lia. rewrite !andb_true_iff, orb_true_iff, Z.ltb_lt, !Z.leb_le.
      assert (f_emin f <= e) by (unfold e; lia). lia.
    - destruct (Z.ltb_spec (f_emax f) e); [reflexivity|]. cbn [dbl_valid]. fold p.
      rewrite Z2Pos.id by lia. rewrite !andb_true_iff, orb_true_iff, Z.ltb_lt, !Z.leb_le, Z.eqb_eq.
      assert (f_emin f <= e) by (unfold e; lia). repeat split; try lia.
      destruct (Z.le_gt_cases e2 (f_emin f)); [right; unfold e; lia|left].
      assert (Ee : e = e2) by (unfold e; lia). unfold q. rewrite Ee.
      apply div_rne_ge; [apply scale_den_pos|apply round_to_low].
  Qed.

  Variable m : Z.
  Hypothesis Hm : 0 < m < 2 ^ p.
  Hypothesis He0 : f_emin f <= e0 <= f_emax f.
  Hypothesis Hexact : scale_num num e0 = m * scale_den den e0.

  Lemma Vexact : V e0 = m * D.
  Proof.
    pose proof (Vscale e0) as H. rewrite Hexact in H. pose proof (scale_den_pos e0). unfold K in H.
    assert (m * scale_den den e0 * D = V e0 * scale_den den e0) as E by (apply H; lia).
    nia.
  Qed.

  Lemma round_to_exact s : exists e, f_emin f <= e <= e0 /\
    round_to f s num den = DFin s (Z.to_pos (m * 2 ^ (e0 - e))) e /\
    m * 2 ^ (e0 - e) < 2 ^ p /\ (2 ^ (p - 1) <= m * 2 ^ (e0 - e) \/ e = f_emin f).
  Proof.
    set (e := Z.max (f_emin f) e2). pose proof e2_range as [[VL VH] R2]. pose proof Dpos as DP.
    pose proof Kpos.
    assert (P : 2 ^ p = 2 * 2 ^ (p - 1)) by (rewrite <- Z.pow_succ_r by lia; f_equal; lia).
    assert (Le : e <= e0).
    { unfold e. destruct (Z.le_gt_cases e2 e0); [lia|]. exfalso.
      pose proof (Vshift e0 e2 ltac:(lia) ltac:(lia)) as E. rewrite Vexact in E.
      assert (2 <= 2 ^ (e2 - e0)).
      { change 2 with (2 ^ 1) at 1. apply Z.pow_le_mono_r; lia. }
      apply (squeeze_low m D (V e2) (2 ^ (e2 - e0)) (2 ^ (p - 1))); auto; [lia|].
      pose proof (pow2_pos (p - 1)). assert (0 < 2 ^ (p - 1) * D) by (apply Z.mul_pos_pos; lia). lia. }
    assert (Re : - K <= e <= K) by (unfold e, K in *; lia).
    assert (Q : scale_num num e = m * 2 ^ (e0 - e) * scale_den den e).
    { pose proof (Vscale e Re) as E. rewrite (Vshift e e0) in E by (unfold K; lia). rewrite Vexact in E.
      pose proof (scale_den_pos e). apply (Z.mul_cancel_r _ _ D); [lia|]. rewrite E. ring. }
    assert (Hq : m * 2 ^ (e0 - e) < 2 ^ p).
    { assert (m * 2 ^ (e0 - e) * D = V e) as E.
      { rewrite (Vshift e e0) by (unfold K; lia). rewrite Vexact. ring. }
      pose proof (Vshift e2 e ltac:(unfold e; lia) ltac:(lia)) as E'.
      assert (1 <= 2 ^ (e - e2)) by (pose proof (pow2_pos (e - e2)); unfold e in *; lia).
      assert (0 <= V e).
      { unfold V. apply Z.mul_nonneg_nonneg; [lia|]. apply Z.pow_nonneg. lia. }
      now apply (squeeze_high _ D (V e) (2 ^ (e - e2)) (V e2)). }
    assert (Hq0 : 0 < m * 2 ^ (e0 - e)) by (apply Z.mul_pos_pos; [lia|apply pow2_pos; lia]).
    exists e. split; [unfold e; lia|]. split; [|split; [exact Hq|]].
    - unfold round_to. destruct (Z.leb_spec num 0); [lia|].
      change (let q := div_rne (scale_num num e) (scale_den den e) in
              (if q <=? 0 then DZero s
               else if 2 ^ p <=? q then
                 (if f_emax f <? e + 1 then DInf s else DFin s (Z.to_pos (2 ^ (p - 1))) (e + 1))
               else if f_emax f <? e then DInf s else DFin s (Z.to_pos q) e)
              = DFin s (Z.to_pos (m * 2 ^ (e0 - e))) e).
      rewrite Q, div_rne_exact by apply scale_den_pos. cbv zeta.
      destruct (Z.leb_spec (m * 2 ^ (e0 - e)) 0); [lia|].
      destruct (Z.leb_spec (2 ^ p) (m * 2 ^ (e0 - e))); [lia|].
      destruct (Z.ltb_spec (f_emax f) e); [lia|]. reflexivity.
    - destruct (Z.le_gt_cases e2 (f_emin f)); [right; unfold e; lia|].
      left. assert (e = e2) as -> by (unfold e; lia).
      assert (m * 2 ^ (e0 - e2) * D = V e2) as E.
      { rewrite (Vshift e2 e0) by (unfold K; lia). rewrite Vexact. ring. }
      rewrite <- E in VL. apply (Z.mul_le_mono_pos_r _ _ D); assumption.
  Qed.
End Round.

Lemma round_to_valid f s num den : 1 <= f_prec f -> 0 < den -> dbl_valid f (round_to f s num den) = true.
Proof.
  intros P D. destruct (Z.le_gt_cases num 0) as [L|L].
  - unfold round_to. destruct (Z.leb_spec num 0); [reflexivity|lia].
  - now apply (round_to_fin_valid f num den 0).
Qed.

Lemma strtod_valid text : dbl_valid binary64 (strtod text) = true.
Proof.
  unfold strtod. destruct (strtod_split text) as [[neg ds] ex].
  destruct (Z.leb_spec 0 ex); apply round_to_valid; simpl f_prec; try lia.
Qed.

Lemma to_float_valid d : dbl_valid binary32 (to_float d) = true.
Proof.
  destruct d; try reflexivity. apply round_to_valid; simpl f_prec; [lia|]. unfold scale_den.
  apply Z.mul_pos_pos; [lia|]. apply pow2_pos. lia.
Qed.

(** Canonical values are fixed points of rounding. *)
Lemma round_to_canonical f s num den m e : 1 <= f_prec f -> 0 < num -> 0 < den ->
  dbl_valid f (DFin s m e) = true ->
  scale_num num e = Zpos m * scale_den den e -> round_to f s num den = DFin s m e.
Proof.
  intros P N D V E. cbn [dbl_valid] in V. rewrite !andb_true_iff, orb_true_iff, Z.ltb_lt, !Z.leb_le, Z.eqb_eq in V.
  destruct V as (((V1 & V2) & V3) & V4).
  destruct (round_to_exact f num den e P N D (Zpos m)) with (s := s) as (e' & R & -> & Q & C); auto; [lia|].
  assert (e' = e) as ->.
  { destruct (Z.eq_dec e' e); [assumption|]. exfalso.
    assert (2 <= 2 ^ (e - e')) by (change 2 with (2 ^ 1) at 1; apply Z.pow_le_mono_r; lia).
    assert (2 ^ f_prec f = 2 * 2 ^ (f_prec f - 1)) by (rewrite <- Z.pow_succ_r by lia; f_equal; lia).
    destruct V4; [nia|lia]. }
  f_equal. rewrite Z.sub_diag, Z.mul_1_r. reflexivity.
Qed.

(** ** The text of "%f" *)
Lemma dval_from_lower ds : forall a, forallb is_digit ds = true ->
  a * 10 ^ Z.of_nat (length ds) <= dval_from a ds.
Proof.
  induction ds as [|c ds IH]; intros a H; [cbn [length dval_from fold_left]; change (10 ^ Z.of_nat 0) with 1; lia|].
  cbn [forallb] in H. apply andb_prop in H as [C H]. unfold is_digit in C.
  rewrite andb_true_iff, !Z.leb_le in C.
  cbn [length]. rewrite Nat2Z.inj_succ, Z.pow_succ_r by lia.
  specialize (IH (10 * a + (code c - 48)) H). unfold dval_from in *. cbn [fold_left].
  assert (0 < 10 ^ Z.of_nat (length ds)) by (apply Z.pow_pos_nonneg; lia). nia.
Qed.

Lemma dec_nat_length n k : 0 <= n < 10 ^ k -> 1 <= k -> Z.of_nat (length (dec_nat n)) <= k.
Proof.
  intros R K. destruct (dec_nat_spec n) as (V & DS & [E|(d & r & E & Rd)]); [lia| |].
  - rewrite E. cbn [length]. lia.
  - rewrite E in *. cbn [forallb] in DS. apply andb_prop in DS as [_ DS].
    assert (L : d * 10 ^ Z.of_nat (length r) <= n).
    { rewrite <- V. unfold digits_val. cbn [fold_left]. rewrite code_digit by lia.
      replace (10 * 0 + (48 + d - 48)) with d by lia. now apply dval_from_lower. }
    cbn [length]. rewrite Nat2Z.inj_succ.
    assert (10 ^ Z.of_nat (length r) < 10 ^ k).
    { assert (0 < 10 ^ Z.of_nat (length r)) by (apply Z.pow_pos_nonneg; lia). nia. }
    apply Z.pow_lt_mono_r_iff in H; lia.
Qed.

Lemma pad6_digits n : forallb is_digit (pad6 n) = true.
Proof. unfold pad6. cbn [forallb]. rewrite !is_digit_digit by lia. reflexivity. Qed.

Lemma pad6_val a n : 0 <= n < 1000000 -> dval_from a (pad6 n) = a * 1000000 + n.
Proof.
  intros R. unfold pad6, dval_from. cbn [fold_left]. rewrite !code_digit by lia.
  assert (n = 100000 * (n / 100000 mod 10) + 10000 * (n / 10000 mod 10) + 1000 * (n / 1000 mod 10)
     + 100 * (n / 100 mod 10) + 10 * (n / 10 mod 10) + n mod 10) by lia.
  lia.
Qed.

Lemma fixed6_split n : 0 <= n ->
  exists ip fp, fixed6 n = ip ++ "."%char :: fp /\ int_part ip /\ forallb is_digit ip = true /\ ip <> [] /\
    forallb is_digit fp = true /\ length fp = 6%nat /\ digits_val (ip ++ fp) = n /\ ip = dec_nat (n / 1000000).
Proof.
  intros N. exists (dec_nat (n / 1000000)), (pad6 (n mod 1000000)).
  destruct (dec_nat_spec (n / 1000000)) as (V & DS & _); [lia|].
  split; [reflexivity|]. split; [apply dec_nat_int_part; lia|]. split; [exact DS|].
  split; [apply dec_nat_nonempty; lia|]. split; [apply pad6_digits|]. split; [reflexivity|]. split; [|reflexivity].
  unfold digits_val. rewrite fold_left_app. fold (digits_val (dec_nat (n / 1000000))). rewrite V.
  change (dval_from (n / 1000000) (pad6 (n mod 1000000)) = n). rewrite pad6_val by lia. lia.
Qed.

Lemma millionths_nonneg m e : 0 <= millionths m e.
Proof.
  unfold millionths. apply div_rne_nonneg.
  - unfold scale_den. pose proof (pow2_pos (Z.max 0 (- e))). lia.
  - unfold scale_num. pose proof (pow2_pos (Z.max 0 (- - e))). lia.
Qed.

(** Bound on the magnitude: value below 2^1024. *)
Lemma millionths_bound m e B : 0 <= B -> Zpos m * 2 ^ Z.max 0 e < 2 ^ B * 2 ^ Z.max 0 (- e) ->
  millionths m e <= 2 ^ B * 1000000.
Proof.
  intros HB H. unfold millionths.
  set (n := scale_num (Zpos m * 1000000) (- e)). set (d := scale_den 1 (- e)).
  assert (D : 0 < d) by (unfold d, scale_den; pose proof (pow2_pos (Z.max 0 (- e))); lia).
  assert (Hn : n < 2 ^ B * 1000000 * d).
  { unfold n, d, scale_num, scale_den. rewrite Z.opp_involutive. nia. }
  clearbody n d. clear H. pose proof (div_rne_half n d D) as Hh.
  destruct (Z.le_gt_cases (div_rne n d) (2 ^ B * 1000000)); [assumption|]. exfalso.
  assert (2 ^ B * 1000000 * d + d <= div_rne n d * d) by nia. lia.
Qed.

Lemma valid_bound f s m e : f_emin f <= 0 -> 0 <= f_prec f + f_emax f -> 0 <= f_prec f ->
  dbl_valid f (DFin s m e) = true ->
  Zpos m * 2 ^ Z.max 0 e < 2 ^ (f_prec f + f_emax f) * 2 ^ Z.max 0 (- e).
Proof.
  intros E0 EP P V. cbn [dbl_valid] in V. rewrite !andb_true_iff, Z.ltb_lt, !Z.leb_le in V.
  destruct V as (((V1 & V2) & V3) & _).
  rewrite <- Z.pow_add_r by lia.
  assert (Zpos m * 2 ^ Z.max 0 e < 2 ^ (f_prec f + Z.max 0 e)).
  { rewrite Z.pow_add_r by lia. apply Z.mul_lt_mono_pos_r; [apply pow2_pos; lia|lia]. }
  eapply Z.lt_le_trans; [eassumption|]. apply Z.pow_le_mono_r; lia.
Qed.

Lemma pow_1024 : 2 ^ 1024 * 1000000 < 10 ^ 309 * 1000000.
Proof. vm_compute. reflexivity. Qed.

Definition fin_ok (d : dbl) : bool :=
  match d with DZero _ => true | DFin _ _ _ => dbl_valid binary64 d || dbl_valid binary32 d | _ => false end.

Lemma fin_bound s m e : fin_ok (DFin s m e) = true -> millionths m e <= 2 ^ 1024 * 1000000.
Proof.
  intros V. apply millionths_bound; [lia|]. cbn [fin_ok] in V. apply orb_prop in V as [V|V].
  - apply (valid_bound binary64 s m e); try (simpl; lia). exact V.
  - eapply Z.lt_le_trans; [apply (valid_bound binary32 s m e); try (simpl; lia); exact V|].
    apply Z.mul_le_mono_nonneg_r; [pose proof (pow2_pos (Z.max 0 (- e))); lia|].
    apply Z.pow_le_mono_r; simpl; lia.
Qed.

Lemma fmt_f_length d : fin_ok d = true -> (length (fmt_f d) <= 317)%nat.
Proof.
  destruct d as [s|s|s|s m e]; intros V; try discriminate.
  - destruct s; vm_compute; repeat constructor.
  - cbn [fmt_f]. rewrite app_length.
    assert (length (sign_text s) <= 1)%nat by (destruct s; simpl; lia).
    pose proof (fin_bound s m e V) as B. pose proof (millionths_nonneg m e) as N.
    unfold fixed6. rewrite app_length. cbn [length pad6].
    assert (L : Z.of_nat (length (dec_nat (millionths m e / 1000000))) <= 309).
    { apply dec_nat_length; [|lia]. pose proof pow_1024 as P.
      split; [lia|]. apply Z.div_lt_upper_bound; [lia|]. lia. }
    unfold pad6. cbn [length]. lia.
Qed.

Lemma dbl_to_string_full d : fin_ok d = true -> dbl_to_string d = fmt_f d.
Proof. intros V. apply firstn_all2. pose proof (fmt_f_length d V). lia. Qed.

(** Shape of the text of a finite value. *)
Definition dbl_neg (d : dbl) : bool :=
  match d with DZero s | DInf s | DNan s | DFin s _ _ => s end.
Definition dbl_mill (d : dbl) : Z := match d with DFin _ m e => millionths m e | _ => 0 end.

Lemma fmt_f_split d : fin_ok d = true ->
  exists ip fp, fmt_f d = sign_text (dbl_neg d) ++ ip ++ "."%char :: fp /\ int_part ip /\
    forallb is_digit ip = true /\ ip <> [] /\
    forallb is_digit fp = true /\ length fp = 6%nat /\ digits_val (ip ++ fp) = dbl_mill d.
Proof.
  destruct d as [s|s|s|s m e]; intros V; try discriminate; cbn [dbl_neg dbl_mill fmt_f].
  - exists (b "0"), (b "000000"). split; [reflexivity|]. split; [now left|]. repeat split; discriminate.
  - destruct (fixed6_split (millionths m e) (millionths_nonneg m e)) as (ip & fp & -> & A & B & C & D & E & F & _).
    exists ip, fp. auto 10.
Qed.

Lemma fmt_f_json d : fin_ok d = true -> json_number (fmt_f d).
Proof.
  intros V. destruct (fmt_f_split d V) as (ip & fp & -> & A & _ & _ & D & E & _).
  exists (sign_text (dbl_neg d)), ip, ("."%char :: fp), []. rewrite app_nil_r. split; [reflexivity|].
  split; [destruct (dbl_neg d); auto|]. split; [exact A|]. split; [|now left].
  right. exists fp. split; [reflexivity|]. split; [intros ->; discriminate|exact D].
Qed.

(** ** Reading the text back *)
Lemma strtod_split_fixed neg ip fp : forallb is_digit ip = true -> ip <> [] -> forallb is_digit fp = true ->
  strtod_split (sign_text neg ++ ip ++ "."%char :: fp) = (neg, ip ++ fp, - Z.of_nat (length fp)).
Proof.
  intros I N F. unfold strtod_split.
  assert (NN : no_nul (sign_text neg ++ ip ++ "."%char :: fp)).
  { apply no_nul_app; [destruct neg; [apply no_nul_cons; [discriminate|]|]; intros []|].
    apply no_nul_app; [now apply digits_no_nul|]. apply no_nul_cons; [discriminate|now apply digits_no_nul]. }
  rewrite cstr_id by exact NN.
  assert (S : span is_space (sign_text neg ++ ip ++ "."%char :: fp) = ([], sign_text neg ++ ip ++ "."%char :: fp)).
  { destruct neg; [reflexivity|]. destruct ip as [|c ip]; [contradiction|]. cbn [forallb] in I.
    apply andb_prop in I as [C _]. destruct (digit_facts c C) as (Sp & _). cbn [sign_text app span]. now rewrite Sp. }
  rewrite S. cbn [snd].
  assert (T : (match sign_text neg ++ ip ++ "."%char :: fp with
     | c :: r => if Ascii.eqb c "-" then (true, r)
                else if Ascii.eqb c "+" then (false, r) else (false, sign_text neg ++ ip ++ "."%char :: fp)
     | [] => (false, sign_text neg ++ ip ++ "."%char :: fp) end) = (neg, ip ++ "."%char :: fp)).
  { destruct neg; [reflexivity|]. destruct ip as [|c ip]; [contradiction|]. cbn [forallb] in I.
    apply andb_prop in I as [C _]. destruct (digit_facts c C) as (_ & M & P & _). cbn [sign_text app].
    now rewrite M, P. }
  rewrite T. rewrite (span_is_digit ip ("."%char :: fp)) by (auto; reflexivity).
  change (Ascii.eqb "." ".") with true. cbv iota.
  replace fp with (fp ++ []) at 1 by apply app_nil_r. rewrite (span_is_digit fp []) by (auto; exact Logic.I).
  destruct (ip ++ fp) eqn:E; [destruct ip; [contradiction|discriminate]|]. rewrite <- E. reflexivity.
Qed.

Lemma millionths_exact m e : (0 <= e \/ (2 ^ (- e) | Zpos m * 1000000)) ->
  scale_num (millionths m e) e = Zpos m * scale_den 1000000 e /\ 0 < millionths m e.
Proof.
  intros H. unfold millionths, scale_num, scale_den. rewrite Z.opp_involutive.
  destruct (Z.le_gt_cases 0 e) as [P|P].
  - rewrite (Z.max_l 0 (- e)), (Z.max_r 0 e) by lia. change (2 ^ 0) with 1. rewrite !Z.mul_1_l, Z.mul_1_r.
    replace (Zpos m * 1000000 * 2 ^ e) with (Zpos m * 1000000 * 2 ^ e * 1) at 1 2 by ring.
    rewrite div_rne_exact by lia. pose proof (pow2_pos e). split; [ring|nia].
  - rewrite (Z.max_r 0 (- e)), (Z.max_l 0 e) by lia. change (2 ^ 0) with 1. rewrite Z.mul_1_l, !Z.mul_1_r.
    destruct H as [H|(q & H)]; [lia|]. rewrite H. pose proof (pow2_pos (- e)).
    rewrite div_rne_exact by lia. split; [reflexivity|nia].
Qed.

Lemma strtod_fmt d : fin_ok d = true ->
  strtod (fmt_f d) = round_to binary64 (dbl_neg d) (dbl_mill d) 1000000.
Proof.
  intros V. destruct (fmt_f_split d V) as (ip & fp & -> & _ & A & B & C & D & E).
  unfold strtod. rewrite strtod_split_fixed by assumption. rewrite D, E. reflexivity.
Qed.

Lemma double_round_trip d : dbl_valid binary64 d = true -> six d -> strtod (dbl_to_string d) = d.
Proof.
  intros V S. assert (F : fin_ok d = true) by (destruct d; try contradiction; [reflexivity|]; cbn [fin_ok]; rewrite V; reflexivity).
  rewrite dbl_to_string_full, strtod_fmt by exact F.
  destruct d as [s|s|s|s m e]; try contradiction; [reflexivity|]. cbn [dbl_neg dbl_mill].
  destruct (millionths_exact m e S) as [E P].
  apply round_to_canonical; auto; simpl; lia.
Qed.

Lemma float_round_trip d : dbl_valid binary32 d = true -> six d -> to_float (strtod (dbl_to_string d)) = d.
Proof.
  intros V S. assert (F : fin_ok d = true) by (destruct d; try contradiction; [reflexivity|]; cbn [fin_ok]; rewrite V, orb_true_r; reflexivity).
  rewrite dbl_to_string_full, strtod_fmt by exact F.
  destruct d as [s|s|s|s m e]; try contradiction; [reflexivity|]. cbn [dbl_neg dbl_mill].
  destruct (millionths_exact m e S) as [E P].
  assert (V' := V). cbn [dbl_valid] in V'. rewrite !andb_true_iff, Z.ltb_lt, !Z.leb_le in V'.
  destruct V' as (((V1 & V2) & V3) & _). cbn [binary32 f_prec f_emin f_emax] in *.
  assert (MB : 0 < Zpos m < 2 ^ f_prec binary64).
  { split; [lia|]. eapply Z.lt_le_trans; [exact V1|]. apply Z.pow_le_mono_r; simpl; lia. }
  destruct (round_to_exact binary64 (millionths m e) 1000000 e) with (m := Zpos m) (s := s) as (e' & R & -> & Q & _);
    try (simpl; lia); try exact E; try exact MB.
  cbn [to_float]. cbn [binary64 f_prec f_emin f_emax] in R.
  assert (0 < 2 ^ (e - e')) by (apply pow2_pos; lia).
  rewrite Z2Pos.id by nia.
  apply round_to_canonical; auto; try (simpl; lia).
  - unfold scale_num. pose proof (pow2_pos (Z.max 0 (- - e'))). nia.
  - unfold scale_den. pose proof (pow2_pos (Z.max 0 (- e'))). lia.
  - unfold scale_num, scale_den. rewrite Z.opp_involutive, Z.mul_1_l, <- !Z.mul_assoc.
    f_equal. rewrite <- !Z.pow_add_r by lia. f_equal. lia.
Qed.
