(** Rounding is to nearest, ties to even. *)
From Verif Require Import Bytes BaseProofs Num Dbl Types Stream Tokenizer Write Read
  SpecJson SpecInterp SpecNum SpecDbl SpecRound IntProofs DblProofs ReadSim ApiProofs.

(** The common scale. *)
Lemma scale_units f num den e : f_emin f <= e -> f_emin f <= 0 -> exists c, 0 < c /\
  num * 2 ^ (- f_emin f) = scale_num num e * c /\ 2 ^ (e - f_emin f) * den = scale_den den e * c.
Proof.
  intros L M. unfold scale_num, scale_den. destruct (Z.le_gt_cases 0 e).
  - exists (2 ^ (- f_emin f)). split; [apply pow2_pos; lia|].
    rewrite Z.max_l, (Z.max_r 0 e) by lia. split; [lia|].
    replace (e - f_emin f) with (e + - f_emin f) by lia. rewrite Z.pow_add_r by lia. ring.
  - exists (2 ^ (e - f_emin f)). split; [apply pow2_pos; lia|].
    rewrite Z.max_r, (Z.max_l 0 e) by lia. split; [|lia].
    replace (- f_emin f) with (- e + (e - f_emin f)) by lia. rewrite Z.pow_add_r by lia. ring.
Qed.

(** Nearest multiple. *)
Lemma multiple_near q k A X : 0 < A -> 2 * Z.abs (q * A - X) <= A ->
  (2 * Z.abs (q * A - X) = A -> Z.even q = true) ->
  k = q \/ Z.abs (q * A - X) < Z.abs (k * A - X) \/
  (Z.abs (q * A - X) = Z.abs (k * A - X) /\ Z.even q = true /\ Z.even k = false).
Proof.
  intros P H T. destruct (Z.eq_dec k q) as [->|N]; [now left|right].
  assert (C : k = q + 1 \/ k = q - 1 \/ q + 2 <= k \/ k <= q - 2) by lia.
  assert (FAR : Z.abs (q * A - X) <= Z.abs (k * A - X) /\
     (Z.abs (q * A - X) = Z.abs (k * A - X) -> 2 * Z.abs (q * A - X) = A /\ (k = q + 1 \/ k = q - 1))).
  { destruct C as [->|[->|[C|C]]].
    - replace ((q + 1) * A) with (q * A + A) by ring. lia.
    - replace ((q - 1) * A) with (q * A - A) by ring. lia.
    - assert ((q + 2) * A <= k * A) by (apply Z.mul_le_mono_nonneg_r; lia). lia.
    - assert (k * A <= (q - 2) * A) by (apply Z.mul_le_mono_nonneg_r; lia). lia. }
  destruct FAR as [F1 F2]. destruct (Z.eq_dec (Z.abs (q * A - X)) (Z.abs (k * A - X))) as [E|E]; [right|left; lia].
  destruct (F2 E) as [H2 K]. specialize (T H2). split; [exact E|]. split; [exact T|].
  destruct K as [-> | ->]; rewrite ?Z.even_add, ?Z.even_sub, T; reflexivity.
Qed.

Section Near.
  Variables (f : fmt) (num den : Z).
  Hypothesis Hp : 2 <= f_prec f.
  Hypothesis Hm : f_emin f <= 0.
  Hypothesis HM : f_emin f < f_emax f.
  Hypothesis Hn : 0 <= num.
  Hypothesis Hd : 0 < den.

  (** Every other value is farther, or as far and odd. *)
  Definition beats (d d' : dbl) : Prop :=
    units f d = units f d' \/ dist f num den d < dist f num den d' \/
    (dist f num den d = dist f num den d' /\ Z.even (mant d) = true /\ Z.even (mant d') = false).

  Definition best (s : bool) (d : dbl) : Prop :=
    dsign d = s /\ dbl_valid f d = true /\
    match d with
    | DNan _ => False
    | DInf _ => too_large f num den
    | _ => ~ too_large f num den /\ forall d', dbl_valid f d' = true -> finite d' -> beats d d'
    end.

  Lemma valid_fin d : dbl_valid f d = true -> finite d ->
    0 <= mant d < 2 ^ f_prec f /\ f_emin f <= expo f d <= f_emax f.
  Proof.
    pose proof (pow2_pos (f_prec f)). destruct d; simpl; try contradiction; intros V _; [lia|].
    rewrite !andb_true_iff, Z.ltb_lt, !Z.leb_le in V. lia.
  Qed.

  Lemma round_best s : best s (round_to f s num den).
  Proof.
    destruct (Z.eq_dec num 0) as [->|N].
    { unfold round_to. simpl. split; [reflexivity|]. split; [reflexivity|].
      unfold too_large, beats, dist, units. cbn [mant].
      pose proof (pow2_pos (f_prec f)). pose proof (pow2_pos (f_emax f - f_emin f)).
      replace (2 ^ (f_prec f + 1)) with (2 * 2 ^ f_prec f) by (rewrite Z.pow_add_r by lia; lia). split; [nia|].
      intros d' V F. pose proof (valid_fin _ V F).
      pose proof (pow2_pos (expo f d' - f_emin f)). destruct (Z.eq_dec (mant d') 0) as [->|M]; [now left|].
      right. left. nia. }
    pose proof (round_to_valid f s num den) as VAL.
    destruct (round_to_steps f num den 0 ltac:(lia) ltac:(lia) Hd s) as (e & q & Le & Hq & Hi & Lo & R).
    specialize (VAL ltac:(lia) Hd). unfold best.
    destruct (scale_units f num den e Le Hm) as (c & C & EX & EA).
    assert (SP : 0 < scale_den den e).
    { unfold scale_den. pose proof (pow2_pos (Z.max 0 e)). nia. }
    pose proof (div_rne_half (scale_num num e) _ SP) as H1. pose proof (div_rne_tie (scale_num num e) _ SP) as H2.
    pose proof (div_rne_nonneg (scale_num num e) _ SP) as Q0. rewrite <- Hq in H1, H2, Q0.
    set (G := 2 ^ (e - f_emin f)) in *. set (X := num * 2 ^ (- f_emin f)) in *.
    assert (GP : 0 < G) by (apply pow2_pos; lia).
    assert (XP : 0 < X) by (unfold X; pose proof (pow2_pos (- f_emin f)); nia).
    assert (E1 : Z.abs (q * (G * den) - X) = Z.abs (q * scale_den den e - scale_num num e) * c).
    { rewrite EX, EA. replace (q * (scale_den den e * c) - scale_num num e * c) with ((q * scale_den den e - scale_num num e) * c) by ring.
      rewrite Z.abs_mul, (Z.abs_eq c) by lia. reflexivity. }
    assert (T1 : 2 * Z.abs (q * (G * den) - X) <= G * den) by (rewrite E1, EA; nia).
    assert (T2 : 2 * Z.abs (q * (G * den) - X) = G * den -> Z.even q = true) by (rewrite E1, EA; intros; apply H2; nia).
    assert (HiX : X < 2 ^ f_prec f * (G * den)) by (rewrite EX, EA; nia).
    assert (LoX : f_emin f < e -> 2 ^ (f_prec f - 1) * (G * den) <= X) by (intros L; specialize (Lo L); rewrite EX, EA; nia).
    assert (Q1 : 0 <= q).
    { apply Q0. unfold scale_num. pose proof (pow2_pos (Z.max 0 (- e))). nia. }
    clear E1 EX EA H1 H2 Q0 Hq Hi Lo C c SP.
    assert (P2 : 2 ^ f_prec f = 2 * 2 ^ (f_prec f - 1)) by (rewrite <- Z.pow_succ_r by lia; f_equal; lia).
    pose proof (pow2_pos (f_prec f - 1) ltac:(lia)) as PP. set (P := 2 ^ (f_prec f - 1)) in *.
    assert (Pev : Z.even P = true).
    { unfold P. replace (f_prec f - 1) with (Z.succ (f_prec f - 2)) by lia. rewrite Z.pow_succ_r by lia. apply Z.even_mul. }
    assert (AP : 0 < G * den) by nia.
    assert (Qhi : q <= 2 * P).
    { destruct (Z.le_gt_cases q (2 * P)) as [|K]; [assumption|]. exfalso.
      assert ((2 * P + 1) * (G * den) <= q * (G * den)) by (apply Z.mul_le_mono_nonneg_r; lia). lia. }
    (** the value q * 2^e is best *)
    assert (BEST : forall d', dbl_valid f d' = true -> finite d' ->
      q * G = units f d' \/ Z.abs (q * (G * den) - X) < dist f num den d' \/
      (Z.abs (q * (G * den) - X) = dist f num den d' /\ Z.even q = true /\ Z.even (mant d') = false)).
    { intros d' V F. pose proof (valid_fin _ V F) as (VM & VE). unfold dist, units. fold X.
      destruct (Z.le_gt_cases e (expo f d')) as [L|L].
      - assert (U : mant d' * 2 ^ (expo f d' - f_emin f) = mant d' * 2 ^ (expo f d' - e) * G).
        { unfold G. rewrite <- Z.mul_assoc, <- Z.pow_add_r by lia. do 2 f_equal. lia. }
        rewrite U. destruct (multiple_near q (mant d' * 2 ^ (expo f d' - e)) (G * den) X AP T1 T2) as [K|[K|(K & Ev & Od)]].
        + left. now rewrite K.
        + right. left. rewrite <- Z.mul_assoc. exact K.
        + right. right. rewrite <- (Z.mul_assoc _ G den). split; [exact K|]. split; [exact Ev|].
          rewrite Z.even_mul, orb_false_iff in Od. tauto.
      - assert (U : mant d' * 2 ^ (expo f d' - f_emin f) * 2 <= (2 * P - 1) * G).
        { unfold G. replace (e - f_emin f) with (1 + (expo f d' - f_emin f) + (e - expo f d' - 1)) by lia.
          rewrite !Z.pow_add_r by lia. change (2 ^ 1) with 2.
          pose proof (pow2_pos (expo f d' - f_emin f) ltac:(lia)) as A1. pose proof (pow2_pos (e - expo f d' - 1) ltac:(lia)) as A2.
          set (a := 2 ^ (expo f d' - f_emin f)) in *. set (z := 2 ^ (e - expo f d' - 1)) in *.
          assert (mant d' * a <= (2 * P - 1) * a) by (apply Z.mul_le_mono_nonneg_r; lia).
          assert (a * 1 <= a * z) by (apply Z.mul_le_mono_nonneg_l; lia).
          assert ((2 * P - 1) * a * 1 <= (2 * P - 1) * a * z) by (apply Z.mul_le_mono_nonneg_l; nia). nia. }
        assert (LX : P * (G * den) <= X) by (apply LoX; lia).
        set (u := mant d' * 2 ^ (expo f d' - f_emin f)) in *.
        assert (U2 : u * den < P * (G * den)) by nia.
        destruct (multiple_near q P (G * den) X AP T1 T2) as [K|[K|(K & _)]]; right; left; [subst q|..]; lia. }
    assert (TL : too_large f num den <-> (4 * P - 1) * (2 ^ (f_emax f - f_emin f) * den) <= 2 * X).
    { unfold too_large. fold X. rewrite Z.pow_add_r by lia. change (2 ^ 1) with 2.
      replace ((2 ^ f_prec f * 2 - 1) * 2 ^ (f_emax f - f_emin f) * den)
        with ((4 * P - 1) * (2 ^ (f_emax f - f_emin f) * den)) by (rewrite P2; ring). reflexivity. }
    pose proof (pow2_pos (f_emax f - f_emin f) ltac:(lia)) as MP. set (B := 2 ^ (f_emax f - f_emin f)) in *.
    assert (BP : 0 < B * den) by nia.
    assert (GB : forall k, 0 <= k -> e + k <= f_emax f -> G * 2 ^ k <= B).
    { intros k K L. unfold G, B. rewrite <- Z.pow_add_r by lia. apply Z.pow_le_mono_r; lia. }
    assert (BG : forall k, 0 <= k -> f_emax f + k <= e -> B * 2 ^ k <= G).
    { intros k K L. unfold G, B. rewrite <- Z.pow_add_r by lia. apply Z.pow_le_mono_r; lia. }
    rewrite R in *. clear R. rewrite P2 in *. clear P2.
    destruct (Z.leb_spec q 0) as [Z0|Z0].
    { assert (q = 0) as -> by lia. split; [reflexivity|]. split; [exact VAL|].
      assert (EM : e = f_emin f) by (destruct (Z.eq_dec e (f_emin f)); [assumption|]; specialize (LoX ltac:(lia)); nia).
      split.
      - rewrite TL. specialize (GB 0 ltac:(lia) ltac:(lia)). change (2 ^ 0) with 1 in GB. nia.
      - intros d' V F. destruct (BEST d' V F) as [K|[K|K]]; unfold beats.
        + left. unfold units at 1. cbn [mant]. lia.
        + right. left. unfold dist at 1, units. cbn [mant]. fold X. lia.
        + right. right. unfold dist at 1, units. cbn [mant]. fold X. split; [lia|]. split; [reflexivity|tauto]. }
    destruct (Z.leb_spec (2 * P) q) as [Q2|Q2].
    { assert (q = 2 * P) as -> by lia. destruct (Z.ltb_spec (f_emax f) (e + 1)) as [L|L].
      - split; [reflexivity|]. split; [reflexivity|]. rewrite TL.
        specialize (BG 0 ltac:(lia) ltac:(lia)). change (2 ^ 0) with 1 in BG.
        assert (B * den <= G * den) by nia.
        assert (2 * (2 * P * (G * den) - X) <= G * den) by lia.
        assert ((4 * P - 1) * (B * den) <= (4 * P - 1) * (G * den)) by (apply Z.mul_le_mono_nonneg_l; lia). lia.
      - assert (S2 : 2 ^ (e + 1 - f_emin f) = 2 * G).
        { unfold G. replace (e + 1 - f_emin f) with (Z.succ (e - f_emin f)) by lia. apply Z.pow_succ_r. lia. }
        assert (UU : units f (DFin s (Z.to_pos P) (e + 1)) = 2 * P * G).
        { unfold units. cbn [mant expo]. rewrite Z2Pos.id, S2 by lia. ring. }
        split; [reflexivity|]. split; [exact VAL|]. split.
        + rewrite TL. specialize (GB 1 ltac:(lia) ltac:(lia)). change (2 ^ 1) with 2 in GB.
          assert (2 * (G * den) <= B * den) by nia.
          assert (2 * P * (2 * (G * den)) <= 2 * P * (B * den)) by (apply Z.mul_le_mono_nonneg_l; lia).
          assert ((2 * P + 1) * (B * den) <= (4 * P - 1) * (B * den)) by (apply Z.mul_le_mono_nonneg_r; lia). lia.
        + intros d' V F. destruct (BEST d' V F) as [K|[K|K]]; unfold beats.
          * left. now rewrite UU.
          * right. left. unfold dist at 1. rewrite UU. fold X. replace (2 * P * G * den) with (2 * P * (G * den)) by ring. lia.
          * right. right. unfold dist at 1. rewrite UU. fold X. replace (2 * P * G * den) with (2 * P * (G * den)) by ring.
            split; [lia|]. cbn [mant]. rewrite Z2Pos.id by lia. split; [exact Pev|tauto]. }
    destruct (Z.ltb_spec (f_emax f) e) as [L|L].
    { split; [reflexivity|]. split; [reflexivity|]. rewrite TL. specialize (LoX ltac:(lia)).
      specialize (BG 1 ltac:(lia) ltac:(lia)). change (2 ^ 1) with 2 in BG.
      assert (2 * (B * den) <= G * den) by nia.
      assert (2 * P * (2 * (B * den)) <= 2 * P * (G * den)) by (apply Z.mul_le_mono_nonneg_l; lia). lia. }
    assert (UU : units f (DFin s (Z.to_pos q) e) = q * G).
    { unfold units. cbn [mant expo]. rewrite Z2Pos.id by lia. reflexivity. }
    split; [reflexivity|]. split; [exact VAL|]. split.
    - rewrite TL. specialize (GB 0 ltac:(lia) ltac:(lia)). change (2 ^ 0) with 1 in GB.
      assert (G * den <= B * den) by nia. intros K.
      assert (B1 : (4 * P - 1) * (G * den) <= (4 * P - 1) * (B * den)) by (apply Z.mul_le_mono_nonneg_l; lia).
      destruct (Z.eq_dec q (2 * P - 1)) as [->|NQ].
      + assert (Z.even (2 * P - 1) = true); [apply T2|].
        * assert (E0 : 2 * ((2 * P - 1) * (G * den)) = (4 * P - 1) * (G * den) - G * den) by ring. lia.
        * rewrite Z.even_sub, Z.even_mul in H0. discriminate H0.
      + assert (q * (G * den) <= (2 * P - 2) * (G * den)) by (apply Z.mul_le_mono_nonneg_r; lia). lia.
    - intros d' V F. destruct (BEST d' V F) as [K|[K|K]]; unfold beats.
      + left. now rewrite UU.
      + right. left. unfold dist at 1. rewrite UU. fold X. rewrite <- Z.mul_assoc. exact K.
      + right. right. unfold dist at 1. rewrite UU. fold X. rewrite <- Z.mul_assoc. cbn [mant]. rewrite Z2Pos.id by lia. exact K.
  Qed.
End Near.

Lemma beats_nearest f s num den d : best f num den s d -> nearest f s num den d.
Proof.
  intros (S & V & B). split; [exact V|]. split; [exact S|].
  destruct d; auto; destruct B as [T B]; (split; [exact T|]); intros d' V' F';
    destruct (B d' V' F') as [K|[K|(K1 & K2 & _)]].
  1, 4: unfold dist; rewrite K; split; [lia|now left].
  1, 3: split; [lia|intros; lia].
  1, 2: split; [lia|intros; now right].
Qed.

Lemma units_inj f d d' : 1 <= f_prec f -> dbl_valid f d = true -> dbl_valid f d' = true -> finite d -> finite d' ->
  dsign d = dsign d' -> units f d = units f d' -> d = d'.
Proof.
  intros P V V' F F' S U. unfold units in U.
  destruct d as [s|s|s|s m e], d' as [s'|s'|s'|s' m' e']; try contradiction; cbn [dsign mant expo] in *; subst s'.
  - reflexivity.
  - exfalso. cbn [dbl_valid] in V'. rewrite !andb_true_iff, !Z.leb_le in V'. pose proof (pow2_pos (e' - f_emin f)). nia.
  - exfalso. cbn [dbl_valid] in V. rewrite !andb_true_iff, !Z.leb_le in V. pose proof (pow2_pos (e - f_emin f)). nia.
  - cbn [dbl_valid] in V, V'. rewrite !andb_true_iff, orb_true_iff, Z.ltb_lt, !Z.leb_le, Z.eqb_eq in V, V'.
    assert (P2 : 2 ^ f_prec f = 2 * 2 ^ (f_prec f - 1)) by (rewrite <- Z.pow_succ_r by lia; f_equal; lia).
    assert (W : forall (a a' : positive) x x', Zpos a < 2 ^ f_prec f -> f_emin f <= x -> x < x' ->
      2 ^ (f_prec f - 1) <= Zpos a' -> Zpos a * 2 ^ (x - f_emin f) = Zpos a' * 2 ^ (x' - f_emin f) -> False).
    { intros a a' x x' A X L A' E. replace (x' - f_emin f) with (1 + (x' - x - 1) + (x - f_emin f)) in E by lia.
      rewrite !Z.pow_add_r in E by lia. change (2 ^ 1) with 2 in E.
      pose proof (pow2_pos (x - f_emin f) ltac:(lia)). pose proof (pow2_pos (x' - x - 1) ltac:(lia)).
      assert (Zpos a = Zpos a' * (2 * 2 ^ (x' - x - 1))) by nia. nia. }
    assert (e = e') as <-.
    { destruct (Z.lt_trichotomy e e') as [L|[L|L]]; [exfalso|exact L|exfalso].
      - apply (W m m' e e'); try tauto. destruct V' as (_ & [V'|V']); [exact V'|lia].
      - apply (W m' m e' e); try tauto. destruct V as (_ & [V|V]); [exact V|lia]. auto. }
    pose proof (pow2_pos (e - f_emin f) ltac:(lia)). f_equal. assert (Zpos m = Zpos m') by nia. congruence.
Qed.

Lemma nearest_unique f s num den d d' : 1 <= f_prec f -> best f num den s d -> nearest f s num den d' -> d' = d.
Proof.
  intros P (S & V & B) (V' & S' & N).
  assert (FIN : forall x y, finite x -> finite y -> dbl_valid f x = true -> dbl_valid f y = true ->
    dsign x = s -> dsign y = s ->
    beats f num den x y -> (dist f num den y <= dist f num den x /\
      (dist f num den y = dist f num den x -> units f y = units f x \/ Z.even (mant y) = true)) -> y = x).
  { intros x y Fx Fy Vx Vy Sx Sy Bx [Ny1 Ny2].
    assert (U : units f y = units f x).
    { destruct Bx as [K|[K|(K1 & K2 & K3)]]; [now symmetry|lia|]. destruct (Ny2 ltac:(lia)); congruence. }
    apply (units_inj f); auto; congruence. }
  destruct d as [s1|s1|s1|s1 m1 e1], d' as [s2|s2|s2|s2 m2 e2]; try contradiction; cbn [dsign] in S, S'; subst s1 s2;
    try reflexivity; try tauto.
  all: destruct B as [B1 B], N as [N1 N]; apply FIN; try exact I; try reflexivity; try assumption;
    [apply B|apply N]; try exact I; assumption.
Qed.

(** ** Text *)
Lemma exp_text_value x e : exp_text x e -> dec_exponent e = x /\ stops is_digit e /\
  (match e with c :: _ => Ascii.eqb c "." = false | [] => True end) /\ exp_part e.
Proof.
  assert (SP : forall d, forallb digit_char d = true -> span is_digit d = (d, [])).
  { intros d D. rewrite <- (app_nil_r d) at 1. apply span_is_digit; [exact D|exact Logic.I]. }
  assert (MI : forall d, digits1 d -> match d return bool * list ascii with c :: r => if Ascii.eqb c "-" then (true, r)
      else if Ascii.eqb c "+" then (false, r) else (false, d) | [] => (false, d) end = (false, d)).
  { intros [|c r] [N D]; [contradiction|]. cbn [forallb] in D. apply andb_prop in D as [C _].
    destruct (digit_facts c C) as (_ & M & Q & _). now rewrite M, Q. }
  intros H. destruct H as [|c d C D|c d C D|c d C D].
  - repeat split. now left.
  - assert (E : is_exp_char c = true) by (destruct C as [-> | ->]; reflexivity).
    split; [|split; [destruct C as [-> | ->]; reflexivity|split; [destruct C as [-> | ->]; reflexivity|]]].
    + unfold dec_exponent. rewrite E. unfold bytes in *. rewrite (MI d D). destruct D as [_ D]. rewrite (SP d D). reflexivity.
    + right. exists c, [], d. auto 6.
  - assert (E : is_exp_char c = true) by (destruct C as [-> | ->]; reflexivity).
    split; [|split; [destruct C as [-> | ->]; reflexivity|split; [destruct C as [-> | ->]; reflexivity|]]].
    + unfold dec_exponent. rewrite E. change (b "+" ++ d) with ("+"%char :: d). cbv beta iota zeta.
      change (Ascii.eqb "+" "-") with false. change (Ascii.eqb "+" "+") with true. cbv beta iota zeta.
      destruct D as [_ D]. rewrite (SP d D). reflexivity.
    + right. exists c, (b "+"), d. auto 6.
  - assert (E : is_exp_char c = true) by (destruct C as [-> | ->]; reflexivity).
    split; [|split; [destruct C as [-> | ->]; reflexivity|split; [destruct C as [-> | ->]; reflexivity|]]].
    + unfold dec_exponent. rewrite E. change (b "-" ++ d) with ("-"%char :: d). cbv beta iota zeta.
      change (Ascii.eqb "-" "-") with true. cbv beta iota zeta.
      destruct D as [_ D]. rewrite (SP d D). reflexivity.
    + right. exists c, (b "-"), d. auto 7.
Qed.

Lemma frac_text_part fd f : frac_text fd f -> frac_part f.
Proof. intros [|d D]; [now left|right; now exists d]. Qed.

Lemma int_part_digits i : int_part i -> i <> [] /\ forallb is_digit i = true.
Proof.
  intros [-> | (c & r & -> & C & _ & R)]; split; try discriminate; [reflexivity|].
  change (digit_char c && forallb digit_char r = true). now rewrite C, R.
Qed.

Lemma strtod_split_number neg i fd f x e : int_part i -> frac_text fd f -> exp_text x e ->
  strtod_split ((if neg : bool then b "-" else []) ++ i ++ f ++ e) = (neg, i ++ fd, x - Z.of_nat (length fd)).
Proof.
  intros I F X. pose proof (exp_text_value x e X) as (EX & ST & DOT & EP).
  pose proof (frac_text_part fd f F) as FP. destruct (int_part_digits i I) as [NE DI].
  unfold strtod_split.
  assert (NN : no_nul ((if neg : bool then b "-" else []) ++ i ++ f ++ e)).
  { apply no_nul_app; [destruct neg; [apply no_nul_cons; [discriminate|]|]; intros []|].
    apply no_nul_app; [now apply digits_no_nul|]. now apply frac_exp_no_nul. }
  rewrite cstr_id by exact NN. clear NN.
  destruct i as [|c i]; [contradiction|]. assert (DC := DI). cbn [forallb] in DC. apply andb_prop in DC as [C _].
  destruct (digit_facts c C) as (Sp & M & Q & _).
  assert (S : span is_space ((if neg : bool then b "-" else []) ++ (c :: i) ++ f ++ e)
    = ([], (if neg : bool then b "-" else []) ++ (c :: i) ++ f ++ e)).
  { destruct neg; [reflexivity|]. cbn [app span]. now rewrite Sp. }
  rewrite S. cbn [snd]. clear S.
  assert (T : (match (if neg : bool then b "-" else []) ++ (c :: i) ++ f ++ e with
     | c0 :: r => if Ascii.eqb c0 "-" then (true, r)
                else if Ascii.eqb c0 "+" then (false, r) else (false, (if neg : bool then b "-" else []) ++ (c :: i) ++ f ++ e)
     | [] => (false, (if neg : bool then b "-" else []) ++ (c :: i) ++ f ++ e) end) = (neg, (c :: i) ++ f ++ e)).
  { destruct neg; [reflexivity|]. cbn [app]. now rewrite M, Q. }
  rewrite T. clear T. destruct F as [|d [D1 D2]].
  - change ([] ++ e) with e. rewrite (span_is_digit (c :: i) e) by assumption. rewrite app_nil_r. cbn [length].
    destruct e as [|k r].
    + inversion X. reflexivity.
    + rewrite DOT, EX. f_equal. lia.
  - rewrite (span_is_digit (c :: i) ((b "." ++ d) ++ e)) by (auto; reflexivity).
    change ((b "." ++ d) ++ e) with ("."%char :: d ++ e). change (Ascii.eqb "." ".") with true. cbv iota.
    rewrite (span_is_digit d e) by assumption. cbn [app]. rewrite EX. reflexivity.
Qed.

Lemma strtod_number neg i fd f x e : int_part i -> frac_text fd f -> exp_text x e ->
  strtod ((if neg : bool then b "-" else []) ++ i ++ f ++ e)
  = round_to binary64 neg (dec_num (i ++ fd) (x - Z.of_nat (length fd))) (dec_den (x - Z.of_nat (length fd))).
Proof.
  intros I F X. unfold strtod. rewrite (strtod_split_number neg i fd f x e I F X).
  unfold dec_num, dec_den. change (dval (i ++ fd)) with (digits_val (i ++ fd)).
  destruct (Z.leb_spec 0 (x - Z.of_nat (length fd))).
  - rewrite Z.max_r, (Z.max_l 0 (- _)) by lia. reflexivity.
  - rewrite Z.max_l, (Z.max_r 0 (- _)) by lia. now rewrite Z.mul_1_r.
Qed.

Lemma dec_den_pos k : 0 < dec_den k.
Proof. apply Z.pow_pos_nonneg; lia. Qed.

Lemma dec_num_nonneg i fd k : int_part i -> forallb digit_char fd = true -> 0 <= dec_num (i ++ fd) k.
Proof.
  intros I F. apply Z.mul_nonneg_nonneg; [|apply Z.pow_nonneg; lia].
  change (dval (i ++ fd)) with (dval_from 0 (i ++ fd)).
  pose proof (dval_from_lower (i ++ fd) 0) as H. rewrite forallb_app in H.
  destruct (int_part_digits i I) as [_ DI]. rewrite DI in H. specialize (H F). lia.
Qed.

Lemma frac_digits fd f : frac_text fd f -> forallb digit_char fd = true.
Proof. intros [|d [_ D]]; auto. Qed.

(** ** Fields *)
Lemma read_number p neg i f e v w1 w2 po : p <> PBool -> int_part i -> frac_part f -> exp_part e ->
  has_ty (TField p) v = true -> ws w1 -> ws w2 ->
  exists po', deserialize (TField p) v (w1 ++ ((if neg : bool then b "-" else []) ++ i ++ f ++ e) ++ w2) po
    = Some (true, VField false (string_to_prim p ((if neg : bool then b "-" else []) ++ i ++ f ++ e)), po').
Proof.
  intros NB I F E Hv W1 W2. set (s := (if neg : bool then b "-" else []) ++ i ++ f ++ e).
  destruct (deserialize_interp true (TField p) v (JNum s) (w1 ++ s ++ w2) po) as (po' & D).
  - exists w1, w2, s. repeat split; auto. constructor.
    exists (if neg then b "-" else []), i, f, e. repeat split; auto. destruct neg; auto.
  - now apply has_ty_shape.
  - exact Logic.I.
  - exists po'. rewrite D. destruct v; try discriminate. destruct p; try reflexivity. contradiction.
Qed.

Lemma double_read neg i fd f x e v w1 w2 po : int_part i -> frac_text fd f -> exp_text x e ->
  has_ty (TField PDouble) v = true -> ws w1 -> ws w2 ->
  exists d po', deserialize (TField PDouble) v (w1 ++ ((if neg : bool then b "-" else []) ++ i ++ f ++ e) ++ w2) po
      = Some (true, VField false (VDbl d), po') /\
    forall d', nearest binary64 neg (dec_num (i ++ fd) (x - Z.of_nat (length fd))) (dec_den (x - Z.of_nat (length fd))) d'
      <-> d' = d.
Proof.
  intros I F X Hv W1 W2.
  destruct (read_number PDouble neg i f e v w1 w2 po) as (po' & D); auto; try discriminate.
  { eapply frac_text_part; eauto. } { eapply exp_text_value; eauto. }
  eexists _, po'. split; [exact D|]. rewrite (strtod_number neg i fd f x e I F X).
  pose proof (dec_den_pos (x - Z.of_nat (length fd))) as DP.
  pose proof (dec_num_nonneg i fd (x - Z.of_nat (length fd)) I (frac_digits _ _ F)) as DN.
  assert (B := round_best binary64 _ _ ltac:(simpl; lia) ltac:(simpl; lia) ltac:(simpl; lia) DN DP neg).
  intros d'. split; [intros N; eapply nearest_unique; eauto; simpl; lia|intros ->; now apply beats_nearest].
Qed.

Lemma float_read neg i fd f x e v w1 w2 po : int_part i -> frac_text fd f -> exp_text x e ->
  has_ty (TField PFloat) v = true -> ws w1 -> ws w2 ->
  exists d1 d po', deserialize (TField PFloat) v (w1 ++ ((if neg : bool then b "-" else []) ++ i ++ f ++ e) ++ w2) po
      = Some (true, VField false (VDbl d), po') /\
    nearest binary64 neg (dec_num (i ++ fd) (x - Z.of_nat (length fd))) (dec_den (x - Z.of_nat (length fd))) d1 /\
    match d1 with
    | DFin s m k => forall d', nearest binary32 s (Zpos m * 2 ^ Z.max 0 k) (2 ^ Z.max 0 (- k)) d' <-> d' = d
    | _ => d = d1
    end.
Proof.
  intros I F X Hv W1 W2.
  destruct (read_number PFloat neg i f e v w1 w2 po) as (po' & D); auto; try discriminate.
  { eapply frac_text_part; eauto. } { eapply exp_text_value; eauto. }
  pose proof (dec_den_pos (x - Z.of_nat (length fd))) as DP.
  pose proof (dec_num_nonneg i fd (x - Z.of_nat (length fd)) I (frac_digits _ _ F)) as DN.
  assert (B := round_best binary64 _ _ ltac:(simpl; lia) ltac:(simpl; lia) ltac:(simpl; lia) DN DP neg).
  cbn [string_to_prim] in D. rewrite (strtod_number neg i fd f x e I F X) in D.
  set (d1 := round_to binary64 neg _ _) in *.
  exists d1, (to_float d1), po'. split; [exact D|]. split; [now apply beats_nearest|].
  destruct d1 as [s|s|s|s m k]; try reflexivity.
  cbn [to_float]. unfold scale_num, scale_den. rewrite Z.opp_involutive, Z.mul_1_l.
  assert (N0 : 0 <= Zpos m * 2 ^ Z.max 0 k) by (pose proof (pow2_pos (Z.max 0 k)); nia).
  assert (P0 : 0 < 2 ^ Z.max 0 (- k)) by (apply pow2_pos; lia).
  assert (B2 := round_best binary32 _ _ ltac:(simpl; lia) ltac:(simpl; lia) ltac:(simpl; lia) N0 P0 s).
  intros d'. split; [intros N; eapply nearest_unique; eauto; simpl; lia|intros ->; now apply beats_nearest].
Qed.

(** A numeral just above the middle of two floats: the double is the middle, and the middle
    is rounded down. *)
Definition twice_digits : bytes := b "0000000596046447753906251".

Lemma twice_read :
  deserialize (TField PFloat) (VField true (VDbl (DZero false))) (b "1." ++ twice_digits) None
  = Some (true, VField false (VDbl (DFin false 8388608 (-23))), None).
Proof. vm_compute. reflexivity. Qed.

Lemma twice_nearest d : nearest binary32 false (dec_num (b "1" ++ twice_digits) (-25)) (dec_den (-25)) d
  <-> d = DFin false 8388609 (-23).
Proof.
  assert (N0 : 0 <= dec_num (b "1" ++ twice_digits) (-25)) by (vm_compute; discriminate).
  assert (B := round_best binary32 _ _ ltac:(simpl; lia) ltac:(simpl; lia) ltac:(simpl; lia) N0 (dec_den_pos (-25)) false).
  assert (E : round_to binary32 false (dec_num (b "1" ++ twice_digits) (-25)) (dec_den (-25)) = DFin false 8388609 (-23))
    by (vm_compute; reflexivity).
  rewrite E in B.
  split; [intros N; eapply nearest_unique; eauto; simpl; lia|intros ->; now apply beats_nearest].
Qed.

Lemma twice_refuted : exists i fd f d d',
  int_part i /\ frac_text fd f /\
  deserialize (TField PFloat) (VField true (VDbl (DZero false))) (i ++ f) None = Some (true, VField false (VDbl d), None) /\
  nearest binary32 false (dec_num (i ++ fd) (- Z.of_nat (length fd))) (dec_den (- Z.of_nat (length fd))) d' /\
  d <> d'.
Proof.
  exists (b "1"), twice_digits, (b "." ++ twice_digits), (DFin false 8388608 (-23)), (DFin false 8388609 (-23)).
  split; [right; exists "1"%char, []; repeat split; discriminate|].
  split; [constructor; split; [discriminate|reflexivity]|].
  split; [exact twice_read|]. split; [now apply twice_nearest|discriminate].
Qed.

Lemma round_samples :
  int_part (b "0") /\ frac_text (b "1") (b ".1") /\ exp_text 400 (b "e400") /\ exp_text (-324) (b "e-324") /\
  has_ty (TField PDouble) (VField true (VDbl (DZero false))) = true /\
  deserialize (TField PDouble) (VField true (VDbl (DZero false))) (b " 0.1") None
  = Some (true, VField false (VDbl (DFin false 7205759403792794 (-56))), None) /\
  deserialize (TField PDouble) (VField true (VDbl (DZero false))) (b "-1e400") None
  = Some (true, VField false (VDbl (DInf true)), None) /\
  deserialize (TField PDouble) (VField true (VDbl (DZero false))) (b "5e-324") None
  = Some (true, VField false (VDbl (DFin false 1 (-1074))), None).
Proof.
  split; [now left|]. split; [apply (ft_some (b "1")); split; [discriminate|reflexivity]|].
  split; [apply (et_plain "e" (b "400")); [now left|split; [discriminate|reflexivity]]|].
  split; [apply (et_minus "e" (b "324")); [now left|split; [discriminate|reflexivity]]|].
  split; [reflexivity|]. split; [vm_compute; reflexivity|]. split; vm_compute; reflexivity.
Qed.
