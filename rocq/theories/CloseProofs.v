(** [equal_number] holds exactly between neighbours. *)
From Verif Require Import Bytes BaseProofs Num Dbl DblProofs SpecRound RoundProofs Close SpecClose.

Definition goodf (f : fmt) : Prop := 2 <= f_prec f /\ f_emin f < f_emax f.

Lemma good64 : goodf binary64. Proof. split; [apply Z.leb_le|apply Z.ltb_lt]; reflexivity. Qed.
Lemma good32 : goodf binary32. Proof. split; [apply Z.leb_le|apply Z.ltb_lt]; reflexivity. Qed.

Lemma valid_fin f s m e : dbl_valid f (DFin s m e) = true <->
  Zpos m < 2 ^ f_prec f /\ f_emin f <= e <= f_emax f /\ (2 ^ (f_prec f - 1) <= Zpos m \/ e = f_emin f).
Proof. unfold dbl_valid. rewrite !andb_true_iff, orb_true_iff, Z.ltb_lt, !Z.leb_le, Z.eqb_eq. tauto. Qed.

Lemma sval_fin f s m e : sval f (DFin s m e) = (if s then - (Zpos m * 2 ^ (e - f_emin f)) else Zpos m * 2 ^ (e - f_emin f)).
Proof. reflexivity. Qed.
Lemma sval_zero f s : sval f (DZero s) = 0.
Proof. unfold sval, units. cbn [mant]. destruct (dsign (DZero s)); reflexivity. Qed.

Lemma sval_opp f d : sval f (dopp d) = - sval f d.
Proof. destruct d as [[]|[]|[]|[]]; unfold sval, units; cbn [dopp dsign negb mant expo]; lia. Qed.
Lemma dopp_inv d : dopp (dopp d) = d.
Proof. destruct d; cbn [dopp]; rewrite negb_involutive; reflexivity. Qed.
Lemma number_opp f d : number f d -> number f (dopp d).
Proof. destruct d; intros [V F]; split; auto. Qed.

Lemma sval_sgn f d : finite d -> sval f d = sgn_mant d * 2 ^ (expo f d - f_emin f).
Proof. destruct d as [[]|[]|[]|[]]; intros F; try destruct F; unfold sval, units; cbn [dsign mant sgn_mant]; lia. Qed.

Lemma leb_sign a k : 0 <= k -> (0 <= a * 2 ^ k <-> 0 <= a) /\ (a * 2 ^ k <= 0 <-> a <= 0).
Proof. intros K. pose proof (pow2_pos k K). split; split; nia. Qed.

Lemma leb_sval f x y : number f x -> number f y -> dbl_leb x y = true <-> sval f x <= sval f y.
Proof.
  intros [VX FX] [VY FY]. rewrite !sval_sgn by assumption.
  assert (L : dbl_leb x y = (sgn_mant x * 2 ^ (dexp x - Z.min (dexp x) (dexp y)) <=? sgn_mant y * 2 ^ (dexp y - Z.min (dexp x) (dexp y)))).
  { destruct x, y; try destruct FX; try destruct FY; reflexivity. }
  rewrite L, Z.leb_le. clear L. set (e := Z.min (dexp x) (dexp y)).
  assert (EX : 0 <= dexp x - e) by lia. assert (EY : 0 <= dexp y - e) by lia.
  assert (UX : 0 <= expo f x - f_emin f) by (destruct x; cbn [expo]; try lia; apply valid_fin in VX; lia).
  assert (UY : 0 <= expo f y - f_emin f) by (destruct y; cbn [expo]; try lia; apply valid_fin in VY; lia).
  destruct x as [s|s|s|s m ex]; try destruct FX.
  - cbn [sgn_mant]. rewrite !Z.mul_0_l. pose proof (leb_sign (sgn_mant y) _ EY). pose proof (leb_sign (sgn_mant y) _ UY). tauto.
  - destruct y as [s'|s'|s'|s' m' ey]; try destruct FY.
    + cbn [sgn_mant]. rewrite !Z.mul_0_l. change (if s then Zneg m else Zpos m) with (sgn_mant (DFin s m ex)).
      pose proof (leb_sign (sgn_mant (DFin s m ex)) _ EX). pose proof (leb_sign (sgn_mant (DFin s m ex)) _ UX). tauto.
    + cbn [dexp expo] in *. set (p := sgn_mant _). set (q := sgn_mant _).
      assert (E0 : 0 <= e - f_emin f) by (apply valid_fin in VX; apply valid_fin in VY; lia).
      replace (ex - f_emin f) with ((ex - e) + (e - f_emin f)) by lia. replace (ey - f_emin f) with ((ey - e) + (e - f_emin f)) by lia.
      rewrite !Z.pow_add_r, !Z.mul_assoc by lia. pose proof (pow2_pos _ E0). nia.
Qed.

Lemma half_pow p : 1 <= p -> 2 ^ p = 2 * 2 ^ (p - 1).
Proof. intros P. rewrite <- Z.pow_succ_r by lia. f_equal. lia. Qed.

Definition ulp (f : fmt) (d : dbl) : Z := 2 ^ (expo f d - f_emin f).

Lemma units_nonneg f d : 0 <= units f d.
Proof. unfold units. pose proof (Z.pow_nonneg 2 (expo f d - f_emin f)). destruct d; cbn [mant]; nia. Qed.

(** The step to the next magnitude. *)
Lemma next_units f d z : goodf f -> number f d -> number f z -> units f d < units f z -> units f d + ulp f d <= units f z.
Proof.
  intros [GP GE] [VD FD] [VZ FZ] L. unfold ulp.
  destruct z as [s|s|s|s mz ez]; try destruct FZ.
  { exfalso. unfold units in L at 2. cbn [mant] in L. pose proof (units_nonneg f d). lia. }
  apply valid_fin in VZ as (Z1 & Z2 & Z3).
  unfold units in *. cbn [mant expo] in *. set (e := expo f d) in *.
  assert (E0 : f_emin f <= e) by (subst e; destruct d as [?|?|?|? ? ?]; cbn [expo]; try lia; apply valid_fin in VD; lia).
  assert (MD : 0 <= mant d) by (destruct d; cbn [mant]; lia).
  destruct (Z.le_gt_cases e ez) as [C|C].
  - replace (ez - f_emin f) with ((ez - e) + (e - f_emin f)) in * by lia. rewrite Z.pow_add_r, Z.mul_assoc in * by lia.
    assert (U : 0 < 2 ^ (e - f_emin f)) by (apply pow2_pos; lia). set (u := 2 ^ (e - f_emin f)) in *.
    set (t := Zpos mz * 2 ^ (ez - e)) in *. assert (mant d < t) by (apply (Z.mul_lt_mono_pos_r u); assumption). nia.
  - exfalso. assert (M : 2 ^ (f_prec f - 1) <= mant d).
    { destruct d as [|?|?|s' m' e']; try destruct FD; subst e; cbn [mant expo] in *; [lia|].
      apply valid_fin in VD as (D1 & D2 & [D3|D3]); lia. }
    replace (e - f_emin f) with ((e - ez) + (ez - f_emin f)) in L by lia. rewrite Z.pow_add_r, Z.mul_assoc in L by lia.
    pose proof (pow2_pos (ez - f_emin f)). set (u := 2 ^ (ez - f_emin f)) in *.
    rewrite (half_pow (e - ez)) in L by lia. pose proof (pow2_pos (e - ez - 1)).
    rewrite (half_pow (f_prec f)) in Z1 by lia. set (v := 2 ^ (e - ez - 1)) in *. set (w := 2 ^ (f_prec f - 1)) in *.
    assert (mant d * (2 * v) * u < Zpos mz * u) by lia. assert (mant d * (2 * v) < Zpos mz) by nia. nia.
Qed.

Lemma max_number f : goodf f -> number f (dbl_max f).
Proof.
  intros [GP GE]. split; [|exact Logic.I]. apply valid_fin. pose proof (half_pow (f_prec f)). pose proof (pow2_pos (f_prec f - 1)).
  assert (2 <= 2 ^ f_prec f) by lia. rewrite Z2Pos.id by lia. lia.
Qed.

Lemma max_units f z : goodf f -> number f z -> units f z <= units f (dbl_max f).
Proof.
  intros G [VZ FZ]. destruct z as [s|s|s|s m e]; try destruct FZ.
  - unfold units at 1. cbn [mant]. apply units_nonneg.
  - destruct G as [GP GE]. apply valid_fin in VZ as (Z1 & Z2 & Z3). unfold units, dbl_max. cbn [mant expo].
    pose proof (pow2_pos (f_prec f)). rewrite Z2Pos.id by (pose proof (half_pow (f_prec f)); pose proof (pow2_pos (f_prec f - 1)); lia).
    assert (2 ^ (e - f_emin f) <= 2 ^ (f_emax f - f_emin f)) by (apply Z.pow_le_mono_r; lia).
    pose proof (pow2_pos (e - f_emin f)). nia.
Qed.

(** The two steps in magnitude. *)
Lemma away_step f s m e : goodf f -> dbl_valid f (DFin s m e) = true -> DFin false m e <> dbl_max f ->
  number f (away f s m e) /\ dsign (away f s m e) = s /\ units f (away f s m e) = units f (DFin s m e) + ulp f (DFin s m e).
Proof.
  intros [GP GE] V NM. apply valid_fin in V as (V1 & V2 & V3). unfold away.
  pose proof (half_pow (f_prec f)). pose proof (pow2_pos (f_prec f - 1)).
  destruct (Z.ltb_spec (Zpos m + 1) (2 ^ f_prec f)) as [C|C].
  - split; [split; [apply valid_fin; rewrite Pos2Z.inj_add; lia|exact Logic.I]|]. split; [reflexivity|].
    unfold units, ulp. cbn [mant expo]. rewrite Pos2Z.inj_add. lia.
  - destruct (Z.ltb_spec e (f_emax f)) as [D|D].
    + split; [split; [apply valid_fin; rewrite Z2Pos.id by lia; lia|exact Logic.I]|]. split; [reflexivity|].
      unfold units, ulp. cbn [mant expo]. rewrite Z2Pos.id by lia.
      replace (e + 1 - f_emin f) with (Z.succ (e - f_emin f)) by lia. rewrite Z.pow_succ_r by lia.
      assert (M : Zpos m = 2 * 2 ^ (f_prec f - 1) - 1) by lia. rewrite M. ring.
    + exfalso. apply NM. unfold dbl_max. f_equal; [|lia]. apply Pos2Z.inj. rewrite Z2Pos.id by lia. lia.
Qed.

Lemma closer_step f s m e : goodf f -> dbl_valid f (DFin s m e) = true ->
  number f (closer f s m e) /\ dsign (closer f s m e) = s /\
  units f (closer f s m e) + ulp f (closer f s m e) = units f (DFin s m e).
Proof.
  intros [GP GE] V. apply valid_fin in V as (V1 & V2 & V3). unfold closer.
  pose proof (half_pow (f_prec f)). pose proof (pow2_pos (f_prec f - 1)).
  destruct ((Zpos m =? 2 ^ (f_prec f - 1)) && (f_emin f <? e)) eqn:C.
  - apply andb_true_iff in C as [C1 C2]. apply Z.eqb_eq in C1. apply Z.ltb_lt in C2.
    split; [split; [apply valid_fin; rewrite Z2Pos.id by lia; lia|exact Logic.I]|]. split; [reflexivity|].
    unfold units, ulp. cbn [mant expo]. rewrite Z2Pos.id by lia. rewrite C1, H by lia.
    rewrite (half_pow (e - f_emin f)) by lia. replace (e - 1 - f_emin f) with (e - f_emin f - 1) by lia. ring.
  - assert (K : Zpos m <> 2 ^ (f_prec f - 1) \/ e = f_emin f).
    { apply andb_false_iff in C as [C|C]; [apply Z.eqb_neq in C; tauto|apply Z.ltb_ge in C; lia]. }
    destruct (Pos.eq_dec m 1) as [->|N1].
    + assert (E : e = f_emin f).
      { destruct V3 as [V3|V3]; [|exact V3]. destruct K as [K|K]; [|exact K].
        assert (0 < f_prec f - 1) by lia. pose proof (half_pow (f_prec f - 1)). pose proof (pow2_pos (f_prec f - 1 - 1)). lia. }
      split; [split; reflexivity|]. split; [reflexivity|]. unfold units, ulp. cbn [mant expo]. rewrite E, Z.sub_diag. reflexivity.
    + assert (P : Zpos (Pos.pred m) = Zpos m - 1) by lia.
      replace (match m with xH => DZero s | _ => DFin s (Pos.pred m) e end) with (DFin s (Pos.pred m) e) by (destruct m; congruence).
      split; [split; [apply valid_fin; rewrite P; lia|exact Logic.I]|]. split; [reflexivity|].
      unfold units, ulp. cbn [mant expo]. rewrite P. ring.
Qed.

Lemma ulp_pos f d : number f d -> 0 < ulp f d.
Proof.
  intros [V F]. unfold ulp. apply pow2_pos. destruct d; cbn [expo]; try lia. apply valid_fin in V. lia.
Qed.

Lemma above_step f x : goodf f -> number f x -> sval f x <> sval f (dbl_max f) ->
  number f (above f x) /\ sval f x < sval f (above f x) /\
  forall w, number f w -> sval f x < sval f w -> sval f (above f x) <= sval f w.
Proof.
  intros G NX NM. destruct x as [s|s|s|[] m e]; try (exfalso; exact (proj2 NX)).
  - cbn [above]. rewrite sval_zero. rewrite sval_fin. rewrite Z.sub_diag. change (1 * 2 ^ 0) with 1.
    split; [|split; [lia|intros; lia]]. split; [|exact Logic.I]. apply valid_fin. destruct G as [GP GE].
    pose proof (half_pow (f_prec f)). pose proof (half_pow (f_prec f - 1)). pose proof (pow2_pos (f_prec f - 1 - 1)). lia.
  - cbn [above]. destruct (closer_step f true m e G (proj1 NX)) as (N & D & U). pose proof (ulp_pos _ _ N).
    assert (E : sval f (closer f true m e) = - units f (closer f true m e)) by (unfold sval; now rewrite D).
    assert (EX : sval f (DFin true m e) = - units f (DFin true m e)) by reflexivity.
    rewrite E, EX. split; [exact N|]. split; [lia|]. intros w NW L.
    pose proof (units_nonneg f w). pose proof (units_nonneg f (closer f true m e)).
    unfold sval in *. destruct (dsign w); [|lia].
    destruct (Z.le_gt_cases (units f w) (units f (closer f true m e))) as [C|C]; [lia|].
    pose proof (next_units f _ w G N NW C). lia.
  - cbn [above]. assert (NM' : DFin false m e <> dbl_max f) by (intros E; apply NM; now rewrite E).
    destruct (away_step f false m e G (proj1 NX) NM') as (N & D & U). pose proof (ulp_pos _ _ NX).
    assert (E : sval f (away f false m e) = units f (away f false m e)) by (unfold sval; now rewrite D).
    assert (EX : sval f (DFin false m e) = units f (DFin false m e)) by reflexivity.
    rewrite E, EX, U. split; [exact N|]. split; [lia|]. intros w NW L.
    pose proof (units_nonneg f w). pose proof (units_nonneg f (DFin false m e)).
    unfold sval in *. destruct (dsign w); [lia|]. exact (next_units f _ w G NX NW L).
Qed.

Lemma sval_max f z : goodf f -> number f z -> - sval f (dbl_max f) <= sval f z <= sval f (dbl_max f).
Proof.
  intros G N. pose proof (max_units f z G N). pose proof (units_nonneg f z). unfold sval. change (dsign (dbl_max f)) with false. cbv iota.
  destruct (dsign z); lia.
Qed.

Lemma nextafter_max f x : goodf f -> number f x ->
  nextafter f x (dbl_max f) = (if dbl_leb (dbl_max f) x then dbl_max f else above f x).
Proof.
  intros G N. assert (L : dbl_leb x (dbl_max f) = true) by (apply (leb_sval f); auto using max_number; apply (sval_max f x G N)).
  unfold nextafter. rewrite L. destruct x; try (destruct N as [_ []]); reflexivity.
Qed.

Lemma opp_leb f x y : number f x -> number f y -> dbl_leb (dopp x) (dopp y) = dbl_leb y x.
Proof.
  intros NX NY. apply Bool.eq_iff_eq_true. rewrite (leb_sval f), (leb_sval f) by auto using number_opp. rewrite !sval_opp. lia.
Qed.

Lemma nextafter_min f x : goodf f -> number f x ->
  nextafter f x (dopp (dbl_max f)) = dopp (nextafter f (dopp x) (dbl_max f)).
Proof.
  intros G N. rewrite nextafter_max by auto using number_opp.
  assert (L : dbl_leb (dopp (dbl_max f)) x = true).
  { apply (leb_sval f); auto using max_number, number_opp. rewrite sval_opp. apply (sval_max f x G N). }
  assert (X : nextafter f x (dopp (dbl_max f)) =
    (if dbl_leb x (dopp (dbl_max f)) then (if dbl_leb (dopp (dbl_max f)) x then dopp (dbl_max f) else above f x) else below f x))
    by (destruct x; try (destruct N as [_ []]); reflexivity).
  rewrite X, L. rewrite <- (opp_leb f (dopp (dbl_max f)) x) by auto using max_number, number_opp. rewrite dopp_inv.
  destruct (dbl_leb (dbl_max f) (dopp x)); reflexivity.
Qed.

(** The upper limit. *)
Lemma upper f x y : goodf f -> number f x -> number f y ->
  dbl_leb y (nextafter f x (dbl_max f)) = true <-> (forall z, number f z -> ~ (sval f x < sval f z < sval f y)).
Proof.
  intros G NX NY. rewrite nextafter_max by assumption. destruct (dbl_leb (dbl_max f) x) eqn:E.
  - apply (leb_sval f) in E; auto using max_number. split.
    + intros _ z NZ C. pose proof (sval_max f z G NZ). lia.
    + intros _. apply (leb_sval f); auto using max_number. apply (sval_max f y G NY).
  - assert (NM : sval f x <> sval f (dbl_max f)).
    { intros E'. assert (dbl_leb (dbl_max f) x = true) by (apply (leb_sval f); auto using max_number; lia). congruence. }
    destruct (above_step f x G NX NM) as (N & L & LW). rewrite (leb_sval f) by assumption. split.
    + intros C z NZ [C1 C2]. specialize (LW z NZ C1). lia.
    + intros C. destruct (Z.le_gt_cases (sval f y) (sval f (above f x))) as [K|K]; [exact K|].
      exfalso. apply (C _ N). lia.
Qed.

Lemma next_number f x : goodf f -> number f x -> number f (nextafter f x (dbl_max f)).
Proof.
  intros G NX. rewrite nextafter_max by assumption. destruct (dbl_leb (dbl_max f) x) eqn:E; [now apply max_number|].
  apply above_step; auto. intros E'. assert (dbl_leb (dbl_max f) x = true) by (apply (leb_sval f); auto using max_number; lia). congruence.
Qed.

Lemma lower f x y : goodf f -> number f x -> number f y ->
  dbl_leb (nextafter f x (dopp (dbl_max f))) y = true <-> (forall z, number f z -> ~ (sval f y < sval f z < sval f x)).
Proof.
  intros G NX NY. rewrite nextafter_min by assumption. rewrite <- (dopp_inv y) at 1.
  rewrite (opp_leb f) by auto using next_number, number_opp. rewrite upper by auto using number_opp. rewrite !sval_opp. split.
  - intros H z NZ C. apply (H (dopp z)); [now apply number_opp|]. rewrite sval_opp. lia.
  - intros H z NZ C. apply (H (dopp z)); [now apply number_opp|]. rewrite sval_opp. lia.
Qed.

Lemma extreme_max f s y : goodf f -> dbl_valid f y = true -> extreme f s y <-> y = (if s then dopp (dbl_max f) else dbl_max f).
Proof.
  intros G V. split.
  - intros (N & S1 & M). pose proof (M _ (max_number f G)). pose proof (max_units f y G N).
    assert (U : units f y = units f (dbl_max f)) by lia. destruct N as [_ F].
    destruct y as [t|t|t|t m e]; try destruct F.
    + exfalso. unfold units at 1 in U. cbn [mant] in U. destruct G as [GP GE]. unfold units, dbl_max in U. cbn [mant expo] in U.
      assert (P : 0 < 2 ^ (f_emax f - f_emin f)) by (apply pow2_pos; lia). nia.
    + cbn [dsign] in S1. subst t.
      assert (X : DFin false m e = dbl_max f) by (apply (units_inj f); [destruct G; lia|exact V|apply max_number; exact G|exact Logic.I|exact Logic.I|reflexivity|exact U]).
      destruct s; [rewrite <- X|]; auto.
  - intros ->. split; [destruct s; auto using max_number, number_opp|]. split; [destruct s; reflexivity|].
    intros z N. replace (units f (if s then dopp (dbl_max f) else dbl_max f)) with (units f (dbl_max f)) by (destruct s; reflexivity).
    now apply max_units.
Qed.

Lemma leb_max_both f y : goodf f -> dbl_valid f y = true ->
  (dbl_leb (dbl_max f) y && dbl_leb y (dbl_max f) = true <-> y = dbl_max f) /\
  (dbl_leb (dopp (dbl_max f)) y && dbl_leb y (dopp (dbl_max f)) = true <-> y = dopp (dbl_max f)).
Proof.
  intros G V. pose proof (max_number f G) as NM. pose proof (number_opp _ _ NM) as NO.
  assert (R : forall d, number f d -> dbl_leb d d = true) by (intros d N; apply (leb_sval f); auto; lia).
  assert (U : forall d, number f d -> units f d <> 0 -> dbl_leb d y && dbl_leb y d = true -> y = d).
  { intros d N NZ E. apply andb_true_iff in E as [E1 E2]. destruct y as [s|s|s|s m e].
    - assert (NY : number f (DZero s)) by (split; auto; exact Logic.I). apply (leb_sval f) in E1; auto. apply (leb_sval f) in E2; auto.
      rewrite sval_zero in *. unfold sval in *. destruct (dsign d); lia.
    - exfalso. destruct d as [?|?|?|? ? ?]; try (exact (proj2 N)); destruct s; cbn in E1, E2; congruence.
    - exfalso. destruct d as [?|[]|?|? ? ?]; cbn in E1; congruence.
    - assert (NY : number f (DFin s m e)) by (split; auto; exact Logic.I). apply (leb_sval f) in E1; auto. apply (leb_sval f) in E2; auto.
      assert (E : sval f (DFin s m e) = sval f d) by lia. pose proof (units_nonneg f d). pose proof (units_nonneg f (DFin s m e)).
      unfold sval in E. assert (K : dsign (DFin s m e) = dsign d) by (destruct (dsign (DFin s m e)), (dsign d); try reflexivity; lia).
      rewrite K in E. apply (units_inj f); [destruct G; lia|apply NY|apply N|apply NY|apply N|exact K|destruct (dsign d); lia]. }
  assert (Z0 : units f (dbl_max f) <> 0).
  { intros E. pose proof (max_units f (DFin false 1 (f_emin f)) G) as M. destruct G as [GP GE].
    assert (N1 : number f (DFin false 1 (f_emin f))).
    { split; [|exact Logic.I]. apply valid_fin. pose proof (half_pow (f_prec f)). pose proof (half_pow (f_prec f - 1)). pose proof (pow2_pos (f_prec f - 1 - 1)). lia. }
    specialize (M N1). unfold units at 1 in M. cbn [mant expo] in M. rewrite Z.sub_diag in M. change (1 * 2 ^ 0) with 1 in M. lia. }
  split; (split; [apply U; auto|intros ->; rewrite R by assumption; reflexivity]).
Qed.

Lemma equal_close f x y : goodf f -> dbl_valid f x = true -> dbl_valid f y = true ->
  equal_number f x y = true <-> close f x y.
Proof.
  intros G VX VY. unfold equal_number.
  assert (F : finite x -> dbl_leb (nextafter f x (dopp (dbl_max f))) y && dbl_leb y (nextafter f x (dbl_max f)) = true <->
    finite y /\ neighbours f x y).
  { intros FX. assert (NX : number f x) by (split; assumption). rewrite andb_true_iff.
    pose proof (next_number f x G NX) as NU. pose proof (next_number f _ G (number_opp _ _ NX)) as NL.
    split.
    - intros [E1 E2]. assert (FY : finite y).
      { destruct y as [s|s|s|s m e]; try exact Logic.I.
        - exfalso. rewrite nextafter_min in E1 by assumption.
          destruct (nextafter f (dopp x) (dbl_max f)); try (exact (proj2 NL));
          destruct (nextafter f x (dbl_max f)); try (exact (proj2 NU)); destruct s; cbn in E1, E2; congruence.
        - exfalso. destruct (nextafter f x (dbl_max f)); try (exact (proj2 NU)); cbn in E2; congruence. }
      split; [exact FY|]. assert (NY : number f y) by (split; assumption). pose proof (proj1 (lower f x y G NX NY) E1). pose proof (proj1 (upper f x y G NX NY) E2). split; auto.
    - intros [FY H]. assert (NY : number f y) by (split; assumption). split; [apply lower|apply upper]; auto; intros z NZ; apply (H z NZ). }
  destruct x as [s|s|s|s m e]; cbn [close]; try (apply F; exact Logic.I).
  - rewrite extreme_max by assumption. destruct (leb_max_both f y G VY) as [M1 M2].
    destruct s; cbn [nextafter dbl_max dopp dbl_leb above below negb];
      change (DFin true (Z.to_pos (2 ^ f_prec f - 1)) (f_emax f)) with (dopp (dbl_max f));
      change (DFin false (Z.to_pos (2 ^ f_prec f - 1)) (f_emax f)) with (dbl_max f); assumption.
  - split; [|intros []]. cbn [nextafter dbl_leb]. intros E. discriminate E.
Qed.

Lemma equal_self f x : goodf f -> number f x -> equal_number f x x = true.
Proof. intros G N. apply equal_close; [assumption|apply N|apply N|]. destruct x; try (exfalso; exact (proj2 N)); (split; [exact Logic.I|intros z NZ; lia]). Qed.

Lemma equal_sym f x y : goodf f -> number f x -> number f y -> equal_number f x y = equal_number f y x.
Proof.
  intros G NX NY. apply Bool.eq_iff_eq_true. rewrite !equal_close by (assumption || apply NX || apply NY).
  assert (C : forall a c, number f a -> number f c -> close f a c <-> neighbours f a c).
  { intros a c NA NC. destruct a; try (exfalso; exact (proj2 NA)); cbn [close]; pose proof (proj2 NC); tauto. }
  rewrite !C by assumption. unfold neighbours. split; intros H z NZ; specialize (H z NZ); tauto.
Qed.

Lemma empty_zero f x : goodf f -> dbl_valid f x = true ->
  empty_number f x = true <-> match x with DZero _ => True | DFin _ m e => m = 1%positive /\ e = f_emin f | _ => False end.
Proof.
  intros G V. unfold empty_number. rewrite equal_close by (assumption || reflexivity).
  destruct x as [s|s|s|s m e]; cbn [close].
  - split; [tauto|intros _]. split; [exact Logic.I|]. intros z NZ. rewrite !sval_zero. lia.
  - split; [|intros []]. rewrite extreme_max by (assumption || reflexivity). destruct s; intros E; discriminate E.
  - tauto.
  - assert (N1 : forall t, number f (DFin t 1 (f_emin f))).
    { intros t. split; [|exact Logic.I]. apply valid_fin. destruct G as [GP GE]. pose proof (half_pow (f_prec f)). pose proof (half_pow (f_prec f - 1)). pose proof (pow2_pos (f_prec f - 1 - 1)). lia. }
    pose proof V as V'. apply valid_fin in V' as (V1 & V2 & V3).
    assert (P : 0 < 2 ^ (e - f_emin f)) by (apply pow2_pos; lia).
    split.
    + intros [_ H]. specialize (H _ (N1 s)). rewrite !sval_zero, !sval_fin, Z.sub_diag in H. change (1 * 2 ^ 0) with 1 in H.
      assert (U : Zpos m * 2 ^ (e - f_emin f) = 1) by (destruct s; nia).
      assert (Zpos m = 1) by nia. split; [lia|].
      destruct V3 as [V3|V3]; [|exact V3]. destruct G as [GP GE]. pose proof (half_pow (f_prec f - 1)). pose proof (pow2_pos (f_prec f - 1 - 1)). lia.
    + intros [-> ->]. split; [exact Logic.I|]. intros z NZ. rewrite sval_zero, sval_fin, Z.sub_diag. change (1 * 2 ^ 0) with 1. destruct s; lia.
Qed.

Definition ieee (f : fmt) : Prop := f = binary64 \/ f = binary32.
Lemma ieee_good f : ieee f -> goodf f.
Proof. intros [->| ->]; [exact good64|exact good32]. Qed.

Lemma ieee_equal f x y : f = binary64 \/ f = binary32 -> dbl_valid f x = true -> dbl_valid f y = true ->
  equal_number f x y = true <-> close f x y.
Proof. intros I. apply equal_close, ieee_good, I. Qed.

Lemma ieee_numbers f x y : f = binary64 \/ f = binary32 -> number f x -> number f y ->
  equal_number f x x = true /\ equal_number f x y = equal_number f y x.
Proof. intros I NX NY. pose proof (ieee_good f I). split; [now apply equal_self|now apply equal_sym]. Qed.

Lemma ieee_empty f x : f = binary64 \/ f = binary32 -> dbl_valid f x = true ->
  empty_number f x = true <-> match x with DZero _ => True | DFin _ m e => m = 1%positive /\ e = f_emin f | _ => False end.
Proof. intros I. apply empty_zero, ieee_good, I. Qed.

Lemma not_reflexive s : dbl_valid binary64 (DInf s) = true /\ equal_number binary64 (DInf s) (DInf s) = false.
Proof. destruct s; split; vm_compute; reflexivity. Qed.

Lemma not_symmetric : exists x, number binary64 x /\ equal_number binary64 (DInf false) x = true /\ equal_number binary64 x (DInf false) = false.
Proof. exists (dbl_max binary64). split; [apply max_number, good64|]. split; vm_compute; reflexivity. Qed.

(** 1, and the two numbers that follow. *)
Definition one (k : Z) : dbl := DFin false (Z.to_pos (2 ^ 52 + k)) (-52).
Lemma not_transitive : number binary64 (one 0) /\ number binary64 (one 1) /\ number binary64 (one 2) /\
  equal_number binary64 (one 0) (one 1) = true /\ equal_number binary64 (one 1) (one 2) = true /\
  equal_number binary64 (one 0) (one 2) = false /\ dbl_eqb (one 0) (one 1) = false.
Proof. repeat split; vm_compute; reflexivity. Qed.

Lemma not_empty : exists x, number binary64 x /\ sval binary64 x <> 0 /\ empty_number binary64 x = true.
Proof. exists (DFin false 1 (-1074)). split; [split; reflexivity|]. split; [vm_compute; congruence|vm_compute; reflexivity]. Qed.

(** ** The formats of IEEE 754 *)
Lemma ieee_formats s m e :
  (dbl_valid binary64 (DFin s m e) = true <->
   (4503599627370496 <= Zpos m <= 9007199254740991 /\ -1074 <= e <= 971) \/ (Zpos m < 4503599627370496 /\ e = -1074)) /\
  (dbl_valid binary32 (DFin s m e) = true <->
   (8388608 <= Zpos m <= 16777215 /\ -149 <= e <= 104) \/ (Zpos m < 8388608 /\ e = -149)).
Proof.
  cbn [dbl_valid binary64 binary32 f_prec f_emin f_emax].
  change (2 ^ 53) with 9007199254740992. change (2 ^ (53 - 1)) with 4503599627370496. change (2 ^ 24) with 16777216. change (2 ^ (24 - 1)) with 8388608.
  rewrite !andb_true_iff, !orb_true_iff, !Z.ltb_lt, !Z.leb_le, !Z.eqb_eq. lia.
Qed.
