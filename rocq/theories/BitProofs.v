(** Bit operations as arithmetic. *)
From Verif Require Import Bytes BaseProofs.

(** Exhaustive check on a small interval. *)
Lemma range_check (P : Z -> bool) (n : nat) :
  forallb P (map Z.of_nat (seq 0 n)) = true -> forall z, 0 <= z < Z.of_nat n -> P z = true.
Proof.
  intros H z L. rewrite forallb_forall in H. apply H.
  apply in_map_iff. exists (Z.to_nat z). split; [lia|]. apply in_seq. lia.
Qed.

Lemma land_mod x k : 0 <= k -> Z.land x (2 ^ k - 1) = x mod 2 ^ k.
Proof.
  intros. rewrite <- Z.ones_equiv || idtac.
  replace (2 ^ k - 1) with (Z.ones k) by (rewrite Z.ones_equiv; lia).
  apply Z.land_ones; auto.
Qed.

Lemma land63 x : Z.land x 63 = x mod 64.  Proof. apply (land_mod x 6); lia. Qed.
Lemma land31 x : Z.land x 31 = x mod 32.  Proof. apply (land_mod x 5); lia. Qed.
Lemma land15 x : Z.land x 15 = x mod 16.  Proof. apply (land_mod x 4); lia. Qed.
Lemma land7 x : Z.land x 7 = x mod 8.  Proof. apply (land_mod x 3); lia. Qed.
Lemma land3 x : Z.land x 3 = x mod 4.  Proof. apply (land_mod x 2); lia. Qed.
Lemma land255 x : Z.land x 255 = x mod 256.  Proof. apply (land_mod x 8); lia. Qed.
Lemma land1023 x : Z.land x 1023 = x mod 1024.  Proof. apply (land_mod x 10); lia. Qed.

Lemma shiftr6 x : Z.shiftr x 6 = x / 64.  Proof. rewrite Z.shiftr_div_pow2; [reflexivity|lia]. Qed.
Lemma shiftr12 x : Z.shiftr x 12 = x / 4096.  Proof. rewrite Z.shiftr_div_pow2; [reflexivity|lia]. Qed.
Lemma shiftr18 x : Z.shiftr x 18 = x / 262144.  Proof. rewrite Z.shiftr_div_pow2; [reflexivity|lia]. Qed.
Lemma shiftr10 x : Z.shiftr x 10 = x / 1024.  Proof. rewrite Z.shiftr_div_pow2; [reflexivity|lia]. Qed.
Lemma shiftr2 x : Z.shiftr x 2 = x / 4.  Proof. rewrite Z.shiftr_div_pow2; [reflexivity|lia]. Qed.
Lemma shiftr4 x : Z.shiftr x 4 = x / 16.  Proof. rewrite Z.shiftr_div_pow2; [reflexivity|lia]. Qed.
Lemma shiftl6 x : Z.shiftl x 6 = x * 64.  Proof. rewrite Z.shiftl_mul_pow2; [reflexivity|lia]. Qed.
Lemma shiftl12 x : Z.shiftl x 12 = x * 4096.  Proof. rewrite Z.shiftl_mul_pow2; [reflexivity|lia]. Qed.
Lemma shiftl18 x : Z.shiftl x 18 = x * 262144.  Proof. rewrite Z.shiftl_mul_pow2; [reflexivity|lia]. Qed.
Lemma shiftl10 x : Z.shiftl x 10 = x * 1024.  Proof. rewrite Z.shiftl_mul_pow2; [reflexivity|lia]. Qed.
Lemma shiftl2 x : Z.shiftl x 2 = x * 4.  Proof. rewrite Z.shiftl_mul_pow2; [reflexivity|lia]. Qed.
Lemma shiftl4 x : Z.shiftl x 4 = x * 16.  Proof. rewrite Z.shiftl_mul_pow2; [reflexivity|lia]. Qed.

(** Disjoint [lor] is addition: [hi] is a multiple of [2^k] and [lo] below it. *)
Lemma lor_add hi lo k : 0 <= k -> 0 <= lo < 2 ^ k -> Z.lor (hi * 2 ^ k) lo = hi * 2 ^ k + lo.
Proof.
  intros Hk Hlo.
  rewrite <- (Z.shiftl_mul_pow2 hi k) by lia.
  assert (Z.land (Z.shiftl hi k) lo = 0) as D.
  { apply Z.bits_inj'. intros m Hm. rewrite Z.land_spec, Z.bits_0.
    destruct (Z.ltb_spec m k) as [L|G].
    - rewrite Z.shiftl_spec_low by lia. reflexivity.
    - destruct (Z.eq_dec lo 0) as [->|N]; [rewrite Z.bits_0; apply andb_false_r|].
      rewrite (Z.bits_above_log2 lo m); [apply andb_false_r|lia|].
      apply Z.lt_le_trans with k; [|lia]. apply Z.log2_lt_pow2; lia. }
  rewrite <- Z.lxor_lor by exact D.
  rewrite Z.add_nocarry_lxor; [reflexivity|exact D].
Qed.

Lemma lor192 x : 0 <= x < 64 -> Z.lor 192 x = 192 + x.  Proof. apply (lor_add 3 x 6); lia. Qed.
Lemma lor128 x : 0 <= x < 128 -> Z.lor 128 x = 128 + x.  Proof. apply (lor_add 1 x 7); lia. Qed.
Lemma lor224 x : 0 <= x < 32 -> Z.lor 224 x = 224 + x.  Proof. apply (lor_add 7 x 5); lia. Qed.
Lemma lor240 x : 0 <= x < 16 -> Z.lor 240 x = 240 + x.  Proof. apply (lor_add 15 x 4); lia. Qed.
