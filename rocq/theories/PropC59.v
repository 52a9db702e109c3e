(** C59: comparison of plain floating point numbers. *)
From Verif Require Import Bytes Dbl SpecRound Close SpecClose CloseProofs.

(** The finite numbers of double and float (IEEE 754-2008, 3.4): normal and subnormal. *)
Theorem C59_formats : forall s m e,
  (dbl_valid binary64 (DFin s m e) = true <->
   ((4503599627370496 <= Zpos m <= 9007199254740991 /\ -1074 <= e <= 971) \/ (Zpos m < 4503599627370496 /\ e = -1074))%Z) /\
  (dbl_valid binary32 (DFin s m e) = true <->
   ((8388608 <= Zpos m <= 16777215 /\ -149 <= e <= 104) \/ (Zpos m < 8388608 /\ e = -149))%Z).
Proof. exact ieee_formats. Qed.
Print Assumptions C59_formats.

(** [equal_number] holds between a number and itself or a neighbour, and between an infinity
    and the extreme number of its sign. *)
Theorem C59_equal : forall f x y, f = binary64 \/ f = binary32 -> dbl_valid f x = true -> dbl_valid f y = true ->
  equal_number f x y = true <-> close f x y.
Proof. exact ieee_equal. Qed.
Print Assumptions C59_equal.

(** Between finite numbers it is reflexive and symmetric. *)
Theorem C59_numbers : forall f x y, f = binary64 \/ f = binary32 -> number f x -> number f y ->
  equal_number f x x = true /\ equal_number f x y = equal_number f y x.
Proof. exact ieee_numbers. Qed.
Print Assumptions C59_numbers.

(** Empty are the zeros and the two numbers of least magnitude. *)
Theorem C59_empty : forall f x, f = binary64 \/ f = binary32 -> dbl_valid f x = true ->
  empty_number f x = true <-> match x with DZero _ => True | DFin _ m e => m = 1%positive /\ e = f_emin f | _ => False end.
Proof. exact ieee_empty. Qed.
Print Assumptions C59_empty.

(** It is not an equality. *)
Theorem C59_reflexive_refuted : forall s, dbl_valid binary64 (DInf s) = true /\ equal_number binary64 (DInf s) (DInf s) = false.
Proof. exact not_reflexive. Qed.
Print Assumptions C59_reflexive_refuted.

Theorem C59_symmetric_refuted : exists x, number binary64 x /\
  equal_number binary64 (DInf false) x = true /\ equal_number binary64 x (DInf false) = false.
Proof. exact not_symmetric. Qed.
Print Assumptions C59_symmetric_refuted.

Theorem C59_transitive_refuted : number binary64 (one 0) /\ number binary64 (one 1) /\ number binary64 (one 2) /\
  equal_number binary64 (one 0) (one 1) = true /\ equal_number binary64 (one 1) (one 2) = true /\
  equal_number binary64 (one 0) (one 2) = false /\ dbl_eqb (one 0) (one 1) = false.
Proof. exact not_transitive. Qed.
Print Assumptions C59_transitive_refuted.

(** A number that is not zero is called empty. *)
Theorem C59_zero_refuted : exists x, number binary64 x /\ sval binary64 x <> 0%Z /\ empty_number binary64 x = true.
Proof. exact not_empty. Qed.
Print Assumptions C59_zero_refuted.

Example C59_applies : number binary64 (DFin true 3 (-1074)) /\ dbl_valid binary32 (DInf true) = true /\
  equal_number binary64 (DFin true 3 (-1074)) (DFin true 2 (-1074)) = true /\
  equal_number binary32 (DInf true) (DFin true 16777215 104) = true /\
  equal_number binary32 (DFin false 8388608 0) (DFin false 16777215 (-1)) = true.
Proof. repeat split; vm_compute; reflexivity. Qed.
