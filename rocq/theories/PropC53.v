(** C53: decimal fractions are read correctly rounded into doubles, and twice rounded into
    floats. *)
From Verif Require Import Bytes Dbl Types Stream Tokenizer Write Read SpecJson SpecNum SpecDbl SpecRound RoundProofs.

(** Every JSON number, of any length and exponent, read into a double, between any white
    space, gives the double nearest to its value: ties to the even mantissa, infinity from
    half a unit above the greatest double on, the sign kept for zero.  [nearest] holds of
    one double only. *)
Theorem C53_double : forall neg i fd f x e v w1 w2 po, int_part i -> frac_text fd f -> exp_text x e ->
  has_ty (TField PDouble) v = true -> ws w1 -> ws w2 ->
  exists d po', deserialize (TField PDouble) v (w1 ++ ((if neg : bool then b "-" else []) ++ i ++ f ++ e) ++ w2) po
      = Some (true, VField false (VDbl d), po') /\
    forall d', nearest binary64 neg (dec_num (i ++ fd) (x - Z.of_nat (length fd))) (dec_den (x - Z.of_nat (length fd))) d'
      <-> d' = d.
Proof. exact double_read. Qed.
Print Assumptions C53_double.

(** Read into a float: the nearest double is rounded again, to the nearest float. *)
Theorem C53_float : forall neg i fd f x e v w1 w2 po, int_part i -> frac_text fd f -> exp_text x e ->
  has_ty (TField PFloat) v = true -> ws w1 -> ws w2 ->
  exists d1 d po', deserialize (TField PFloat) v (w1 ++ ((if neg : bool then b "-" else []) ++ i ++ f ++ e) ++ w2) po
      = Some (true, VField false (VDbl d), po') /\
    nearest binary64 neg (dec_num (i ++ fd) (x - Z.of_nat (length fd))) (dec_den (x - Z.of_nat (length fd))) d1 /\
    match d1 with
    | DFin s m k => forall d', nearest binary32 s (Zpos m * 2 ^ Z.max 0 k) (2 ^ Z.max 0 (- k)) d' <-> d' = d
    | _ => d = d1
    end.
Proof. exact float_read. Qed.
Print Assumptions C53_float.

(** So the float read is not always the one nearest to the numeral. *)
Theorem C53_float_nearest_refuted : exists i fd f d d',
  int_part i /\ frac_text fd f /\
  deserialize (TField PFloat) (VField true (VDbl (DZero false))) (i ++ f) None = Some (true, VField false (VDbl d), None) /\
  nearest binary32 false (dec_num (i ++ fd) (- Z.of_nat (length fd))) (dec_den (- Z.of_nat (length fd))) d' /\
  d <> d'.
Proof. exact twice_refuted. Qed.
Print Assumptions C53_float_nearest_refuted.

(** "0.1", "-1e400" and "5e-324" meet the hypotheses. *)
Example C53_applies :
  int_part (b "0") /\ frac_text (b "1") (b ".1") /\ exp_text 400 (b "e400") /\ exp_text (-324) (b "e-324") /\
  has_ty (TField PDouble) (VField true (VDbl (DZero false))) = true /\
  deserialize (TField PDouble) (VField true (VDbl (DZero false))) (b " 0.1") None
  = Some (true, VField false (VDbl (DFin false 7205759403792794 (-56))), None) /\
  deserialize (TField PDouble) (VField true (VDbl (DZero false))) (b "-1e400") None
  = Some (true, VField false (VDbl (DInf true)), None) /\
  deserialize (TField PDouble) (VField true (VDbl (DZero false))) (b "5e-324") None
  = Some (true, VField false (VDbl (DFin false 1 (-1074))), None).
Proof. exact round_samples. Qed.
