(** Rounding of a non-negative fraction to a floating point format, to nearest with ties
    to even, as in IEEE 754; and the value of a JSON number. *)
From Verif Require Import Bytes Dbl SpecJson SpecNum.

(** Sign, mantissa and exponent of a value; zero has mantissa 0. *)
Definition dsign (d : dbl) : bool :=
  match d with DZero s | DInf s | DNan s | DFin s _ _ => s end.
Definition mant (d : dbl) : Z := match d with DFin _ m _ => Zpos m | _ => 0 end.
Definition expo (f : fmt) (d : dbl) : Z := match d with DFin _ _ e => e | _ => f_emin f end.
Definition finite (d : dbl) : Prop :=
  match d with DZero _ | DFin _ _ _ => True | _ => False end.

(** The magnitude counted in units of 2^emin, of which every finite value of the format is
    a whole number. *)
Definition units (f : fmt) (d : dbl) : Z := mant d * 2 ^ (expo f d - f_emin f).

(** |d - num/den|, times den, in the same units. *)
Definition dist (f : fmt) (num den : Z) (d : dbl) : Z :=
  Z.abs (units f d * den - num * 2 ^ (- f_emin f)).

(** num/den is at least (2^prec - 1/2) * 2^emax: half a unit in the last place above the
    greatest finite value. *)
Definition too_large (f : fmt) (num den : Z) : Prop :=
  (2 ^ (f_prec f + 1) - 1) * 2 ^ (f_emax f - f_emin f) * den <= 2 * (num * 2 ^ (- f_emin f)).

(** [d] is num/den (negated if [s]) correctly rounded to the format. *)
Definition nearest (f : fmt) (s : bool) (num den : Z) (d : dbl) : Prop :=
  dbl_valid f d = true /\ dsign d = s /\
  match d with
  | DNan _ => False
  | DInf _ => too_large f num den
  | _ => ~ too_large f num den /\
      forall d', dbl_valid f d' = true -> finite d' ->
        dist f num den d <= dist f num den d' /\
        (dist f num den d = dist f num den d' -> units f d = units f d' \/ Z.even (mant d) = true)
  end.

(** The fraction of a JSON number, with its digits. *)
Inductive frac_text : bytes -> bytes -> Prop :=
  | ft_none : frac_text [] []
  | ft_some d : digits1 d -> frac_text d (b "." ++ d).

(** The exponent of a JSON number, with its value. *)
Inductive exp_text : Z -> bytes -> Prop :=
  | et_none : exp_text 0 []
  | et_plain c d : c = "e"%char \/ c = "E"%char -> digits1 d -> exp_text (dval d) (c :: d)
  | et_plus c d : c = "e"%char \/ c = "E"%char -> digits1 d -> exp_text (dval d) (c :: b "+" ++ d)
  | et_minus c d : c = "e"%char \/ c = "E"%char -> digits1 d -> exp_text (- dval d) (c :: b "-" ++ d).

(** The decimal value: digits * 10^k as a fraction. *)
Definition dec_num (ds : bytes) (k : Z) : Z := dval ds * 10 ^ Z.max 0 k.
Definition dec_den (k : Z) : Z := 10 ^ Z.max 0 (- k).
