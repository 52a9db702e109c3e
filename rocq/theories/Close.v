(** Model of the comparison of plain numbers (json-number.hh:101-112, 160-162).  Members of
    generated classes are never compared with it: they are [field<T>]. *)
From Verif Require Import Bytes Num Dbl.

(** C++ [<=] on floating point values: false if one is a NaN; zeros are equal. *)
Definition sgn_mant (d : dbl) : Z :=
  match d with DFin s m _ => if s then Zneg m else Zpos m | _ => 0 end.
Definition dexp (d : dbl) : Z := match d with DFin _ _ e => e | _ => 0 end.
Definition dbl_leb (x y : dbl) : bool :=
  match x, y with
  | DNan _, _ | _, DNan _ => false
  | DInf true, _ | _, DInf false => true
  | DInf false, _ | _, DInf true => false
  | _, _ =>
      let e := Z.min (dexp x) (dexp y) in
      sgn_mant x * 2 ^ (dexp x - e) <=? sgn_mant y * 2 ^ (dexp y - e)
  end.

Definition dopp (d : dbl) : dbl :=
  match d with
  | DZero s => DZero (negb s) | DInf s => DInf (negb s) | DNan s => DNan (negb s)
  | DFin s m e => DFin (negb s) m e
  end.

(** [std::numeric_limits<T>::max()]; [lowest()] is its opposite. *)
Definition dbl_max (f : fmt) : dbl := DFin false (Z.to_pos (2 ^ f_prec f - 1)) (f_emax f).

(** The next value of greater, and of smaller, magnitude. *)
Definition away (f : fmt) (s : bool) (m : positive) (e : Z) : dbl :=
  if Zpos m + 1 <? 2 ^ f_prec f then DFin s (m + 1) e
  else if e <? f_emax f then DFin s (Z.to_pos (2 ^ (f_prec f - 1))) (e + 1) else DInf s.
Definition closer (f : fmt) (s : bool) (m : positive) (e : Z) : dbl :=
  if (Zpos m =? 2 ^ (f_prec f - 1)) && (f_emin f <? e) then DFin s (Z.to_pos (2 ^ f_prec f - 1)) (e - 1)
  else match m with xH => DZero s | _ => DFin s (Pos.pred m) e end.

(** The next greater, and the next smaller, value. *)
Definition above (f : fmt) (d : dbl) : dbl :=
  match d with
  | DZero _ => DFin false 1 (f_emin f)
  | DFin false m e => away f false m e
  | DFin true m e => closer f true m e
  | DInf true => dopp (dbl_max f)
  | _ => d
  end.
Definition below (f : fmt) (d : dbl) : dbl := dopp (above f (dopp d)).

(** [std::nextafter] (C11 7.12.11.3). *)
Definition nextafter (f : fmt) (x y : dbl) : dbl :=
  match x, y with
  | DNan _, _ => x
  | _, DNan _ => y
  | _, _ =>
      if dbl_leb x y then (if dbl_leb y x then y else above f x) else below f x
  end.

(** json-number.hh:101-106. *)
Definition equal_number (f : fmt) (v1 v2 : dbl) : bool :=
  dbl_leb (nextafter f v1 (dopp (dbl_max f))) v2 && dbl_leb v2 (nextafter f v1 (dbl_max f)).
(** json-number.hh:108-112: integral types. *)
Definition equal_integer (v1 v2 : Z) : bool := v1 =? v2.
(** json-number.hh:160. *)
Definition empty_number (f : fmt) (v : dbl) : bool := equal_number f v (DZero false).
