(** Numbers: decimal numerals and the conversion of numerals to machine integers,
    independent of the model. *)
From Verif Require Import Bytes SpecJson.

(** Value of a sequence of decimal digits. *)
Definition dval (ds : bytes) : Z := fold_left (fun a c => 10 * a + (code c - 48)) ds 0.

(** [t] is the decimal numeral of [z]: no leading zeros, a minus sign if negative. *)
Definition numeral (z : Z) (t : bytes) : Prop :=
  exists ds, int_part ds /\ dval ds = Z.abs z /\ t = (if z <? 0 then b "-" else []) ++ ds.

(** Widths of the integer types of generated code. *)
Definition int_width (bits : Z) : Prop := bits = 8 \/ bits = 32 \/ bits = 64.
Definition int_min (sg : bool) (bits : Z) : Z := if sg then - 2 ^ (bits - 1) else 0.
Definition int_max (sg : bool) (bits : Z) : Z := if sg then 2 ^ (bits - 1) - 1 else 2 ^ bits - 1.

(** The 64-bit intermediate value for a numeral with sign [neg] and integer part [v]:
    signed types saturate; unsigned types saturate the magnitude, then negate modulo 2^64. *)
Definition wide (sg neg : bool) (v : Z) : Z :=
  if sg then (if neg then Z.max (- 2 ^ 63) (- v) else Z.min (2 ^ 63 - 1) v)
  else if 2 ^ 64 - 1 <? v then 2 ^ 64 - 1
  else if neg then (- v) mod 2 ^ 64 else v.
