(** Integers: [strtol], [strtoul], casts (source/cpp/json-number.hh:55-99). *)
From Verif Require Import Bytes.

(** C [isspace] in the "C" locale. *)
Definition is_space (c : ascii) : bool :=
  (code c =? 32) || ((9 <=? code c) && (code c <=? 13)).

(** Common part of [strtol]/[strtoul] with base 10 on a C string: leading white
    space, optional sign, longest sequence of digits.  Result: sign, value of
    the digits (0 if there are none), the digits, and the text after them. *)
Definition strto_split (text : bytes) : bool * bytes * bytes :=
  let t1 := snd (span is_space (cstr text)) in
  let '(neg, t2) :=
    match t1 with
    | c :: r => if Ascii.eqb c "-" then (true, r)
                else if Ascii.eqb c "+" then (false, r) else (false, t1)
    | [] => (false, t1)
    end in
  let '(ds, rest) := span is_digit t2 in (neg, ds, rest).

Definition LONG_MAX : Z := 2 ^ 63 - 1.
Definition LONG_MIN : Z := - 2 ^ 63.
Definition ULONG_MAX : Z := 2 ^ 64 - 1.

(** [strtol(text, nullptr, 10)], LP64: saturates. *)
Definition strtol (text : bytes) : Z :=
  let '(neg, ds, _) := strto_split text in
  let v := digits_val ds in
  if neg then Z.max LONG_MIN (- v) else Z.min LONG_MAX v.

(** [strtoul(text, nullptr, 10)], LP64: saturates, a minus sign negates modulo 2^64. *)
Definition strtoul (text : bytes) : Z :=
  let '(neg, ds, _) := strto_split text in
  let v := digits_val ds in
  if ULONG_MAX <? v then ULONG_MAX
  else if neg then (- v) mod 2 ^ 64 else v.

(** [static_cast<T>] to a two's complement type of [bits] bits. *)
Definition cast_int (sg : bool) (bits : Z) (z : Z) : Z :=
  if sg then (z + 2 ^ (bits - 1)) mod 2 ^ bits - 2 ^ (bits - 1) else z mod 2 ^ bits.

(** json-number.hh:55-73, [string_to_number<T>] for integral [T] (non-Windows). *)
Definition string_to_int (sg : bool) (bits : Z) (text : bytes) : Z :=
  if sg then cast_int true bits (strtol text) else cast_int false bits (strtoul text).

(** json-number.hh:95-99, [number_to_string] for integral [T]. *)
Definition int_to_string (z : Z) : bytes := dec z.

(** Range of an integer type. *)
Definition in_range (sg : bool) (bits : Z) (z : Z) : bool :=
  if sg then (- 2 ^ (bits - 1) <=? z) && (z <? 2 ^ (bits - 1))
  else (0 <=? z) && (z <? 2 ^ bits).
