(** Floating point: [snprintf("%f")], [strtod], conversion to [float]
    (source/cpp/json-number.hh:32-53 and 75-93).

    A [double] or [float] is represented by its exact value: sign, positive
    mantissa and binary exponent, value = +/- m * 2^e.  [dbl_valid prec emin emax]
    singles out the canonical representations of a format.  The payload of NaN is
    not modelled, its sign is. *)
From Verif Require Import Bytes Num.

Inductive dbl :=
  | DZero (s : bool)
  | DInf (s : bool)
  | DNan (s : bool)
  | DFin (s : bool) (m : positive) (e : Z).

(** IEEE 754 formats: precision, least exponent, greatest exponent of the
    integral mantissa. *)
Record fmt := Fmt { f_prec : Z; f_emin : Z; f_emax : Z }.
Definition binary64 : fmt := Fmt 53 (-1074) 971.
Definition binary32 : fmt := Fmt 24 (-149) 104.

Definition dbl_valid (f : fmt) (d : dbl) : bool :=
  match d with
  | DFin _ m e =>
      (Zpos m <? 2 ^ f_prec f) && (f_emin f <=? e) && (e <=? f_emax f)
      && ((2 ^ (f_prec f - 1) <=? Zpos m) || (e =? f_emin f))
  | _ => true
  end.

(** C++ [==] on floating point values (canonical representations). *)
Definition dbl_eqb (x y : dbl) : bool :=
  match x, y with
  | DZero _, DZero _ => true
  | DInf s, DInf s' => Bool.eqb s s'
  | DFin s m e, DFin s' m' e' => Bool.eqb s s' && Pos.eqb m m' && (e =? e')
  | _, _ => false
  end.

(** Quotient of [num] by [den] > 0 rounded to nearest, ties to even. *)
Definition div_rne (num den : Z) : Z :=
  let q := num / den in
  let r := num mod den in
  if 2 * r <? den then q
  else if den <? 2 * r then q + 1
  else if Z.even q then q else q + 1.

(** [num/den * 2^-e] as a fraction. *)
Definition scale_num (num e : Z) : Z := num * 2 ^ Z.max 0 (- e).
Definition scale_den (den e : Z) : Z := den * 2 ^ Z.max 0 e.

(** ** [snprintf(tmp, sizeof(tmp) - 1, "%f", value)] with [char tmp[320]] *)

Definition pad6 (n : Z) : bytes :=
  [ digit (n / 100000 mod 10); digit (n / 10000 mod 10); digit (n / 1000 mod 10);
    digit (n / 100 mod 10); digit (n / 10 mod 10); digit (n mod 10) ].

(** Decimal text of [n] millionths. *)
Definition fixed6 (n : Z) : bytes := dec_nat (n / 1000000) ++ "."%char :: pad6 (n mod 1000000).

(** Millionths nearest to m * 2^e (glibc: exact, round to nearest, ties to even). *)
Definition millionths (m : positive) (e : Z) : Z :=
  div_rne (scale_num (Zpos m * 1000000) (- e)) (scale_den 1 (- e)).

Definition sign_text (s : bool) : bytes := if s then ["-"%char] else [].

(** Text produced by "%f" without a size limit. *)
Definition fmt_f (d : dbl) : bytes :=
  match d with
  | DZero s => sign_text s ++ b "0.000000"
  | DInf s => sign_text s ++ b "inf"
  | DNan s => sign_text s ++ b "nan"
  | DFin s m e => sign_text s ++ fixed6 (millionths m e)
  end.

(** json-number.hh:75-93, [number_to_string] for floating [T] (non-Windows; a
    [float] is promoted to [double] exactly): at most 318 characters are stored
    before the terminating NUL. *)
Definition dbl_to_string (d : dbl) : bytes := firstn 318 (fmt_f d).

(** ** [strtod] *)

(** Correct rounding of num/den (num >= 0, den > 0) to a format, ties to even. *)
Definition round_to (f : fmt) (s : bool) (num den : Z) : dbl :=
  if num <=? 0 then DZero s
  else
    let l := Z.log2 num - Z.log2 den in
    let e1 := l - (f_prec f - 1) in
    let e2 := if scale_num num e1 / scale_den den e1 <? 2 ^ (f_prec f - 1) then e1 - 1 else e1 in
    let e := Z.max (f_emin f) e2 in
    let q := div_rne (scale_num num e) (scale_den den e) in
    if q <=? 0 then DZero s
    else if 2 ^ f_prec f <=? q then
      (if f_emax f <? e + 1 then DInf s else DFin s (Z.to_pos (2 ^ (f_prec f - 1))) (e + 1))
    else if f_emax f <? e then DInf s
    else DFin s (Z.to_pos q) e.

(** Value of a decimal text: sign, digits and decimal exponent (digits * 10^exp),
    following the [strtod] grammar without hexadecimal, "inf" and "nan" forms,
    which number tokens cannot contain (protogen.hh:530).  [None]: no conversion. *)
Definition is_exp_char (c : ascii) : bool := Ascii.eqb c "e" || Ascii.eqb c "E".

Definition dec_exponent (t : bytes) : Z :=
  match t with
  | c :: r =>
      if is_exp_char c then
        let '(neg, r') :=
          match r with
          | d :: r2 => if Ascii.eqb d "-" then (true, r2)
                       else if Ascii.eqb d "+" then (false, r2) else (false, r)
          | [] => (false, r)
          end in
        let ds := fst (span is_digit r') in
        if neg then - digits_val ds else digits_val ds
      else 0
  | [] => 0
  end.

Definition strtod_split (text : bytes) : bool * bytes * Z :=
  let t1 := snd (span is_space (cstr text)) in
  let '(neg, t2) :=
    match t1 with
    | c :: r => if Ascii.eqb c "-" then (true, r)
                else if Ascii.eqb c "+" then (false, r) else (false, t1)
    | [] => (false, t1)
    end in
  let '(ip, t3) := span is_digit t2 in
  match t3 with
  | c :: t4 =>
      if Ascii.eqb c "." then
        let '(fp, t5) := span is_digit t4 in
        match ip ++ fp with
        | [] => (false, [], 0)
        | _ => (neg, ip ++ fp, dec_exponent t5 - Z.of_nat (length fp))
        end
      else match ip with
           | [] => (false, [], 0)
           | _ => (neg, ip, dec_exponent t3)
           end
  | [] => match ip with [] => (false, [], 0) | _ => (neg, ip, 0) end
  end.

(** [strtod_l] in the "C" locale, correctly rounded to binary64; 0 if there is
    no conversion. *)
Definition strtod (text : bytes) : dbl :=
  let '(neg, ds, ex) := strtod_split text in
  let v := digits_val ds in
  if 0 <=? ex then round_to binary64 neg (v * 10 ^ ex) 1
  else round_to binary64 neg v (10 ^ (- ex)).

(** [static_cast<float>(double)], round to nearest even.  (Out-of-range values
    are undefined behaviour in C++; IEEE implementations give infinity, which is
    what is modelled.) *)
Definition to_float (d : dbl) : dbl :=
  match d with
  | DFin s m e => round_to binary32 s (scale_num (Zpos m) (- e)) (scale_den 1 (- e))
  | _ => d
  end.
