(** Base64 as in RFC 4648 section 4, on lists of bits; independent of the model. *)
From Verif Require Import Bytes.

(** Bits of a byte, most significant first ([Ascii] has the least significant first). *)
Definition bits8 (c : ascii) : list bool :=
  match c with Ascii b0 b1 b2 b3 b4 b5 b6 b7 => [b7; b6; b5; b4; b3; b2; b1; b0] end.

(** Number denoted by bits, most significant first. *)
Definition bits_val (l : list bool) : Z := fold_left (fun a x => 2 * a + Z.b2z x) l 0.

(** Groups of six bits; the last one is completed with zero bits. *)
Fixpoint sextets (l : list bool) : list Z :=
  match l with
  | x1 :: x2 :: x3 :: x4 :: x5 :: x6 :: r => bits_val [x1; x2; x3; x4; x5; x6] :: sextets r
  | [] => []
  | _ => [bits_val (firstn 6 (l ++ repeat false 6))]
  end.

(** Table 1 of the RFC. *)
Definition b64_char (i : Z) : ascii :=
  if i <? 26 then chr (65 + i)                 (* A-Z *)
  else if i <? 52 then chr (97 + (i - 26))     (* a-z *)
  else if i <? 62 then chr (48 + (i - 52))     (* 0-9 *)
  else if i =? 62 then "+"%char
  else "/"%char.

(** Encoded text: digits, then '=' up to a multiple of four. *)
Definition rfc4648 (v : bytes) : bytes :=
  let digits := map b64_char (sextets (flat_map bits8 v)) in
  digits ++ repeat "="%char ((4 - length digits mod 4) mod 4).
