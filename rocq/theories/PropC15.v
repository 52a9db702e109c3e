(** C15: integers round-trip at every width; out-of-range input never traps. *)
From Verif Require Import Bytes Types Stream Tokenizer Write Read SpecJson SpecNum ApiProofs.

(** A value of the type is written as its decimal numeral and read back, between any
    white space, into any field. *)
Theorem C15_integer_round_trip : forall (ea sn sg : bool) (bits z : Z) (e : errinfo),
  int_width bits -> int_min sg bits <= z <= int_max sg bits ->
  exists text, write ea sn (TField (PInt sg bits)) (VField false (VInt z)) e = (PGR_OK, text, e) /\
    numeral z text /\
    forall v w1 w2 po, has_ty (TField (PInt sg bits)) v = true -> ws w1 -> ws w2 -> exists po',
      deserialize (TField (PInt sg bits)) v (w1 ++ text ++ w2) po
      = Some (true, VField false (VInt z), po').
Proof. exact C15_roundtrip_lemma. Qed.
Print Assumptions C15_integer_round_trip.

(** Every JSON number (sign, integer part, fraction, exponent) is accepted.  Fraction
    and exponent are dropped; the integer part saturates at 64 bits ([wide]) and is
    then reduced modulo 2^bits into the range of the type. *)
Theorem C15_any_number_text : forall sg bits neg i f e v w1 w2 po,
  int_width bits -> int_part i -> frac_part f -> exp_part e ->
  has_ty (TField (PInt sg bits)) v = true -> ws w1 -> ws w2 ->
  exists z po', deserialize (TField (PInt sg bits)) v
                  (w1 ++ ((if neg : bool then b "-" else []) ++ i ++ f ++ e) ++ w2) po
                = Some (true, VField false (VInt z), po') /\
    int_min sg bits <= z <= int_max sg bits /\
    exists k, z = wide sg neg (dval i) + k * 2 ^ bits.
Proof. exact C15_text_lemma. Qed.
Print Assumptions C15_any_number_text.

Example C15_example : int_width 32 /\ int_min true 32 <= -2147483648 <= int_max true 32 /\
  deserialize (TField (PInt true 32)) (VField true (VInt 0)) (b "-2147483648") None
  = Some (true, VField false (VInt (-2147483648)), None) /\
  deserialize (TField (PInt true 32)) (VField true (VInt 0)) (b "4294967297.5e3") None
  = Some (true, VField false (VInt 1), None) /\
  deserialize (TField (PInt false 64)) (VField true (VInt 0)) (b "99999999999999999999") None
  = Some (true, VField false (VInt 18446744073709551615), None).
Proof.
  split; [right; left; reflexivity|]. split; [split; discriminate|].
  repeat split; vm_compute; reflexivity.
Qed.

Example C15_text_example : int_part (b "42") /\ frac_part (b ".5") /\ exp_part (b "e+10").
Proof.
  split; [right; exists "4"%char, (b "2"); repeat split; discriminate|].
  split; [right; exists (b "5"); repeat split; discriminate|].
  right. exists "e"%char, (b "+"), (b "10"). split; [reflexivity|]. split; [auto|]. split; [auto|].
  repeat split; discriminate.
Qed.
