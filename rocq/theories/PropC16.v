(** C16: floating point text is bounded, decimal and exact where possible. *)
From Verif Require Import Bytes Dbl Types Stream Tokenizer Write Read SpecJson SpecNum SpecDbl DblApi.

(** The text of a finite non-zero double or float m * 2^e: it fits the buffer, is an
    optional minus sign, an integer part without leading zeros, a point and six
    decimals, and N = dval (i ++ f) millionths is nearest to the value:
    |N / 10^6 - m * 2^e| <= 1/2 * 10^-6, and N is even where both neighbours are
    equally near. *)
Theorem C16_text : forall s m e,
  dbl_valid binary64 (DFin s m e) = true \/ dbl_valid binary32 (DFin s m e) = true ->
  (length (dbl_to_string (DFin s m e)) <= 317)%nat /\
  exists i f, dbl_to_string (DFin s m e) = (if s then b "-" else []) ++ i ++ b "." ++ f /\
    int_part i /\ forallb digit_char f = true /\ length f = 6%nat /\
    2 * Z.abs (dval (i ++ f) * 2 ^ Z.max 0 (- e) - Zpos m * 2 ^ Z.max 0 e * 10 ^ 6) <= 2 ^ Z.max 0 (- e) /\
    (2 * Z.abs (dval (i ++ f) * 2 ^ Z.max 0 (- e) - Zpos m * 2 ^ Z.max 0 e * 10 ^ 6) = 2 ^ Z.max 0 (- e) ->
     Z.even (dval (i ++ f)) = true).
Proof. exact C16_text_lemma. Qed.
Print Assumptions C16_text.

(** Zero and every whole number of millionths is read back exactly (sign of zero
    included), into any field, between any white space. *)
Theorem C16_exact_round_trip : forall (single : bool) d ea sn e v w1 w2 po,
  dbl_valid (fformat single) d = true -> six d ->
  has_ty (TField (fprim single)) v = true -> ws w1 -> ws w2 ->
  exists text po', write ea sn (TField (fprim single)) (VField false (VDbl d)) e = (PGR_OK, text, e) /\
    json_number text /\
    deserialize (TField (fprim single)) v (w1 ++ text ++ w2) po = Some (true, VField false (VDbl d), po').
Proof. exact C16_back_lemma. Qed.
Print Assumptions C16_exact_round_trip.

(** 0.1, the greatest double, and 0.0078125, a tie. *)
Example C16_text_example :
  dbl_valid binary64 (DFin false 7205759403792794 (-56)) = true /\
  dbl_to_string (DFin false 7205759403792794 (-56)) = b "0.100000" /\
  dbl_valid binary64 (DFin false 9007199254740991 971) = true /\
  length (dbl_to_string (DFin false 9007199254740991 971)) = 316%nat /\
  dbl_valid binary64 (DFin false 4503599627370496 (-59)) = true /\
  dbl_to_string (DFin false 4503599627370496 (-59)) = b "0.007812".
Proof. vm_compute. auto 10. Qed.

Example C16_round_trip_example :
  dbl_valid binary64 (DFin true 5629499534213120 (-51)) = true /\ six (DFin true 5629499534213120 (-51)) /\
  dbl_to_string (DFin true 5629499534213120 (-51)) = b "-2.500000" /\
  deserialize (TField PDouble) (VField true (VDbl (DZero false))) (b " -2.500000 ") None
  = Some (true, VField false (VDbl (DFin true 5629499534213120 (-51))), None) /\
  dbl_valid binary32 (DFin false 8388609 0) = true /\ six (DFin false 8388609 0).
Proof.
  split; [reflexivity|]. split; [right; exists 2500000; reflexivity|].
  split; [vm_compute; reflexivity|]. split; [vm_compute; reflexivity|].
  split; [reflexivity|]. left. discriminate.
Qed.

(** Six decimals are not enough in general: 1e-7 is written as 0.000000. *)
Example C16_small_lost : exists d, dbl_valid binary64 d = true /\ d <> DZero false /\
  strtod (b "1e-7") = d /\ dbl_to_string d = b "0.000000".
Proof.
  exists (strtod (b "1e-7")). split; [vm_compute; reflexivity|].
  split; [vm_compute; discriminate|]. split; vm_compute; reflexivity.
Qed.
