(** C57: the text written for an arbitrary string. *)
From Verif Require Import Bytes Num Types Tokenizer Write Read SpecJson SpecLoose LooseProofs LooseSamples.

(** Without ensure_ascii ([ea]) the whole string is written; with it, up to the first byte that
    begins no sequence ([stuck]).  Then the closing quote is missing and the error is recorded,
    unless there is one already. *)
Theorem C57_written : forall ea sn s e, exists u r t, s = u ++ r /\ written_as ea u t /\
  ((r = [] /\ write ea sn TStr (VStr false s) e = (PGR_OK, [chr 34] ++ t ++ [chr 34], e)) \/
   (ea = true /\ stuck r /\ exists e', write ea sn TStr (VStr false s) e = (PGR_ERROR, [chr 34] ++ t, e') /\
     (e_code e = PGERR_OK -> e' = EI PGERR_INVALID_VALUE (b "invalid UTF-8 code point") 0 0) /\
     (e_code e <> PGERR_OK -> e' = e))).
Proof. exact string_written. Qed.
Print Assumptions C57_written.

(** Exactly the UTF-8 strings without a NUL are read back from what ensure_ascii wrote. *)
Theorem C57_read_back : forall s text sn e po, write true sn TStr (VStr false s) e = (PGR_OK, text, e) ->
  (exists po', deserialize TStr (VStr true []) text po = Some (true, VStr false s, po')) <-> utf8 s /\ ~ In NUL s.
Proof. exact read_back. Qed.
Print Assumptions C57_read_back.

(** Strings that are not UTF-8 but pass for it are written with success, and lost: an overlong
    sequence, a surrogate and a number above U+10FFFF.  [None]: the text cannot be read. *)
Theorem C57_checked_refuted : forall s text v, In (s, text, v) not_utf8 ->
  ~ utf8 s /\ ~ In NUL s /\ write true false TStr (VStr false s) err_clear = (PGR_OK, text, err_clear) /\
  exists r v', deserialize TStr (VStr true []) text None = Some (r, VStr false v', None) /\
    match v with Some x => r = true /\ v' = x | None => r = false end.
Proof. exact not_utf8_lost. Qed.
Print Assumptions C57_checked_refuted.

Example C57_example : written_as true (b "a/" ++ [chr 195; chr 169]) (b "a\/\u00e9") /\
  written_as false (b "a/" ++ [chr 195; chr 255]) (b "a\/" ++ [chr 195; chr 255]) /\ stuck [chr 195; chr 195; chr 169] /\
  write true false TStr (VStr false (b "a" ++ [chr 195; chr 195; chr 169])) err_clear =
    (PGR_ERROR, b """a", EI PGERR_INVALID_VALUE (b "invalid UTF-8 code point") 0 0) /\
  (exists text, write true false TStr (VStr false (b "a" ++ [chr 195; chr 169])) err_clear = (PGR_OK, text, err_clear)).
Proof. exact loose_example. Qed.
