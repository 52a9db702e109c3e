(** C14: bytes fields round-trip through Base64. *)
From Verif Require Import Bytes Types Stream Tokenizer Write Read SpecJson SpecB64 ApiProofs.

(** [rfc4648] (SpecB64.v) is defined on bit lists. *)
Theorem C14_base64_round_trip : forall (ea sn : bool) (s : bytes) (e : errinfo),
  exists text, write ea sn TB64 (VB64 s) e = (PGR_OK, [chr 34] ++ text ++ [chr 34], e) /\
    text = rfc4648 s /\ length text = (4 * ((length s + 2) / 3))%nat /\
    forall old w1 w2 po, ws w1 -> ws w2 -> exists po',
      deserialize TB64 (VB64 old) (w1 ++ ([chr 34] ++ text ++ [chr 34]) ++ w2) po
      = Some (true, VB64 (old ++ s), po').
Proof. exact C14_lemma. Qed.
Print Assumptions C14_base64_round_trip.

Example C14_example : rfc4648 (b "foobar!") = b "Zm9vYmFyIQ==" /\ rfc4648 [chr 255; chr 254] = b "//4=" /\
  deserialize TB64 (VB64 (b "x")) (b " ""Zm9vYmFyIQ=="" ") None = Some (true, VB64 (b "xfoobar!"), None).
Proof. repeat split; vm_compute; reflexivity. Qed.
