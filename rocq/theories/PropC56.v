(** C56: what a bytes field makes of an arbitrary text. *)
From Verif Require Import Bytes Num Types Tokenizer Write Read SpecJson SpecTok SpecTakes SpecB64 SpecLenient LenientProofs LenientSamples.

(** Every string token is accepted; [lenient] (SpecLenient.v) is what it adds to the field. *)
Theorem C56_text : forall old s pre post po, tokens pre post [KStr s] ->
  exists po', deserialize TB64 (VB64 old) (pre ++ post) po = Some (true, VB64 (old ++ lenient s), po').
Proof. exact base64_read. Qed.
Print Assumptions C56_text.

(** It inverts RFC 4648, and a text is Base64 exactly when encoding the result gives it back. *)
Theorem C56_canonical : forall s, (exists v, s = rfc4648 v) <-> rfc4648 (lenient s) = s.
Proof. exact canonical. Qed.
Print Assumptions C56_canonical.

(** Texts that are not Base64 are not refused: characters outside the alphabet, a text that
    ends inside a group, stray bits before the padding, padding in the middle. *)
Theorem C56_checked_refuted : forall s v, In (s, v) not_base64 ->
  (forall x, s <> rfc4648 x) /\ tokens ([chr 34] ++ s ++ [chr 34]) [] [KStr s] /\
  deserialize TB64 (VB64 []) ([chr 34] ++ s ++ [chr 34]) (Some params_default) = Some (true, VB64 v, Some params_default).
Proof. exact not_base64_read. Qed.
Print Assumptions C56_checked_refuted.

Example C56_example : lenient (b "Zm9v YmE=") = b "foo" ++ [chr 1; chr 137; chr 132] /\
  lenient (b "Zg==Zm8=!") = b "ffo" /\
  (exists s v, In (s, v) not_base64 /\ s = b "Zh==" /\ v = b "f").
Proof. split; [vm_compute; reflexivity|]. split; [vm_compute; reflexivity|]. eexists _, _. split; [right; right; left; reflexivity|split; reflexivity]. Qed.
