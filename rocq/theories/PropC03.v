(** C03: unencodable strings are reported by serialize.  Refuted. *)
From Verif Require Import Bytes Types Stream Tokenizer Write Read SpecJson Samples SerProofs.

(** serialize (of a message) and serialize_array return true and leave the error clear
    for every object and every Parameters, so they cannot report anything. *)
Theorem C03_never_reports : forall t v po,
  (match t, v with TMsg _ _, VMsg _ | TRep _, VList _ => True | _, _ => False end) ->
  exists text, serialize t v po = (true, text, clear_params po).
Proof. exact serialize_true. Qed.
Print Assumptions C03_never_reports.

(** With ensure_ascii on and a string that is not UTF-8, the result is true, the
    error is clear and the text is an unterminated string, which is not readable. *)
Theorem C03_unencodable_reported_refuted : exists t v po text,
  po = Some (Par true false err_clear) /\ v = VMsg [VStr false [chr 255]] /\
  serialize t v po = (true, text, po) /\ text = b "{""s"":""}" /\
  deserialize t (dflt t) text None = Some (false, VMsg [VStr false []], None).
Proof.
  exists (TMsg [TStr] (plain_tables [b "s"])), (VMsg [VStr false [chr 255]]), (Some (Par true false err_clear)),
    (b "{""s"":""}"). repeat split; vm_compute; reflexivity.
Qed.
Print Assumptions C03_unencodable_reported_refuted.

Example C03_example : exists text, serialize outer_ty outer_val None = (true, text, None).
Proof. apply C03_never_reports. exact I. Qed.
