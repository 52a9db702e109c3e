(** C05: serialized output is well-formed JSON. *)
From Verif Require Import Bytes Types Stream Tokenizer Write SpecJson SpecWrite WriteProofs Samples SampleProofs.

(** The text is an RFC 8259 text, namely of the JSON value [tojson] of the object, if
    numbers are finite and strings contain only characters from 32 up and those with a
    short escape ([jsonable _ true]). *)
Theorem C05_well_formed : forall t v po, tables_ok true t -> jsonable (po_ea po) true t v ->
  exists text, serialize t v po = (true, text, clear_params po) /\ jtext true (tojson (po_sn po) t v) text.
Proof. exact (serialize_jtext true). Qed.
Print Assumptions C05_well_formed.

Example C05_example : tables_ok true outer_ty /\ jsonable false true outer_ty outer_val /\
  fst (serialize outer_ty outer_val None) =
  (true, b "{""id"":-7,""inner"":{""flag"":true},""name"":""caf" ++ [chr 195; chr 169]
         ++ b """,""raw"":""AP8QAw=="",""tags"":[""a"",""b\""c""]}").
Proof. split; [apply outer_tables_ok|]. split; [apply outer_jsonable|]. vm_compute. reflexivity. Qed.
