(** C04: message serialize/deserialize round-trip. *)
From Verif Require Import Bytes Types Stream Tokenizer Write Read SpecJson SpecInterp SpecWrite WriteProofs
  Samples SampleProofs.

(** [tables_ok], [lookup_ok]: the tables of the generated code, proved for the output of
    the compiler in PropC32.  [jsonable]: numbers finite, strings without NUL (UTF-8 with
    ensure_ascii).  [faithful]: numbers exactly representable with six decimals, no
    unset strings in containers or (with serialize_null) in messages.  [persist] resets
    transient fields. *)
Theorem C04_round_trip : forall ms g v po,
  tables_ok false (TMsg ms g) -> lookup_ok (TMsg ms g) ->
  jsonable (po_ea po) false (TMsg ms g) v -> faithful (po_sn po) (TMsg ms g) v ->
  exists text, serialize (TMsg ms g) v po = (true, text, clear_params po) /\
    forall w1 w2 po2, ws w1 -> ws w2 -> exists po2',
      deserialize (TMsg ms g) (dflt (TMsg ms g)) (w1 ++ text ++ w2) po2 = Some (true, persist (TMsg ms g) v, po2').
Proof. exact (fun ms g => round_trip_lemma (TMsg ms g)). Qed.
Print Assumptions C04_round_trip.

(** Without transient fields the object read is the object written. *)
Theorem C04_no_transient : forall t, all_written t -> forall v, has_ty t v = true -> persist t v = v.
Proof. exact persist_id. Qed.
Print Assumptions C04_no_transient.

Example C04_example : tables_ok false outer_ty /\ lookup_ok outer_ty /\ jsonable false false outer_ty outer_val /\
  faithful false outer_ty outer_val /\ all_written outer_ty /\ has_ty outer_ty outer_val = true.
Proof.
  split; [apply outer_tables_ok|]. split; [apply outer_lookup_ok|].
  split; [apply jsonable_lax, outer_jsonable|]. split; [apply outer_faithful|].
  split; [apply outer_all_written|reflexivity].
Qed.
