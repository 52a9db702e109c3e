(** C45: null elements of arrays. *)
From Verif Require Import Bytes Types Stream Tokenizer Write Read SpecJson SpecInterp SpecWrite WriteProofs SerProofs
  Samples SampleProofs.

(** An array with a null element is never read, whatever the element type. *)
Theorem C45_null_element_rejected : forall strict t v l inp po,
  jdoc strict (JArr l) inp -> In JNull l -> has_ty (TRep t) v = true -> lookup_ok t ->
  exists v' po', deserialize (TRep t) v inp po = Some (false, v', po').
Proof. exact C45_lemma. Qed.
Print Assumptions C45_null_element_rejected.

(** A container with an unset string is written successfully but can never be read. *)
Theorem C45_unset_string_refuted : forall l x po po2 v, In x l -> vempty x = true ->
  jsonable (po_ea po) false (TRep TStr) (VList l) -> has_ty (TRep TStr) v = true ->
  exists text, serialize (TRep TStr) (VList l) po = (true, text, clear_params po) /\
    exists v' po', deserialize (TRep TStr) v text po2 = Some (false, v', po').
Proof. exact C45_unset_lemma. Qed.
Print Assumptions C45_unset_string_refuted.

Example C45_example : jsonable false false (TRep TStr) (VList [VStr false (b "a"); VStr true []]) /\
  fst (serialize (TRep TStr) (VList [VStr false (b "a"); VStr true []]) None) = (true, b "[""a"",null]") /\
  deserialize (TRep TStr) (VList []) (b "[""a"",null]") (Some (Par false false err_clear))
  = Some (false, VList [VStr false (b "a")],
          Some (Par false false (EI PGERR_INVALID_ARRAY (b "invalid array") 1 6))).
Proof.
  split; [|split; vm_compute; reflexivity]. constructor. intros x [<-|[<-|[]]].
  - apply js_str; [discriminate|]. repeat (constructor; [discriminate|]). constructor.
  - now apply js_null.
Qed.
