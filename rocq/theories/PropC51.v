(** C51: exactly which documents are read, and to what. *)
From Verif Require Import Bytes Num Types Write Read SpecJson SpecInterp SpecErr SpecTok SpecTakes Samples SampleProofs AcceptProofs AcceptSamples.

(** The call succeeds with the object [v'] if and only if the document begins with tokens
    that the grammar [takes] of the type accepts with the result [v']; what follows the
    value does not matter.  [tokens] is the division of a text into tokens and white space
    ([SpecTok.v]), [takes false] the grammar of values ([SpecTakes.v]); both are stated
    without the model's stream, fuel, look-ahead or error record. *)
Theorem C51_accepts : forall ty v inp po v', has_ty ty v = true -> lookup_ok ty ->
  (exists po', deserialize ty v inp po = Some (true, v', po')) <->
  exists pre post toks, inp = pre ++ post /\ tokens pre post toks /\ takes false ty v toks v'.
Proof. exact accepts. Qed.
Print Assumptions C51_accepts.

Example C51_applies : has_ty outer_ty outer_val = true /\ lookup_ok outer_ty /\
  (exists po', deserialize outer_ty outer_val odd_doc None = Some (true, odd_val, po')) /\
  exists pre post toks, odd_doc = pre ++ post /\ tokens pre post toks /\ takes false outer_ty outer_val toks odd_val.
Proof.
  refine (conj eq_refl (conj outer_lookup_ok (conj (ex_intro _ None odd_read) _))).
  eexists _, _, _. split; [|split; [exact odd_tokens|exact odd_takes]]. reflexivity.
Qed.
