(** C44: top-level arrays round-trip. *)
From Verif Require Import Bytes Types Stream Tokenizer Write Read SpecJson SpecInterp SpecNum SpecWrite WriteProofs
  Samples SampleProofs.

(** serialize_array, then deserialize_array into an empty container ([dflt (TRep t)] is
    the empty list): the same elements, transient fields reset. *)
Theorem C44_array_round_trip : forall t l po,
  tables_ok false t -> lookup_ok t ->
  jsonable (po_ea po) false (TRep t) (VList l) -> faithful (po_sn po) (TRep t) (VList l) ->
  exists text, serialize (TRep t) (VList l) po = (true, text, clear_params po) /\
    forall w1 w2 po2, ws w1 -> ws w2 -> exists po2',
      deserialize (TRep t) (VList []) (w1 ++ text ++ w2) po2 = Some (true, VList (map (persist t) l), po2').
Proof. exact (fun t l => round_trip_lemma (TRep t) (VList l)). Qed.
Print Assumptions C44_array_round_trip.

Example C44_example : jsonable false false (TRep outer_ty) (VList [outer_val; outer_val]) /\
  faithful false (TRep outer_ty) (VList [outer_val; outer_val]) /\
  jsonable false false (TRep (TPrim (PInt false 64))) (VList [VPrim (VInt 18446744073709551615)]) /\
  faithful false (TRep (TPrim (PInt false 64))) (VList [VPrim (VInt 18446744073709551615)]).
Proof.
  split; [|split; [|split]]; constructor.
  - intros x [<-|[<-|[]]]; apply jsonable_lax, outer_jsonable.
  - intros x [<-|[<-|[]]]; apply outer_faithful.
  - intros x [<-|[]]. constructor; [reflexivity|exact I].
  - intros x [<-|[]]. constructor; [reflexivity|]. right; right; reflexivity.
Qed.
