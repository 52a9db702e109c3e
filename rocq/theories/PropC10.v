(** C10: deserializing into a non-empty object merges. *)
From Verif Require Import Bytes Types Stream Tokenizer Write Read SpecJson SpecInterp SpecDoc ReadSim
  ApiProofs InterpProofs Samples SampleProofs.

(** [given names k l]: the values the document gives to member [k], in order.
    Members that are not mentioned keep their value, even when reading fails; on
    success each member is the result of interpreting its values one after the other. *)
Theorem C10_merge :
  forall ms g vs l inp po, jdoc true (JObj l) inp ->
  has_ty (TMsg ms g) (VMsg vs) = true -> lookup_ok (TMsg ms g) ->
  exists r vs' po', deserialize (TMsg ms g) (VMsg vs) inp po = Some (r, VMsg vs', po') /\
    (forall k, given (g_write g) k l = [] -> nth_error vs' k = nth_error vs k) /\
    (r = true -> forall k t v, nth_error ms k = Some t -> nth_error vs k = Some v ->
       nth_error vs' k = Some (fold_left (fun v j => snd (interp t v j)) (given (g_write g) k l) v)).
Proof. exact C10_lemma. Qed.
Print Assumptions C10_merge.

(** One occurrence: scalars and strings are overwritten (the result does not depend
    on the previous value), bytes and repeated fields are appended to.  Messages are
    merged: [interp] of a message updates the previous members. *)
Theorem C10_overwrite_or_append :
  forall (t : ty) (v : val) (j : jval), has_ty t v = true -> j <> JNull ->
  match t, v with
  | TField _, _ | TStr, _ => forall v2, has_ty t v2 = true -> interp t v j = interp t v2 j
  | TB64, VB64 old => forall s, j = JStr s -> interp t v j = (RGood, VB64 (old ++ fst (b64_decode s)))
  | TRep t', VList old => forall js, j = JArr js -> exists new,
      interp t v j = (fst (interp t (VList []) j), VList (old ++ new)) /\
      snd (interp t (VList []) j) = VList new
  | _, _ => True
  end.
Proof. exact C10_field. Qed.
Print Assumptions C10_overwrite_or_append.

Definition c10_json : jval :=
  JObj [(b "id", JNum (b "1")); (b "tags", JArr [JStr (b "n")]); (b "id", JNum (b "2"));
        (b "raw", JStr (b "AAAA")); (b "inner", JObj [(b "flag", JBool false)])].
Example C10_example : jdoc true c10_json ([] ++ jprint [] c10_json ++ []) /\
  has_ty outer_ty outer_val = true /\
  deserialize outer_ty outer_val (jprint [] c10_json) None =
  Some (true, VMsg [VField false (VInt 2);
        VMsg [VField false (VBool false); VField true (VDbl (Dbl.DZero false))];
        VStr false (b "caf" ++ [chr 195; chr 169]);
        VB64 [chr 0; chr 255; chr 16; chr 3; chr 0; chr 0; chr 0];
        VList [VStr false (b "a"); VStr false (b "b""c"); VStr false (b "n")]], None).
Proof. split; [apply jprint_doc; reflexivity|]. split; vm_compute; reflexivity. Qed.
