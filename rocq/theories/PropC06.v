(** C06: deserialization implements the JSON document. *)
From Verif Require Import Bytes Types Stream Tokenizer Write Read SpecJson SpecInterp ReadSim ApiProofs
  InterpProofs Samples SampleProofs.

(** [jdoc true j inp]: [inp] is an RFC 8259 text, in any layout, for the value [j].
    The result is [interp ty v j], which knows nothing of texts. *)
Theorem C06_deserialize_interprets :
  forall (ty : ty) (v : val) (j : jval) (inp : bytes) (po : option params),
  jdoc true j inp -> has_ty ty v = true -> lookup_ok ty ->
  exists po', deserialize ty v inp po
              = Some (match fst (interp ty v j) with RGood => true | _ => false end,
                      snd (interp ty v j), po').
Proof. exact (C06_gen true). Qed.
Print Assumptions C06_deserialize_interprets.

(** The same for the larger language the library accepts (raw control characters in
    strings, any run of number characters). *)
Theorem C06_deserialize_interprets_lax :
  forall (ty : ty) (v : val) (j : jval) (inp : bytes) (po : option params),
  jdoc false j inp -> has_ty ty v = true -> lookup_ok ty ->
  exists po', deserialize ty v inp po
              = Some (match fst (interp ty v j) with RGood => true | _ => false end,
                      snd (interp ty v j), po').
Proof. exact (C06_gen false). Qed.
Print Assumptions C06_deserialize_interprets_lax.

Definition c06_json : jval :=
  JObj [(b "id", JNum (b "-5")); (b "x", JArr [JNull; JBool true]);
        (b "inner", JObj [(b "flag", JBool true)]); (b "tags", JArr [JStr (b "t")])].
Definition c06_ws : bytes := [chr 32; LF; chr 9; chr 13].

Example C06_example : jdoc true c06_json (c06_ws ++ jprint c06_ws c06_json ++ c06_ws) /\
  has_ty outer_ty outer_val = true /\ lookup_ok outer_ty /\
  interp outer_ty outer_val c06_json =
  (RGood, VMsg [VField false (VInt (-5));
                VMsg [VField false (VBool true); VField true (VDbl (Dbl.DZero false))];
                VStr false (b "caf" ++ [chr 195; chr 169]);
                VB64 [chr 0; chr 255; chr 16; chr 3];
                VList [VStr false (b "a"); VStr false (b "b""c"); VStr false (b "t")]]).
Proof.
  split; [apply jprint_doc; reflexivity|]. split; [reflexivity|].
  split; [apply outer_lookup_ok|]. vm_compute. reflexivity.
Qed.
