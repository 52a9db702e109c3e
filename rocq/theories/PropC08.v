(** C08: a null member leaves the field unchanged (except string fields). *)
From Verif Require Import Bytes Types Stream Tokenizer Write Read SpecJson SpecInterp SpecDoc ReadSim
  ApiProofs InterpProofs Samples SampleProofs.

(** For a field that is not a string, a member with value null can be removed. *)
Theorem C08_null_member_ignored :
  forall ms g v l1 l2 name k t inp inp' po,
  member_named (g_write g) name = Some k -> nth_error ms k = Some t -> t <> TStr ->
  jdoc true (JObj (l1 ++ (name, JNull) :: l2)) inp -> jdoc true (JObj (l1 ++ l2)) inp' ->
  has_ty (TMsg ms g) v = true -> lookup_ok (TMsg ms g) ->
  exists r v' po1 po2, deserialize (TMsg ms g) v inp po = Some (r, v', po1) /\
                       deserialize (TMsg ms g) v inp' po = Some (r, v', po2).
Proof. exact C08_lemma. Qed.
Print Assumptions C08_null_member_ignored.

(** Finding: for a string field, whatever it held, null makes it present and empty. *)
Theorem C08_null_string_refuted :
  forall ms g vs name k inp po,
  member_named (g_write g) name = Some k -> nth_error ms k = Some TStr ->
  jdoc true (JObj [(name, JNull)]) inp ->
  has_ty (TMsg ms g) (VMsg vs) = true -> lookup_ok (TMsg ms g) ->
  exists po', deserialize (TMsg ms g) (VMsg vs) inp po
              = Some (true, VMsg (set_nth k (VStr false []) vs), po').
Proof. exact C08_str_lemma. Qed.
Print Assumptions C08_null_string_refuted.

(** The witness for the refutation: the previous string is lost. *)
Example C08_string_example :
  jdoc true (JObj [(b "name", JNull)]) ([] ++ jprint [] (JObj [(b "name", JNull)]) ++ []) /\
  deserialize outer_ty outer_val (b "{""name"":null}") None =
  Some (true, VMsg [VField false (VInt (-7));
        VMsg [VField false (VBool true); VField true (VDbl (Dbl.DZero false))];
        VStr false [];
        VB64 [chr 0; chr 255; chr 16; chr 3];
        VList [VStr false (b "a"); VStr false (b "b""c")]], None).
Proof. split; [apply jprint_doc; reflexivity|]. vm_compute. reflexivity. Qed.

Definition c08_json : jval :=
  JObj [(b "id", JNull); (b "inner", JNull); (b "raw", JNull); (b "tags", JNull)].
Example C08_example : jdoc true c08_json ([] ++ jprint [] c08_json ++ []) /\
  member_named (g_write (plain_tables [b "id"; b "inner"; b "name"; b "raw"; b "tags"])) (b "raw") = Some 3%nat /\
  deserialize outer_ty outer_val (jprint [] c08_json) None = Some (true, outer_val, None).
Proof. split; [apply jprint_doc; reflexivity|]. split; vm_compute; reflexivity. Qed.
