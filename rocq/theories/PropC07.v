(** C07: unknown fields are skipped. *)
From Verif Require Import Bytes Types Stream Tokenizer Write Read SpecJson SpecInterp SpecDoc ReadSim
  ApiProofs InterpProofs Samples SampleProofs.

(** A member whose name is not a field, at any position, with any value. *)
Theorem C07_unknown_member_ignored :
  forall ms g v l1 l2 name x inp inp' po,
  member_named (g_write g) name = None ->
  jdoc true (JObj (l1 ++ (name, x) :: l2)) inp -> jdoc true (JObj (l1 ++ l2)) inp' ->
  has_ty (TMsg ms g) v = true -> lookup_ok (TMsg ms g) ->
  exists r v' po1 po2, deserialize (TMsg ms g) v inp po = Some (r, v', po1) /\
                       deserialize (TMsg ms g) v inp' po = Some (r, v', po2).
Proof. exact C07_one_lemma. Qed.
Print Assumptions C07_unknown_member_ignored.

(** All unknown members at all depths at once ([prune] removes them). *)
Theorem C07_unknown_members_ignored_deep :
  forall (ty : ty) (v : val) (j : jval) (inp inp' : bytes) (po : option params),
  jdoc true j inp -> jdoc true (prune ty j) inp' -> has_ty ty v = true -> lookup_ok ty ->
  exists r v' po1 po2, deserialize ty v inp po = Some (r, v', po1) /\
                       deserialize ty v inp' po = Some (r, v', po2).
Proof. exact C07_lemma. Qed.
Print Assumptions C07_unknown_members_ignored_deep.

Definition c07_json : jval :=
  JObj [(b "zzz", JArr [JObj [(b "id", JNum (b "1"))]; JNull]); (b "id", JNum (b "5"));
        (b "inner", JObj [(b "y", JStr (b "s")); (b "flag", JBool true)])].
Example C07_example :
  member_named (g_write (plain_tables [b "id"; b "inner"; b "name"; b "raw"; b "tags"])) (b "zzz") = None /\
  jdoc true c07_json ([LF] ++ jprint [LF] c07_json ++ [LF]) /\
  prune outer_ty c07_json = JObj [(b "id", JNum (b "5")); (b "inner", JObj [(b "flag", JBool true)])] /\
  exists v', deserialize outer_ty (dflt outer_ty) (jprint [] c07_json) None = Some (true, v', None) /\
             deserialize outer_ty (dflt outer_ty) (jprint [] (prune outer_ty c07_json)) None
             = Some (true, v', None).
Proof.
  split; [reflexivity|]. split; [apply jprint_doc; reflexivity|]. split; [reflexivity|].
  eexists. split; vm_compute; reflexivity.
Qed.
