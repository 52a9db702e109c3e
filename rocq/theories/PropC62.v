(** C62: objects written by one version of a schema and read by another. *)
From Coq Require Import Lia Permutation.
From Verif Require Import Bytes Num Dbl Types Read Write SpecJson SpecInterp SpecNum SpecWrite ProtoLex ProtoParse SpecProto Cpp Gen MainC SpecGen SpecFile BackSamples
  SpecProgram SpecEnd EndSamples SpecEvolve EvolveProofs SpecVersions VersionProofs EvolveSamples.

(** What is written with the type [t] is for a reader of type [t'] the object that [carries]
    says (SpecEvolve.v): members are matched by their labels, everything else keeps its default. *)
Theorem C62_reads : forall t v t' v' po, tables_ok false t -> tables_ok false t' -> lookup_ok t' -> has_ty t v = true ->
  jsonable (po_ea po) false t v -> carries (po_sn po) t v t' v' ->
  exists text, serialize t v po = (true, text, clear_params po) /\
    forall w1 w2 po2, ws w1 -> ws w2 -> exists po2',
      deserialize t' (dflt t') (w1 ++ text ++ w2) po2 = Some (true, v', po2').
Proof. exact evolve_reads. Qed.
Print Assumptions C62_reads.

(** A value of another kind than the reader expects is refused, whatever the object was before. *)
Theorem C62_rejects : forall t v t' po, tables_ok false t -> tables_ok false t' -> lookup_ok t' -> has_ty t v = true ->
  jsonable (po_ea po) false t v -> rejects (po_sn po) t v t' ->
  exists text, serialize t v po = (true, text, clear_params po) /\
    forall u w1 w2 po2, has_ty t' u = true -> ws w1 -> ws w2 -> exists u' po2',
      deserialize t' u (w1 ++ text ++ w2) po2 = Some (false, u', po2').
Proof. exact evolve_rejects. Qed.
Print Assumptions C62_rejects.

(** One of the two is always the case, *)
Theorem C62_decided : forall strict ea sn t', tables_ok strict t' -> sized t' ->
  forall t v, tables_ok strict t -> sized t -> has_ty t v = true -> jsonable ea strict t v -> ~ null_value v ->
  (exists v', carries sn t v t' v' /\ has_ty t' v' = true) \/ rejects sn t v t'.
Proof. exact carries_or_rejects. Qed.
Print Assumptions C62_decided.

(** not both, and there is one object that is carried over. *)
Theorem C62_unique : forall strict sn t v t', tables_ok strict t -> tables_ok strict t' -> has_ty t v = true ->
  (forall v1 v2, carries sn t v t' v1 -> carries sn t v t' v2 -> v1 = v2) /\
  (forall v1, carries sn t v t' v1 -> ~ rejects sn t v t').
Proof. exact evolve_unique. Qed.
Print Assumptions C62_unique.

(** Between types whose common members have the same kinds every object carries over. *)
Theorem C62_evolves : forall strict ea sn t v t', tables_ok strict t -> tables_ok strict t' -> sized t -> sized t' -> evolves t t' ->
  has_ty t v = true -> jsonable ea strict t v -> no_nulls t v -> ~ null_value v ->
  exists v', carries sn t v t' v' /\ has_ty t' v' = true.
Proof. exact evolve_total. Qed.
Print Assumptions C62_evolves.

(** Within one version: the object itself, transient fields aside. *)
Theorem C62_same : forall strict ea sn t v, tables_ok strict t -> sized t -> has_ty t v = true -> jsonable ea strict t v ->
  faithful sn t v -> carries sn t v t (persist t v).
Proof. exact evolve_same. Qed.
Print Assumptions C62_same.

(** A program with a version that has more members reads the object, writes it again, and
    nothing of it is lost. *)
Theorem C62_there_and_back : forall t v t' po po2, tables_ok false t -> tables_ok false t' -> lookup_ok t -> lookup_ok t' -> sized t -> sized t' ->
  extends t t' -> has_ty t v = true -> faithful (po_sn po) t v -> po_sn po2 = po_sn po ->
  jsonable (po_ea po) false t v -> jsonable (po_ea po2) false t v ->
  exists text v' text2, serialize t v po = (true, text, clear_params po) /\
    (forall po1, exists po1', deserialize t' (dflt t') text po1 = Some (true, v', po1')) /\
    serialize t' v' po2 = (true, text2, clear_params po2) /\
    (forall po1, exists po1', deserialize t (dflt t) text2 po1 = Some (true, persist t v, po1')).
Proof. exact evolve_there_and_back. Qed.
Print Assumptions C62_there_and_back.

(** From the schemas: if the fields with the same JSON names of corresponding messages are alike
    (SpecVersions.v), the classes of one version read what those of the other write. *)
Theorem C62_schema : forall cfg srt text path p env cfg' srt' text' path' p' env' R,
  build_fine cfg -> permutes srt -> parse text path = POk p -> proto_fine p -> (forall h, wanted (pr_messages p) h -> cpp_fine p h) -> wire_fine false p -> compiles cfg srt text path env ->
  build_fine cfg' -> permutes srt' -> parse text' path' = POk p' -> proto_fine p' -> (forall h, wanted (pr_messages p') h -> cpp_fine p' h) -> wire_fine false p' -> compiles cfg' srt' text' path' env' ->
  compatible p p' R ->
  forall pkg name t pkg' name' t' v po, In (pkg, name, t) env -> In (pkg', name', t') env' -> R (pkg, name) (pkg', name') ->
  has_ty t v = true -> jsonable (po_ea po) false t v -> no_nulls t v ->
  exists out v', serialize t v po = (true, out, clear_params po) /\ carries (po_sn po) t v t' v' /\
    forall w1 w2 po2, ws w1 -> ws w2 -> exists po2', deserialize t' (dflt t') (w1 ++ out ++ w2) po2 = Some (true, v', po2').
Proof. exact schema_reads. Qed.
Print Assumptions C62_schema.

(** Adding a field is not always safe: the first field of type repeated bytes changes what the
    other bytes fields are written as (C40), and old objects are refused. *)
Theorem C62_added_field_refuted : exists t t' v u,
  compiles bare (fun l => l) (b "message P{repeated int32 tags=1;bytes raw=2;}") (b "f") [([], b "P", t)] /\
  compiles bare (fun l => l) (b "message P{repeated int32 tags=1;bytes raw=2;repeated bytes more=3;}") (b "f") [([], b "P", t')] /\
  serialize t v None = (true, b "{""raw"":[120]}", None) /\
  deserialize t (dflt t) (b "{""raw"":[120]}") None = Some (true, v, None) /\
  deserialize t' (dflt t') (b "{""raw"":[120]}") None = Some (false, u, None).
Proof. exact raw_refused. Qed.
Print Assumptions C62_added_field_refuted.

(** Fields removed, added, renamed, reordered, with other types (EvolveSamples.v): -1 as int64
    becomes 4294967295 as uint32. *)
Example C62_reads_applies : tables_ok false old_P /\ tables_ok false new_P /\ lookup_ok new_P /\ has_ty old_P old_object = true /\
  jsonable false false old_P old_object /\ carries false old_P old_object new_P new_object.
Proof. exact (conj (proj1 old_tables) (conj (proj1 new_tables) (conj (proj1 (proj2 new_tables)) (conj eq_refl (conj old_jsonable old_carries))))). Qed.
Example C62_reads_holds :
  serialize old_P old_object None = (true, b "{""id"":-1,""name"":""ann"",""tags"":[1,-2],""gone"":""x"",""q"":{""x"":2.500000}}", None) /\
  deserialize new_P (dflt new_P) (b "{""id"":-1,""name"":""ann"",""tags"":[1,-2],""gone"":""x"",""q"":{""x"":2.500000}}") None = Some (true, new_object, None).
Proof. split; vm_compute; reflexivity. Qed.
Example C62_rejects_applies : tables_ok false bad_P /\ lookup_ok bad_P /\ has_ty bad_P (dflt bad_P) = true /\ rejects false old_P old_object bad_P.
Proof. exact (conj (proj1 bad_tables) (conj (proj1 (proj2 bad_tables)) (conj eq_refl old_rejected))). Qed.
Example C62_decided_applies : sized old_P /\ sized new_P /\ sized bad_P /\ ~ null_value old_object.
Proof. exact (conj (proj2 (proj2 old_tables)) (conj (proj2 (proj2 new_tables)) (conj (proj2 (proj2 bad_tables)) (fun f => f)))). Qed.
Example C62_same_applies : faithful false old_P old_object /\ persist old_P old_object = old_object.
Proof. exact (conj old_faithful eq_refl). Qed.
Example C62_evolves_applies : evolves old_P new_P /\ no_nulls old_P old_object.
Proof. exact (conj old_evolves old_no_nulls). Qed.
Example C62_there_applies : tables_ok false more_P /\ lookup_ok more_P /\ sized more_P /\ extends old_P more_P /\ faithful false old_P old_object.
Proof. exact (conj (proj1 more_tables) (conj (proj1 (proj2 more_tables)) (conj (proj2 (proj2 more_tables)) (conj old_more old_faithful)))). Qed.
Example C62_schema_applies : build_fine bare /\ permutes (fun l => l) /\
  parse old_text (b "f") = POk old /\ proto_fine old /\ (forall h, wanted (pr_messages old) h -> cpp_fine old h) /\ wire_fine false old /\
  compiles bare (fun l => l) old_text (b "f") [([], b "Q", old_Q); ([], b "P", old_P)] /\
  parse new_text (b "f") = POk new /\ proto_fine new /\ (forall h, wanted (pr_messages new) h -> cpp_fine new h) /\ wire_fine false new /\
  compiles bare (fun l => l) new_text (b "f") [([], b "Q", new_Q); ([], b "P", new_P)] /\ compatible old new same_name.
Proof. exact (conj bare_fine (conj id_permutes (conj old_parsed (conj old_fine (conj old_cpp (conj old_wire (conj old_compiles (conj new_parsed (conj new_fine (conj new_cpp (conj new_wire (conj new_compiles old_new)))))))))))). Qed.
