(** C50: from the schema to the behaviour of the generated classes. *)
From Coq Require Import Permutation Sorted.
From Verif Require Import Bytes Num Types Read Write SpecJson SpecInterp SpecWrite SampleProofs ProtoLex ProtoParse SpecProto SpecSchema Cpp Gen MainC SpecGen SpecCpp SpecFile SpecOpts GenText GenFile BackProofs BackMore BackSamples
  SpecProgram SpecOrder SpecEnd ProgramProofs NameProofs OrderProofs CheckProofs EndProofs EndSamples.

(** For every schema that the compiler and C++ accept, the classes are those of its messages,
    and their types meet the hypotheses of the theorems on the runtime. *)
Theorem C50_types : forall cfg srt text path p, build_fine cfg -> permutes srt -> parse text path = POk p -> proto_fine p ->
  (forall h, wanted (pr_messages p) h -> cpp_fine p h) ->
  exists out h cs env, run_text cfg srt text path = CExit 0 [] out (Some (h, cs)) /\ program_ty h cs = Some env /\
    Permutation (map fst env) (map (fun m => (m_package m, m_name m)) (pr_messages p)) /\
    forall pkg name t, In (pkg, name, t) env -> lookup_ok t /\ (forall strict, wire_fine strict p -> tables_ok strict t).
Proof. exact end_types. Qed.
Print Assumptions C50_types.

(** So objects of these classes are written as JSON, *)
Theorem C50_writes : forall cfg srt text path p env strict, build_fine cfg -> permutes srt -> parse text path = POk p -> proto_fine p ->
  (forall h, wanted (pr_messages p) h -> cpp_fine p h) -> wire_fine strict p -> compiles cfg srt text path env ->
  forall pkg name t v po, In (pkg, name, t) env -> jsonable (po_ea po) strict t v ->
  exists out, serialize t v po = (true, out, clear_params po) /\ jtext strict (tojson (po_sn po) t v) out.
Proof. exact end_writes. Qed.
Print Assumptions C50_writes.

(** JSON documents are read as their meaning says, *)
Theorem C50_reads : forall cfg srt text path p env strict, build_fine cfg -> permutes srt -> parse text path = POk p -> proto_fine p ->
  (forall h, wanted (pr_messages p) h -> cpp_fine p h) -> compiles cfg srt text path env ->
  forall pkg name t v j inp po, In (pkg, name, t) env -> jdoc strict j inp -> has_ty t v = true ->
  exists po', deserialize t v inp po = Some (match fst (interp t v j) with RGood => true | _ => false end, snd (interp t v j), po').
Proof. exact end_reads. Qed.
Print Assumptions C50_reads.

(** and what was written is read back. *)
Theorem C50_round_trip : forall cfg srt text path p env, build_fine cfg -> permutes srt -> parse text path = POk p -> proto_fine p ->
  (forall h, wanted (pr_messages p) h -> cpp_fine p h) -> wire_fine false p -> compiles cfg srt text path env ->
  forall pkg name t v po, In (pkg, name, t) env -> jsonable (po_ea po) false t v -> faithful (po_sn po) t v ->
  exists out, serialize t v po = (true, out, clear_params po) /\
    forall w1 w2 po2, ws w1 -> ws w2 -> exists po2', deserialize t (dflt t) (w1 ++ out ++ w2) po2 = Some (true, persist t v, po2').
Proof. exact end_round_trip. Qed.
Print Assumptions C50_round_trip.

(** Without obfuscation, number_names and other JSON names, distinct names of fields are all
    that [wire_fine] asks for. *)
Theorem C50_plain : forall text path p, parse text path = POk p ->
  flag (pr_options p) (b "number_names") = false -> flag (pr_options p) (b "obfuscate_strings") = false ->
  (forall m, In m (pr_messages p) -> NoDup (map f_name (m_fields m))) ->
  (forall m f, In m (pr_messages p) -> In f (m_fields m) -> transient f = false -> given_name f = f_name f) ->
  wire_fine true p /\ forall m f, In m (pr_messages p) -> In f (written m) -> wire p f = f_name f /\ literal_fine (json_label false f).
Proof. exact plain_wire. Qed.
Print Assumptions C50_plain.

Example C50_applies : build_fine bare /\ permutes (fun l => l) /\ parse pair_text (b "f") = POk pair /\ proto_fine pair /\
  (forall h, wanted (pr_messages pair) h -> cpp_fine pair h) /\ wire_fine true pair /\ wire_fine false pair /\
  compiles bare (fun l => l) pair_text (b "f") [([], b "A", pair_A); ([], b "B", pair_B)] /\
  jsonable false true pair_B pair_object /\ jsonable false false pair_B pair_object /\ faithful false pair_B pair_object /\ has_ty pair_B pair_object = true.
Proof.
  refine (conj bare_fine (conj id_permutes (conj pair_parsed (conj pair_fine (conj pair_cpp (conj pair_wire (conj _ (conj pair_compiles (conj pair_jsonable (conj (jsonable_lax _ _ _ pair_jsonable) (conj pair_faithful eq_refl))))))))))).
  apply wire_checked. vm_compute. reflexivity.
Qed.
Example C50_round_trip_holds : serialize pair_B pair_object None = (true, b "{""a"":{""x"":-7,""s"":[""one"",""""]},""the name"":""text \""x\""""}", None) /\
  deserialize pair_B (dflt pair_B) (b "{""a"":{""x"":-7,""s"":[""one"",""""]},""the name"":""text \""x\""""}") None = Some (true, persist pair_B pair_object, None).
Proof. split; vm_compute; reflexivity. Qed.
Example C50_test1 : proto_fine test1 /\ (forall h, wanted (pr_messages test1) h -> cpp_fine test1 h) /\ wire_fine true test1.
Proof. exact (conj test1_fine (conj test1_cpp test1_wire)). Qed.
Example C50_plain_applies : exists p, parse (b "message M{int32 message=1;bool t=2;}") (b "f") = POk p /\
  flag (pr_options p) (b "number_names") = false /\ flag (pr_options p) (b "obfuscate_strings") = false /\
  (forall m, In m (pr_messages p) -> NoDup (map f_name (m_fields m))) /\
  (forall m f, In m (pr_messages p) -> In f (m_fields m) -> transient f = false -> given_name f = f_name f).
Proof.
  eexists. split; [vm_compute; reflexivity|]. split; [reflexivity|]. split; [reflexivity|]. split.
  - intros m [<-|[]]. cbn. repeat constructor; cbn; intuition discriminate.
  - intros m f [<-|[]] F _. cbn [m_fields] in F. destruct F as [<-|[<-|[]]]; reflexivity.
Qed.
