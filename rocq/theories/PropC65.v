(** C65: exactly which schemas give a header that C++ accepts, and the JSON names of their fields. *)
From Coq Require Import Permutation.
From Verif Require Import Bytes Num Types Read Write SpecJson SpecInterp SpecWrite ProtoLex ProtoParse SpecProto Cpp Gen MainC SpecGen SpecCpp SpecFile SpecOpts GenText GenFile BackProofs BackSamples
  SpecProgram SpecEnd EndSamples Scope SpecScope SpecLiteral LiteralProofs SpecHeader HeaderProofs HeaderEnd.

(** What is printed between quotes is a string literal exactly when it denotes characters, and
    then the program sees those. *)
Theorem C65_literal : forall s,
  (forall v, cpp_lit s = Some v <-> denotes s v) /\ (forall n, lit_string s = Some n <-> exists v, denotes s v /\ to_nul v n).
Proof. exact (fun s => conj (cpp_lit_iff s) (lit_string_iff s)). Qed.
Print Assumptions C65_literal.

(** The compiler exits with 0 on a schema that it accepts, and C++ accepts the classes that it
    prints exactly when the schema is [accepted]. *)
Theorem C65_exact : forall cfg srt text path p, build_fine cfg -> permutes srt -> parse text path = POk p -> proto_fine p ->
  exists out h cs, run_text cfg srt text path = CExit 0 [] out (Some (h, cs)) /\ wanted (pr_messages p) h /\
    ((exists env, program_ty h cs = Some env) <-> accepted p).
Proof. exact accept_exact. Qed.
Print Assumptions C65_exact.

(** With the lookup of names (C55): the whole header. *)
Theorem C65_header : forall cfg srt text path p, build_fine cfg -> permutes srt -> parse text path = POk p -> proto_fine p ->
  exists out h cs ms, run_text cfg srt text path = CExit 0 [] out (Some (h, cs)) /\ Permutation ms (pr_messages p) /\
    map (fun c => (c_pkg c, c_name c)) cs = map (fun m => (m_package m, m_name m)) ms /\
    forall lib pl, (exists env, header_ty lib pl h cs = Some env) <-> accepted p /\ lookup_fine lib ms /\ outside_fine lib pl ms.
Proof. exact accept_header. Qed.
Print Assumptions C65_header.

(** The classes of every schema that compiles: one for every message, with a member for every
    field, the fields that are not transient written under the names that their literals denote. *)
Theorem C65_types : forall cfg srt text path p env, build_fine cfg -> permutes srt -> parse text path = POk p -> compiles cfg srt text path env ->
  accepted p /\ Permutation (map fst env) (map (fun m => (m_package m, m_name m)) (pr_messages p)) /\
  forall pkg name t, In (pkg, name, t) env ->
    (exists m ms g, In m (pr_messages p) /\ m_package m = pkg /\ m_name m = name /\ t = TMsg ms g /\ length ms = length (m_fields m) /\
       written_as p 0 (srt (m_fields m)) (g_write g) /\ dispatches g) /\
    lookup_ok t /\ (forall strict, known_fine strict p -> tables_ok strict t).
Proof. exact accept_types. Qed.
Print Assumptions C65_types.

(** So C50 holds for every schema that compiles, without its conditions on names: reading, *)
Theorem C65_reads : forall cfg srt text path p env strict, build_fine cfg -> permutes srt -> parse text path = POk p -> compiles cfg srt text path env ->
  forall pkg name t v j inp po, In (pkg, name, t) env -> jdoc strict j inp -> has_ty t v = true ->
  exists po', deserialize t v inp po = Some (match fst (interp t v j) with RGood => true | _ => false end, snd (interp t v j), po').
Proof. exact accept_reads. Qed.
Print Assumptions C65_reads.

(** writing, when the names denoted are distinct and need no escape in JSON, *)
Theorem C65_writes : forall cfg srt text path p env strict, build_fine cfg -> permutes srt -> parse text path = POk p -> compiles cfg srt text path env -> known_fine strict p ->
  forall pkg name t v po, In (pkg, name, t) env -> jsonable (po_ea po) strict t v ->
  exists out, serialize t v po = (true, out, clear_params po) /\ jtext strict (tojson (po_sn po) t v) out.
Proof. exact accept_writes. Qed.
Print Assumptions C65_writes.

(** and both in turn. *)
Theorem C65_round_trip : forall cfg srt text path p env, build_fine cfg -> permutes srt -> parse text path = POk p -> compiles cfg srt text path env -> known_fine false p ->
  forall pkg name t v po, In (pkg, name, t) env -> jsonable (po_ea po) false t v -> faithful (po_sn po) t v ->
  exists out, serialize t v po = (true, out, clear_params po) /\
    forall w1 w2 po2, ws w1 -> ws w2 -> exists po2', deserialize t (dflt t) (w1 ++ out ++ w2) po2 = Some (true, persist t v, po2').
Proof. exact accept_round_trip. Qed.
Print Assumptions C65_round_trip.

(** The claim that whatever compiles writes JSON is false: names are not escaped, and a name may
    hold any character. *)
Theorem C65_json_refuted : exists text t v out, compiles bare (fun l => l) text (b "f") [([], b "M", t)] /\
  jsonable false true t v /\ serialize t v None = (true, out, None) /\ forall j, ~ jdoc true j out.
Proof. exact (ex_intro _ _ (ex_intro _ _ (ex_intro _ _ (ex_intro _ _ (conj control_compiles control_written))))). Qed.
Print Assumptions C65_json_refuted.

Example C65_applies : build_fine bare /\ permutes (fun l => l) /\ parse escaped_text (b "f") = POk escaped /\
  compiles bare (fun l => l) escaped_text (b "f") [([], b "M", escaped_ty)] /\ known_fine true escaped /\ known_fine false escaped /\
  jsonable false true escaped_ty escaped_object /\ faithful false escaped_ty escaped_object /\ has_ty escaped_ty escaped_object = true.
Proof. exact (conj bare_fine (conj id_permutes (conj escaped_parsed (conj escaped_compiles (conj (escaped_known true) (conj (escaped_known false) (conj escaped_jsonable (conj escaped_faithful eq_refl)))))))). Qed.
Example C65_written : serialize escaped_ty escaped_object None =
  (true, b "{""x/y"":7,""caf" ++ [chr 195; chr 169] ++ b """:""s"",""At"":true}", None).
Proof. vm_compute. reflexivity. Qed.
Example C65_literals : cpp_lit (b "a\x41g\101\u20ac??/n") = Some (b "aAgA" ++ [chr 226; chr 130; chr 172; LF]) /\
  cpp_lit (b "\q") = None /\ cpp_lit (b "\x100") = None /\ cpp_lit (b "\ud800") = None /\ cpp_lit (b "\u12") = None /\ cpp_lit (b "a\") = None.
Proof. vm_compute. repeat split. Qed.
(** Schemas that the compiler accepts and C++ does not. *)
Example C65_rejected : map (fun t => (runs (b t), compiled (b t) (b "f")))
  ["message M{int32 a=1[name=""\q""];}"; "message M{int32 int=1;}"; "message M{int32 xor=1;}"; "message M{int32 a=1;int32 a=2;}"; "message class{int32 a=1;}"]%string =
  repeat (0, None) 5.
Proof. vm_compute. reflexivity. Qed.
