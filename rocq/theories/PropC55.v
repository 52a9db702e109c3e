(** C55: names of the schema that disturb the generated header. *)
From Coq Require Import Permutation.
From Verif Require Import Bytes Num Types ProtoLex ProtoParse SpecProto Cpp Gen MainC SpecGen SpecFile SpecOpts BackSamples SpecProgram PSamples EndSamples Scope SpecScope ScopeProofs ScopeSamples.

(** The header's own names keep their meaning exactly if no enclosing namespace has something
    declared earlier that is called like one of them, no field is called like an integer type
    used in its message, and neither the global namespace nor a macro has one of the names.
    [ms]: the messages in the order of the header. *)
Theorem C55_exact : forall cfg srt text path err out h cs, build_fine cfg -> permutes srt ->
  run_text cfg srt text path = CExit 0 err out (Some (h, cs)) ->
  exists p ms, parse text path = POk p /\ Permutation ms (pr_messages p) /\
    map (fun c => (c_pkg c, c_name c)) cs = map (fun m => (m_package m, m_name m)) ms /\
    forall lib pl, scopes_ok lib pl cs = true <-> lookup_fine lib ms /\ outside_fine lib pl ms.
Proof. exact scope_run. Qed.
Print Assumptions C55_exact.

(** In particular if none of them is the name of a message, a field or a component of a
    package. *)
Theorem C55_apart : forall cfg srt text path p pl, build_fine cfg -> permutes srt -> parse text path = POk p -> proto_fine p ->
  (forall h, wanted (pr_messages p) h -> cpp_fine p h) ->
  let lib := b "protogen" ++ b_naming cfg in
  ~ In "."%char lib -> names_apart lib (pr_messages p) -> outside_fine lib pl (pr_messages p) ->
  exists out h cs env, run_text cfg srt text path = CExit 0 [] out (Some (h, cs)) /\
    program_ty h cs = Some env /\ header_ty lib pl h cs = Some env.
Proof. exact header_fine. Qed.
Print Assumptions C55_apart.

(** Schemas that the compiler takes without complaint, that use no keyword and declare
    nothing twice, and whose headers do not compile: package a.std; a message int32_t before
    a message that has an int32; a field int32_t of that type. *)
Theorem C55_captured_refuted : captured std_text /\ captured type_text /\ captured member_text.
Proof. exact (conj std_captured (conj type_captured member_captured)). Qed.
Print Assumptions C55_captured_refuted.

Example C55_applies : build_fine bare /\ permutes (fun l => l) /\ proto_fine test1 /\ (forall h, wanted (pr_messages test1) h -> cpp_fine test1 h) /\
  ~ In "."%char bare_lib /\ names_apart bare_lib (pr_messages test1) /\ outside_fine bare_lib some_platform (pr_messages test1).
Proof. exact (conj bare_fine (conj id_permutes (conj test1_fine (conj test1_cpp (conj bare_dotless (conj test1_apart test1_outside)))))). Qed.

(** The order matters: the same two messages the other way round. *)
Example C55_order : exists out h cs env, run_text bare (fun l => l) late_text (b "f") = CExit 0 [] out (Some (h, cs)) /\
  header_ty bare_lib (Platform [] []) h cs = Some env.
Proof. exact late_fine. Qed.
