(** C32: JSON names dispatch to the right field. *)
From Coq Require Import Permutation Sorted.
From Verif Require Import Bytes Num Types Read Write SpecJson SpecInterp SpecWrite ProtoLex ProtoParse SpecProto SpecSchema Cpp Gen MainC SpecGen SpecCpp SpecFile SpecOpts GenText GenFile BackProofs BackMore BackSamples
  SpecProgram SpecOrder SpecEnd ProgramProofs NameProofs OrderProofs CheckProofs EndProofs EndSamples.

(** For every schema that the compiler and C++ accept: the class of a message writes its
    persistent fields in order under their names ([wire]: the JSON name, or what obfuscation
    makes of it).  If these are distinct the lookup finds every field under its name, and
    nothing under another name; of two fields with the same name the later is written and
    never found. *)
Theorem C32_dispatch : forall cfg srt text path p, build_fine cfg -> permutes srt -> parse text path = POk p -> proto_fine p ->
  (forall h, wanted (pr_messages p) h -> cpp_fine p h) ->
  exists out h cs env, run_text cfg srt text path = CExit 0 [] out (Some (h, cs)) /\ program_ty h cs = Some env /\
    Forall2 (fun c e => exists m g ms, In m (pr_messages p) /\ e = (m_package m, m_name m, TMsg ms g) /\ c_name c = m_name m /\
               g_write g = wire_at (sort_fields srt p) 0 (srt (m_fields m)) /\ dispatches g) cs env.
Proof. exact compiled_dispatch. Qed.
Print Assumptions C32_dispatch.

Example C32_applies : build_fine bare /\ permutes (fun l => l) /\ parse pair_text (b "f") = POk pair /\ proto_fine pair /\
  (forall h, wanted (pr_messages pair) h -> cpp_fine pair h) /\
  compiles bare (fun l => l) pair_text (b "f") [([], b "A", pair_A); ([], b "B", pair_B)].
Proof. exact (conj bare_fine (conj id_permutes (conj pair_parsed (conj pair_fine (conj pair_cpp pair_compiles))))). Qed.

(** test1.proto of the project, with the fields sorted. *)
Example C32_test1 : build_fine bare /\ permutes insertion_sort /\ parse test1_text (b "/repo/tests/test1.proto") = POk test1 /\ proto_fine test1 /\
  (forall h, wanted (pr_messages test1) h -> cpp_fine test1 h).
Proof. exact (conj bare_fine (conj insertion_permutes (conj test1_parsed (conj test1_fine test1_cpp)))). Qed.

(** Two fields with the same JSON name. *)
Example C32_duplicate : exists ms g, compiles bare (fun l => l) (b "message M{int32 a=1[name=""n""];bool c=2[name=""n""];}") (b "f") [([], b "M", TMsg ms g)] /\
  g_write g = [(0%nat, b "n"); (1%nat, b "n")] /\ select_member g (b "n") = Some 0%nat /\ select_member g (b "c") = None.
Proof.
  exists [TField (PInt true 32); TField PBool], (GC [(0%nat, b "n"); (1%nat, b "n")] false [(b "n", 0); (b "n", 1)] [(0, 0%nat); (1, 1%nat)]).
  refine (conj _ (conj eq_refl (conj _ _))); [apply compiled_ok|..]; vm_compute; reflexivity.
Qed.
