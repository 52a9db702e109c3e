(** C40: serializers in the generated header. *)
From Coq Require Import Permutation Sorted.
From Verif Require Import Bytes Num Types Read Write SpecJson SpecInterp SpecWrite ProtoLex ProtoParse SpecProto SpecSchema Cpp Gen MainC SpecGen SpecCpp SpecFile SpecOpts GenText GenFile BackProofs BackMore BackSamples
  SpecProgram SpecOrder SpecEnd ProgramProofs NameProofs OrderProofs CheckProofs EndProofs EndSamples.

(** For every schema whose names suit C++: the header contains the serializers for arrays,
    numbers and strings exactly if a field uses them, that for Base64 exactly if a field is
    'repeated bytes'.  It compiles exactly if, in case a field is bytes, there is a 'repeated
    bytes' field, or a repeated and a numeric one. *)
Theorem C40_exact : forall cfg srt text path p, build_fine cfg -> permutes srt -> parse text path = POk p -> proto_fine p -> names_cpp p ->
  exists out h cs, run_text cfg srt text path = CExit 0 [] out (Some (h, cs)) /\ wanted (pr_messages p) h /\
    ((exists env, program_ty h cs = Some env) <->
     (uses (pr_messages p) (fun f => f_type f = FBytes) ->
      uses (pr_messages p) (fun f => f_repeated f = true /\ f_type f = FBytes) \/
      uses (pr_messages p) (fun f => f_repeated f = true) /\ uses (pr_messages p) numeric)).
Proof. exact bytes_exact. Qed.
Print Assumptions C40_exact.

(** The types of the members: bytes are Base64 if the serializer is there, otherwise an array
    of numbers.  ('repeated bytes' is the same type as 'bytes'.) *)
Theorem C40_types : forall cfg srt text path p, build_fine cfg -> permutes srt -> parse text path = POk p -> proto_fine p ->
  (forall h, wanted (pr_messages p) h -> cpp_fine p h) ->
  exists out h cs env, run_text cfg srt text path = CExit 0 [] out (Some (h, cs)) /\ wanted (pr_messages p) h /\ program_ty h cs = Some env /\
    forall pkg name t, In (pkg, name, t) env -> exists m ms g, In m (pr_messages p) /\ m_package m = pkg /\ m_name m = name /\ t = TMsg ms g /\
      Forall2 (base_ty h) (srt (m_fields m)) ms.
Proof. exact member_types. Qed.
Print Assumptions C40_types.

(** The property is false: a schema with one bytes field is accepted and the header does not
    compile; beside a repeated number, bytes are written as numbers. *)
Theorem C40_refuted :
  (runs (b "message M{bytes a=1;}") = 0 /\ compiled (b "message M{bytes a=1;}") (b "f") = None) /\
  (compiles bare (fun l => l) (b "message M{bytes a=1;repeated int32 c=2;}") (b "f") [([], b "M", numbers_ty)] /\
   serialize numbers_ty (VMsg [VList [VPrim (VInt 104); VPrim (VInt 105)]; VList []]) None = (true, b "{""a"":[104,105]}", None)).
Proof. exact bytes_wrong. Qed.
Print Assumptions C40_refuted.

Example C40_applies : build_fine bare /\ permutes insertion_sort /\ parse test1_text (b "/repo/tests/test1.proto") = POk test1 /\ proto_fine test1 /\
  names_cpp test1 /\ (forall h, wanted (pr_messages test1) h -> cpp_fine test1 h).
Proof.
  refine (conj bare_fine (conj insertion_permutes (conj test1_parsed (conj test1_fine (conj _ test1_cpp))))).
  apply names_checked. vm_compute. reflexivity.
Qed.
Example C40_base64 : match compiled (b "message M{bytes a=1;repeated bytes c=2;}") (b "f") with Some [(_, _, TMsg ms _)] => ms = [TB64; TB64] | _ => False end.
Proof. vm_compute. reflexivity. Qed.
