(** C33: string obfuscation. *)
From Coq Require Import Permutation Sorted.
From Verif Require Import Bytes Num Types Read Write SpecJson SpecInterp SpecWrite ProtoLex ProtoParse SpecProto SpecSchema Cpp Gen MainC SpecGen SpecCpp SpecFile SpecOpts GenText GenFile BackProofs BackMore BackSamples
  SpecProgram SpecOrder SpecEnd ProgramProofs NameProofs OrderProofs CheckProofs EndProofs EndSamples.

(** A name is the same with and without obfuscation exactly if it does not contain the byte
    equal to the mask for its length. *)
Theorem C33_name : forall l, effective true l = l <-> ~ In (chr (name_mask (length l))) l.
Proof. exact effective_same. Qed.
Print Assumptions C33_name.

(** If no name contains its mask, obfuscation is transparent: names are written and found as
    without it. *)
Theorem C33_transparent : forall cfg srt text path p, build_fine cfg -> permutes srt -> parse text path = POk p -> proto_fine p ->
  (forall h, wanted (pr_messages p) h -> cpp_fine p h) ->
  let numbers := flag (pr_options p) (b "number_names") in
  (flag (pr_options p) (b "obfuscate_strings") = true -> forall m f, In m (pr_messages p) -> In f (m_fields m) -> transient f = false ->
     ~ In (chr (name_mask (length (json_label numbers f)))) (json_label numbers f)) ->
  exists out h cs env, run_text cfg srt text path = CExit 0 [] out (Some (h, cs)) /\ program_ty h cs = Some env /\
    Forall2 (fun c e => exists m g ms, In m (pr_messages p) /\ e = (m_package m, m_name m, TMsg ms g) /\ c_name c = m_name m /\
               g_write g = labels_at numbers 0 (srt (m_fields m)) /\ dispatches g) cs env.
Proof. exact transparent. Qed.
Print Assumptions C33_transparent.

(** The property is false: a field "order" is written as ":", and "order" in a document is not
    recognised, although without obfuscation it is. *)
Theorem C33_refuted : compiles bare (fun l => l) order_text (b "f") [([], b "M", order_ty)] /\
  serialize order_ty (VMsg [VField false (VInt 5)]) None = (true, b "{"":"":5}", None) /\
  deserialize order_ty (dflt order_ty) (b "{""order"":5}") None = Some (true, dflt order_ty, None) /\
  interp (TMsg [TField (PInt true 32)] (GC [(0%nat, b "order")] false [(b "order", 0)] [(0, 0%nat)])) (dflt order_ty) (JObj [(b "order", JNum (b "5"))]) = (RGood, VMsg [VField false (VInt 5)]).
Proof. exact order_wrong. Qed.
Print Assumptions C33_refuted.

Example C33_name_holds : effective true (b "identifier") = b "identifier" /\ effective true (b "e-mail") = b "e-mail" /\ effective true (b "order") <> b "order".
Proof. vm_compute. repeat split. discriminate. Qed.

(** A schema with obfuscation whose names do not contain their masks. *)
Example C33_applies : build_fine bare /\ permutes (fun l => l) /\ parse masked_text (b "f") = POk masked /\ proto_fine masked /\
  (forall h, wanted (pr_messages masked) h -> cpp_fine masked h) /\
  flag (pr_options masked) (b "obfuscate_strings") = true /\ flag (pr_options masked) (b "number_names") = false /\
  forall m f, In m (pr_messages masked) -> In f (m_fields m) -> transient f = false -> ~ In (chr (name_mask (length (json_label false f)))) (json_label false f).
Proof. exact (conj bare_fine (conj id_permutes (conj masked_parsed (conj masked_fine (conj masked_cpp masked_free))))). Qed.
