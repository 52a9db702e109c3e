(** C35: option values are type-checked and the last one wins. *)
From Verif Require Import Bytes BaseProofs ProtoLex ProtoParse SpecProto SpecSchema Cpp Gen MainC SpecGen SpecCpp SpecFile SpecOpts GenText GenFile PAcceptProofs PSamples BackProofs BackMore BackSamples.

(** The generator succeeds exactly on fine trees ([proto_fine]: boolean options have boolean
    values, names are strings without quotes, at most 64 fields, no cycle); otherwise it
    throws, and the message says what is wrong ([failure]). *)
Theorem C35_exact : forall cfg p, build_fine cfg -> refs_ok (pr_messages p) ->
  (proto_fine p /\ exists h order, wanted (pr_messages p) h /\ well_ordered (pr_messages p) order /\
     generate cfg p = (output_text cfg (pr_file p) h (classes_of p order), GOk (h, classes_of p order))) \/
  (~ proto_fine p /\ exists t e l c, generate cfg p = (t, GThrow e l c) /\ failure p e l c).
Proof. exact generate_exact. Qed.
Print Assumptions C35_exact.

(** The compiler on the text of a schema.  [schema_fine] looks at the last value of every
    option only. *)
Theorem C35_schema : forall cfg srt stray decls text next path, build_fine cfg -> permutes srt ->
  laid stray (schema_pieces decls) text next -> schema_ok decls -> sep stray next ->
  (schema_fine decls /\ exists out d, run_text cfg srt (text ++ next) path = CExit 0 [] out (Some d)) \/
  (~ schema_fine decls /\ exists err out, run_text cfg srt (text ++ next) path = CExit 1 err out None).
Proof. exact schema_compiles. Qed.
Print Assumptions C35_schema.

(** The value used is the last one: boolean options ... *)
Theorem C35_last_bool : forall o l n, options_are o l ->
  (is_bool o n <-> bool_opt l n) /\ (bool_opt l n -> opt_bool o n false = ([], GOk (on l n))).
Proof.
  exact (fun o l n H => conj (proj1 (options_bool o l n H))
    (fun B => eq_trans (opt_bool_eq o n (proj2 (proj1 (options_bool o l n H)) B))
                       (f_equal (fun x => ([], GOk x)) (proj2 (options_bool o l n H) B)))).
Qed.
Print Assumptions C35_last_bool.

(** ... and the name of a field. *)
Theorem C35_last_name : forall all pkg f s, field_is all pkg f s ->
  (field_fine f <-> field_opts_fine s) /\
  (field_opts_fine s -> transient f = on (sf_opts s) (b "transient") /\ (transient f = false -> given_name f = sname s)).
Proof. exact field_opts. Qed.
Print Assumptions C35_last_name.

Example C35_exact_applies : build_fine bare /\ refs_ok (pr_messages test1) /\ proto_fine test1.
Proof. exact (conj bare_fine (conj test1_refs test1_fine)). Qed.

(** The sample has an option given twice and a transient field with a name. *)
Example C35_schema_applies : build_fine bare /\ permutes (fun l => l) /\
  laid false (schema_pieces sample) sample_text [LF] /\ schema_ok sample /\ sep false [LF] /\
  match run_text bare (fun l => l) (sample_text ++ [LF]) [] with CExit 0 [] _ (Some _) => True | _ => False end.
Proof.
  split; [exact bare_fine|]. split; [exact id_permutes|].
  split; [apply sample_laid; right; exists LF, []; split; [reflexivity|cbn; auto]|]. split; [exact sample_ok|].
  split; [apply sep_blank; [cbn; auto|constructor]|]. vm_compute. exact I.
Qed.

Definition option_text (o : bytes) : bytes := o ++ b "message M{int32 a=1;}".
Definition field_text (o : bytes) : bytes := b "message M{int32 a=1[" ++ o ++ b "];}".
Definition stderr (text : bytes) : bytes := match run_text bare (fun l => l) text (b "f") with CExit _ e _ _ => e | _ => [] end.

(** One of each failure, and values that a later one replaces. *)
Example C35_failure :
  stderr (option_text (b "option number_names=1;")) = b "f:1:1: error: The value for 'number_names' must be a boolean (1:1)" ++ [LF].
Proof. vm_compute. reflexivity. Qed.

Example C35_values :
  stderr (option_text (b "option cpp_use_lists=on;option cpp_use_lists=true;")) = [] /\
  stderr (field_text (b "transient=yes")) = b "f:1:1: error: The value for 'transient' must be a boolean (1:1)" ++ [LF] /\
  stderr (field_text (b "transient=yes,transient=false")) = [] /\
  stderr (field_text (b "name=x")) = b "f:1:1: error: The value for 'name' must be a string (1:1)" ++ [LF] /\
  stderr (field_text (b "name=""it's""")) = b "f:1:1: error: option 'name' in the field 'a' must not contain quotes (1:1)" ++ [LF] /\
  stderr (field_text (b "name=""it's"",transient=true")) = [] /\
  stderr (field_text (b "name=""it's"",name=""its""")) = [].
Proof. repeat split; vm_compute; reflexivity. Qed.

Example C35_last_bool_applies : exists o l, options_are o l /\ last_value l (b "x") = Some (SBool true) /\ on l (b "x") = true.
Proof.
  exists [OE (b "x") OBoolean (b "true") 3], [(b "x", SInt (b "1")); (b "x", SBool true)]. split; [|split; reflexivity].
  intros n. unfold o_find; cbn [last_value find o_name]. destruct (bytes_eqb (b "x") n) eqn:E; [|exact I].
  apply bytes_eqb_true in E. subst. repeat split.
Qed.

Example C35_last_name_applies : exists all pkg f s, field_is all pkg f s /\ field_opts_fine s /\ sname s = b "x y".
Proof.
  exists [], [], (Fld FInt32 [] None false false (b "a") 1 [OE (b "name") OString (b "x y") 1]), (SField SPlain SInt32 (b "a") 1 [(b "name", SStr (b "z")); (b "name", SStr (b "x y"))]).
  split; [|split; [|reflexivity]].
  - repeat split. intros n. unfold o_find; cbn [last_value find o_name sf_opts f_options]. destruct (bytes_eqb (b "name") n) eqn:E; [|exact I].
    apply bytes_eqb_true in E. subst. repeat split.
  - split; [exact I|]. intros _. split; intros H; vm_compute in H; repeat (destruct H as [H|H]; [discriminate H|]); exact H.
Qed.
