(** C42: order of the members. *)
From Coq Require Import Permutation Sorted.
From Verif Require Import Bytes Num Types Read Write SpecJson SpecInterp SpecWrite ProtoLex ProtoParse SpecProto SpecSchema Cpp Gen MainC SpecGen SpecCpp SpecFile SpecOpts GenText GenFile BackProofs BackMore BackSamples
  SpecProgram SpecOrder SpecEnd ProgramProofs NameProofs OrderProofs CheckProofs EndProofs EndSamples.

(** Files that differ in the order of the fields (and in layout) give the same output, if the
    fields of a message have distinct names. *)
Theorem C42_reordered : forall cfg srt text text' path p p', build_fine cfg -> sorts srt ->
  parse text path = POk p -> parse text' path = POk p' -> reordered p p' -> distinct_names p -> proto_fine p ->
  run_text cfg srt text path = run_text cfg srt text' path.
Proof. exact reordered_run. Qed.
Print Assumptions C42_reordered.

(** The same for texts of schemas. *)
Theorem C42_schemas : forall cfg srt stray d d' text text' next next' path, build_fine cfg -> sorts srt ->
  laid stray (schema_pieces d) text next -> schema_ok d -> sep stray next ->
  laid stray (schema_pieces d') text' next' -> schema_ok d' -> sep stray next' ->
  schema_reordered d d' -> schema_distinct d -> schema_fine d ->
  run_text cfg srt (text ++ next) path = run_text cfg srt (text' ++ next') path.
Proof. exact schema_reordered_run. Qed.
Print Assumptions C42_schemas.

(** The members of every class are the fields of its message, sorted by name. *)
Theorem C42_members : forall cfg srt text path p h cs out, build_fine cfg -> sorts srt -> parse text path = POk p ->
  run_text cfg srt text path = CExit 0 [] out (Some (h, cs)) ->
  forall c, In c cs -> exists m, In m (pr_messages p) /\ c_name c = m_name m /\
    Permutation (map snd (c_members c)) (map f_name (m_fields m)) /\
    StronglySorted (fun x y => ~ name_lt y x) (map snd (c_members c)).
Proof. exact run_members. Qed.
Print Assumptions C42_members.

(** Such a sorting routine exists. *)
Theorem C42_sorts : exists srt, sorts srt.
Proof. exact (ex_intro _ insertion_sort insertion_sorts). Qed.
Print Assumptions C42_sorts.

Example C42_reordered_applies : exists p p', parse (b "message M{int32 b=1;string a=2;}") (b "f") = POk p /\ parse (b "message M{ string a=2;int32 b=1;}") (b "f") = POk p' /\
  p <> p' /\ reordered p p' /\ distinct_names p /\ proto_fine p.
Proof.
  eexists _, _. split; [vm_compute; reflexivity|]. split; [vm_compute; reflexivity|]. split; [discriminate|]. split; [|split].
  - split; [|intros n; reflexivity]. constructor; [|constructor]. split; [reflexivity|]. split; [reflexivity|]. cbn [m_fields].
    eexists. split; [apply perm_swap|]. repeat constructor.
  - intros m [<-|[]]. cbn. repeat constructor; cbn; intuition discriminate.
  - apply succeeds_fine; [|vm_compute; reflexivity]. intros m f [<-|[]] F. cbn [m_fields] in F. destruct F as [<-|[<-|[]]]; cbn [f_ref f_type]; split; discriminate.
Qed.
Example C42_schemas_applies : build_fine bare /\ sorts insertion_sort /\
  laid false (schema_pieces forth) (spaced forth) [] /\ schema_ok forth /\ laid false (schema_pieces back) (spaced back) [] /\ schema_ok back /\ sep false [] /\
  schema_reordered forth back /\ schema_distinct forth /\ schema_fine forth.
Proof.
  pose proof (swap_ok forth (or_introl eq_refl)) as A. pose proof (swap_ok back (or_intror eq_refl)) as B.
  exact (conj bare_fine (conj insertion_sorts (conj (spaced_laid _ (proj1 A)) (conj A (conj (spaced_laid _ (proj1 B)) (conj B (conj (sep_nil _) (conj (proj1 swapped) (conj (proj2 swapped) swap_fine))))))))).
Qed.
Example C42_members_applies : match run_text bare insertion_sort (spaced back) (b "f") with CExit 0 [] _ (Some (_, [c])) => map snd (c_members c) | _ => [] end = [b "alpha"; b "beta"; b "gamma"].
Proof. vm_compute. reflexivity. Qed.
