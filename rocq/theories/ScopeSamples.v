(** Sample schemas whose names disturb the generated header. *)
From Coq Require Import Lia Permutation.
From Verif Require Import Bytes BaseProofs Num Types ProtoLex ProtoParse SpecProto Cpp Gen MainC SpecGen SpecFile SpecOpts SpecTemplate SpecCpp GenFile BackProofs BackSamples SpecProgram CheckProofs PRenderProofs PSamples EndSamples Scope SpecScope ScopeProofs.

Definition bare_lib : bytes := b "protogen" ++ b_naming bare.

(** A package [std] inside another; a message called like a type that a later one uses; a
    field called like the type of a field. *)
Definition std_text : bytes := b "package a.std;message M{bool x=1;}".
Definition type_text : bytes := b "package p;message int32_t{bool y=1;}message M{int32 x=1;}".
Definition member_text : bytes := b "message M{int32 int32_t=1;}".

(** The same type, used before the message is declared: the header is fine. *)
Definition late_text : bytes := b "package p;message M{int32 x=1;}message int32_t{bool y=1;}".

Definition captured (text : bytes) : Prop :=
  exists p out h cs env, parse text (b "f") = POk p /\ proto_fine p /\ (forall h, wanted (pr_messages p) h -> cpp_fine p h) /\
    run_text bare (fun l => l) text (b "f") = CExit 0 [] out (Some (h, cs)) /\ program_ty h cs = Some env /\
    forall pl, header_ty bare_lib pl h cs = None.

Definition capture_check (text : bytes) : bool :=
  match parse text (b "f"), run_text bare (fun l => l) text (b "f") with
  | POk p, CExit 0 [] _ (Some (h, cs)) =>
      names_check p && bytes_check p && succeeds p && negb (scopes_go bare_lib [] cs) && match program_ty h cs with Some _ => true | None => false end
  | _, _ => false
  end.
Lemma capture_checked text : capture_check text = true -> captured text.
Proof.
  unfold capture_check, captured. destruct (parse text (b "f")) as [p| | |] eqn:P; try discriminate.
  destruct (run_text bare (fun l => l) text (b "f")) as [s err out d| | |]; try discriminate. destruct s; try discriminate. destruct err; try discriminate.
  destruct d as [(h, cs)|]; try discriminate. rewrite !andb_true_iff. intros ((((A & B) & C) & D) & E). destruct (program_ty h cs) as [env|] eqn:T; [|discriminate].
  exists p, out, h, cs, env. split; [reflexivity|]. split; [apply succeeds_fine; [exact (parsed_refs _ _ _ P)|exact C]|]. split; [now apply checked|]. split; [reflexivity|]. split; [exact T|].
  intros pl. unfold header_ty, scopes_ok. apply negb_true_iff in D. rewrite D. reflexivity.
Qed.

Lemma std_captured : captured std_text.
Proof. apply capture_checked. vm_compute. reflexivity. Qed.
Lemma type_captured : captured type_text.
Proof. apply capture_checked. vm_compute. reflexivity. Qed.
Lemma member_captured : captured member_text.
Proof. apply capture_checked. vm_compute. reflexivity. Qed.

Lemma late_fine : exists out h cs env, run_text bare (fun l => l) late_text (b "f") = CExit 0 [] out (Some (h, cs)) /\
  header_ty bare_lib (Platform [] []) h cs = Some env.
Proof. eexists. eexists. eexists. eexists. split; vm_compute; reflexivity. Qed.

(** ** A schema that is fine *)
Definition some_platform : platform := Platform [b "printf"; b "size_t"; b "div_t"] [b "EOF"; b "NULL"; b "assert"].
Definition reservedb (lib w : bytes) : bool := existsb (bytes_eqb w) (std_name :: lib :: int_names).
Definition apart_check (lib : bytes) (p : proto) : bool :=
  forallb (fun m => negb (reservedb lib (m_name m)) && negb (reservedb lib (m_name m ++ b "_type")) &&
                    forallb (fun w => negb (reservedb lib w)) (parts (m_package m)) && forallb (fun f => negb (reservedb lib (f_name f))) (m_fields m)) (pr_messages p).
Lemma reservedb_no lib w : negb (reservedb lib w) = true -> ~ reserved lib w.
Proof.
  intros H R. apply negb_true_iff in H. assert (X : reservedb lib w = true); [|congruence]. apply ProgramProofs.existsb_bytes.
  unfold reserved, int_names, std_name in *. cbn [map In] in *. intuition.
Qed.
Lemma apart_checked lib p : apart_check lib p = true -> names_apart lib (pr_messages p).
Proof.
  unfold apart_check. rewrite forallb_forall. intros H m M. specialize (H m M). rewrite !andb_true_iff, !forallb_forall in H. destruct H as (((A & B) & C) & D).
  split; [now apply reservedb_no|]. split; [now apply reservedb_no|]. split.
  - intros ps w P W. rewrite (BackMore.package_parts_unique _ _ _ P (BackMore.parts_ok _)) in W. now apply reservedb_no, C.
  - intros f F. now apply reservedb_no, D.
Qed.
Lemma outside_checked lib pl p : forallb (fun m => outside_ok lib pl (class_of [] false false false m)) (pr_messages p) = true -> outside_fine lib pl (pr_messages p).
Proof. rewrite forallb_forall. intros H m M. now apply (outside_iff [] false false false), H. Qed.

Lemma test1_apart : names_apart bare_lib (pr_messages test1).
Proof. apply apart_checked. vm_compute. reflexivity. Qed.
Lemma test1_outside : outside_fine bare_lib some_platform (pr_messages test1).
Proof. apply outside_checked. vm_compute. reflexivity. Qed.
Lemma bare_dotless : ~ In "."%char bare_lib.
Proof. cbv. intuition discriminate. Qed.
