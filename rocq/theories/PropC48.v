(** C48: the text of the generated file. *)
From Verif Require Import Bytes ProtoLex ProtoParse SpecProto SpecSchema Cpp Gen MainC RealBuild SpecGen SpecCpp SpecFile SpecOpts GenText GenFile PAcceptProofs PSamples BackProofs RealFine BackMore BackSamples.

(** [compiles]: the runtime headers wanted, the introduction, one class for each message in
    an order that respects references, the end; or one of the failures. *)
Theorem C48_output : forall cfg srt text path p, build_fine cfg -> permutes srt ->
  parse text path = POk p -> compiles cfg srt path p (run_text cfg srt text path).
Proof. exact run_exact. Qed.
Print Assumptions C48_output.

(** The build of the pinned source: its runtime headers meet the hypothesis. *)
Theorem C48_pinned : forall srt text path p, permutes srt ->
  parse text path = POk p -> compiles real_build srt path p (run_text real_build srt text path).
Proof. exact (fun srt text path p => run_exact real_build srt text path p real_build_fine). Qed.
Print Assumptions C48_pinned.

Example C48_applies : build_fine real_build /\ permutes (fun l => l) /\ parse test1_text (b "/repo/tests/test1.proto") = POk test1 /\ proto_fine test1.
Proof. exact (conj real_build_fine (conj id_permutes (conj test1_parsed test1_fine))). Qed.

(** A small file in full, without the runtime headers. *)
Definition tiny : bytes := b "syntax=""proto3"";package p;message M{int32 a=1;}".

Example C48_text : exists h cs, run_text bare (fun l => l) tiny (b "t.proto") = CExit 0 [] (output_text bare (b "t.proto") h cs) (Some (h, cs)) /\
  map c_name cs = [b "M"] /\ h_number h = true /\ h_array h = false.
Proof.
  assert (X : exists p, parse tiny (b "t.proto") = POk p) by (vm_compute; eauto). destruct X as (p & P).
  destruct (C48_output bare (fun l => l) tiny (b "t.proto") p bare_fine id_permutes P) as [(F & h & order & W & O & E)|(_ & t & e & l & c & _ & E)].
  - cbn zeta in E. exists h, (classes_of (sort_fields (fun l => l) p) order). split; [exact E|].
    assert (Y : match run_text bare (fun l => l) tiny (b "t.proto") with
                | CExit _ _ _ (Some (h', cs')) => map c_name cs' = [b "M"] /\ h_number h' = true /\ h_array h' = false
                | _ => False end) by (vm_compute; auto).
    rewrite E in Y. exact Y.
  - exfalso. assert (Y : match run_text bare (fun l => l) tiny (b "t.proto") with CExit s _ _ _ => s = 0 | _ => False end) by (vm_compute; auto).
    rewrite E in Y. discriminate Y.
Qed.
