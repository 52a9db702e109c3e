(** C31: messages are emitted in dependency order. *)
From Verif Require Import Bytes ProtoLex ProtoParse Cpp Gen MainC SpecGen SpecCpp SpecFile GenFile BackProofs BackMore BackSamples.

(** [classes_of p order]: one class for each position of [order]; [well_ordered]: every
    position of the list of messages once, after the positions it refers to; the text is
    that of the classes, in that order (C48). *)
Theorem C31_order : forall cfg p t h cs, build_fine cfg -> refs_ok (pr_messages p) ->
  generate cfg p = (t, GOk (h, cs)) ->
  exists order, well_ordered (pr_messages p) order /\ cs = classes_of p order /\
    t = output_text cfg (pr_file p) h cs /\ wanted (pr_messages p) h /\ proto_fine p.
Proof. exact generate_order. Qed.
Print Assumptions C31_order.

(** The same for the compiler, on the text of any schema: the classes are those of the
    messages of the file, by package and name. *)
Theorem C31_compiler : forall cfg srt text path err out h cs, build_fine cfg -> permutes srt ->
  run_text cfg srt text path = CExit 0 err out (Some (h, cs)) ->
  exists p order, parse text path = POk p /\ well_ordered (pr_messages p) order /\
    Forall2 (fun k c => exists m, nth_error (pr_messages p) k = Some m /\ c_pkg c = m_package m /\ c_name c = m_name m) order cs /\
    out = output_text cfg path h cs.
Proof. exact compiled_order. Qed.
Print Assumptions C31_compiler.

(** Generation fails with 'circular reference' exactly when there is a cycle.  The options of
    the file are looked at first. *)
Theorem C31_cycle : forall cfg p, build_fine cfg -> refs_ok (pr_messages p) ->
  (forall n, In n file_flags -> is_bool (pr_options p) n) ->
  (cyclic (pr_messages p) <-> exists t x, generate cfg p = (t, GThrow (b "circular reference with '" ++ x) 0 0)).
Proof. exact generate_circular. Qed.
Print Assumptions C31_cycle.

(** What the parser returns satisfies the hypothesis. *)
Theorem C31_parsed : forall text file p, parse text file = POk p -> refs_ok (pr_messages p).
Proof. exact parsed_refs. Qed.
Print Assumptions C31_parsed.

(** tests/test1.proto, with the messages the other way round. *)
Definition reversed_text : bytes := b "message C{B b=1;repeated A as=2;}message B{A x=3;int32 n=1;}message A{string s=1;}".

Definition reversed : proto := tree (parse reversed_text []).

Example C31_order_applies : build_fine bare /\ refs_ok (pr_messages test1) /\
  snd (generate bare test1) = GOk (Hdr true false true true, classes_of test1 [0; 1; 2]%nat) /\
  parse reversed_text [] = POk reversed /\
  snd (generate bare reversed) = GOk (Hdr true false true true, classes_of reversed [2; 1; 0]%nat).
Proof.
  split; [exact bare_fine|]. split; [exact test1_refs|]. split; [vm_compute; reflexivity|].
  split; [vm_compute; reflexivity|]. vm_compute. reflexivity.
Qed.

Example C31_compiler_applies : build_fine bare /\ permutes (fun l => l) /\
  match run_text bare (fun l => l) reversed_text [] with
  | CExit 0 _ _ (Some (h, cs)) => map c_name cs = [b "A"; b "B"; b "C"]
  | _ => False
  end.
Proof. split; [exact bare_fine|]. split; [exact id_permutes|]. vm_compute. reflexivity. Qed.

Example C31_cycle_applies : build_fine bare /\ refs_ok (pr_messages ring) /\
  (forall n, In n file_flags -> is_bool (pr_options ring) n) /\ cyclic (pr_messages ring) /\
  snd (generate bare ring) = GThrow (b "circular reference with 'A'") 0 0.
Proof.
  split; [exact bare_fine|]. split; [exact ring_refs|].
  assert (F : forall n, In n file_flags -> is_bool (pr_options ring) n) by (intros n [<-|[<-|[<-|[]]]]; exact I).
  assert (G : snd (generate bare ring) = GThrow (b "circular reference with 'A'") 0 0) by (vm_compute; reflexivity).
  split; [exact F|]. split; [|exact G].
  apply (C31_cycle bare ring bare_fine ring_refs F). destruct (outcome_exists _ _ G) as (t & E). exists t, (b "A'"). exact E.
Qed.

Example C31_parsed_applies : parse ring_text (b "ring.proto") = POk ring.
Proof. exact ring_parsed. Qed.
