(** C27: the parser never hits its internal unget limits. *)
From Verif Require Import Bytes ProtoLex ProtoParse SpecProto PTermProofs PRunProofs PErrProofs PSamples.

(** [PRuntime] is the [std::runtime_error] of [InputStream::unget]. *)
Theorem C27_no_unget_limit : forall F text file,
  parse_with F text file <> PRuntime /\
  forall line col, parse_with F text file <> PThrow (b "Already ungot") line col.
Proof. exact no_unget_limit. Qed.
Print Assumptions C27_no_unget_limit.

(** All the errors there are. *)
Theorem C27_errors : forall F text file m line col, parse_with F text file = PThrow m line col -> parse_error m.
Proof. exact errors_known. Qed.
Print Assumptions C27_errors.

(** The limits exist in the model. *)
Example C27_example : i_unget (IS [] 0 1 1 true) = PRuntime /\
  (exists m l c, p_unget (PS tt token0 true) = PThrow (b "Already ungot") l c /\ m = l) /\
  parse (b "message M { int32 a 1; }") [] = PThrow (b "Expected '='") 1 21 /\
  (exists p, parse sample_text [] = POk p).
Proof.
  split; [reflexivity|]. split; [exists 1, 1, 1; split; reflexivity|]. split; [vm_compute; reflexivity|].
  vm_compute. eexists. reflexivity.
Qed.
