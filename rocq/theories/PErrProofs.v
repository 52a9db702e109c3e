(** Errors of the parser (C27). *)
From Verif Require Import Bytes BaseProofs ProtoLex ProtoParse SpecProto PRunProofs PTermProofs.

Lemma errors_known F text file m line col : parse_with F text file = PThrow m line col -> parse_error m.
Proof. intros H. pose proof (parse_no_runtime F text file) as N. now rewrite H in N. Qed.

Lemma ungot_unknown : ~ parse_error (b "Already ungot").
Proof.
  intros [[H|H]|[H|[(x & y & H)|(q & H)]]]; try discriminate H.
  vm_compute in H. intuition discriminate.
Qed.

Lemma no_unget_limit F text file : parse_with F text file <> PRuntime /\
  forall line col, parse_with F text file <> PThrow (b "Already ungot") line col.
Proof.
  split.
  - intros H. pose proof (parse_no_runtime F text file) as N. now rewrite H in N.
  - intros line col H. apply errors_known in H. now apply ungot_unknown.
Qed.
