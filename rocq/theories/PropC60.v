(** C60: what the compiler does with every file. *)
From Verif Require Import Bytes ProtoLex ProtoParse SpecProto SpecPos SpecSchema PRenderProofs PSamples SpecReads ReadsLift ReadsGrammar ReadsMessages ReadsSamples.

(** Every text has exactly one meaning. *)
Theorem C60_one_meaning : forall text, exists v, meaning text v /\ forall v', meaning text v' -> v' = v.
Proof. exact one_meaning. Qed.
Print Assumptions C60_one_meaning.

(** The accepted files: the spellings of well-formed schemas.  [written] allows any white space
    and comments, free commas between the options of a field, any numeral with the number of a
    field, the last message without its '}' and the ends of file of C43. *)
Theorem C60_accepts : forall text file,
  (exists p, parse text file = POk p) <-> (exists l, written text l /\ schema_ok l).
Proof. exact accepts_iff. Qed.
Print Assumptions C60_accepts.

Theorem C60_result : forall text file l, written text l -> schema_ok l ->
  exists p, parse text file = POk p /\ proto_is p l /\ pr_file p = file.
Proof. exact written_result. Qed.
Print Assumptions C60_result.

(** The same on the machine. *)
Theorem C60_schema : forall text l, meaning text (VSchema l) <-> written text l /\ schema_ok l.
Proof. exact meaning_written. Qed.
Print Assumptions C60_schema.

(** The error and its position, for every file that is refused. *)
Theorem C60_error : forall text file m line col, parse text file = PThrow m line col <-> meaning text (VError m line col).
Proof. exact error_iff. Qed.
Print Assumptions C60_error.

(** The files that keep the compiler reading for ever. *)
Theorem C60_loops : forall text file, (forall F, parse_with F text file = PFuel) <-> meaning text VLoop.
Proof. exact loop_iff. Qed.
Print Assumptions C60_loops.

(** The texts of all errors; "Expected ']'", which is in the source, is none of them. *)
Theorem C60_messages : forall m, (exists text file line col, parse text file = PThrow m line col) <-> reported m.
Proof. exact reported_iff. Qed.
Print Assumptions C60_messages.
Theorem C60_no_bracket_error : forall text file line col, parse text file <> PThrow (b "Expected ']'") line col.
Proof. exact no_bracket_error. Qed.
Print Assumptions C60_no_bracket_error.

(** Free commas, a number above 2^32, a message without end. *)
Example C60_example_written : written loose_text loose_decls /\ schema_ok loose_decls /\
  (exists p, parse loose_text [] = POk p).
Proof. exact loose_written. Qed.

Example C60_example_error :
  meaning wrong_text (VError (b "Expected '='") 2 10) /\ meaning (b "message M { N n = 1; }") (VError (b "Unable to find message 'N'") 0 0) /\
  meaning (b "package a") (VError (b "Invalid package") 1 9) /\ meaning (b "// x") VLoop /\
  parse (b "message M { int32 a = 1 [b = 1;] }") [] = PThrow (b "Missing option name") 1 31.
Proof. exact wrong_meanings. Qed.
