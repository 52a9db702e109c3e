(** C26: the .proto parser terminates.  [parse_with F text file] runs [Proto3::parse] with at
    most [F] iterations of every loop and is [PFuel] when that is not enough; [parse] uses
    [length text + 3]. *)
From Verif Require Import Bytes ProtoLex ProtoParse SpecProto PTermProofs PAcceptProofs PSamples PWitness.

(** Terminates on every file that ends with a line feed. *)
Theorem C26_terminates_lf : forall u file, parse (u ++ [LF]) file <> PFuel.
Proof. exact parse_ends_lf. Qed.
Print Assumptions C26_terminates_lf.

(** More generally, a file on which the parser does not terminate ends with a line comment
    without line feed or with a string literal without end. *)
Theorem C26_endless_files : forall text file, parse text file = PFuel ->
  exists p q, text = p ++ q /\
   ((exists body, q = b "//" ++ body /\ ~ In LF body) \/ (exists w, q = chr 34 :: w /\ Forall lit_char w)).
Proof. exact loop_text. Qed.
Print Assumptions C26_endless_files.

(** [parse] decides termination: with more iterations its result does not change, and if
    it runs out then any number of iterations is too small. *)
Theorem C26_fuel : forall text file,
  (forall F, (length text + 3 <= F)%nat -> parse_with F text file = parse text file) /\
  (forall F, parse_with F text file <> PFuel -> parse_with F text file = parse text file) /\
  ((exists F, parse_with F text file <> PFuel) <-> parse text file <> PFuel).
Proof. exact (fun t f => conj (fun F => parse_enough F t f) (conj (fun F => parse_any_fuel F t f) (parse_fuel t f))). Qed.
Print Assumptions C26_fuel.

(** The property as stated is false. *)
Theorem C26_terminates_refuted : exists text, forall F file, parse_with F text file = PFuel.
Proof. exact comment_loops. Qed.
Print Assumptions C26_terminates_refuted.

(** Every schema, followed by a line comment without line feed or by an unterminated string
    literal, makes the compiler loop for ever. *)
Theorem C26_loops_refuted : forall stray decls text next file,
  laid stray (schema_pieces decls) text next -> Forall decl_ok decls -> endless next ->
  forall F, parse_with F (text ++ next) file = PFuel.
Proof. exact text_loops. Qed.
Print Assumptions C26_loops_refuted.

Example C26_example : laid false (schema_pieces sample) sample_text (b " // end") /\ Forall decl_ok sample /\
  endless (b " // end") /\ endless [chr 34] /\
  (exists p, parse (sample_text ++ [LF]) [] = POk p) /\ parse (sample_text ++ b " // end") [] = PFuel.
Proof.
  split; [apply sample_laid; right; exists " "%char, (b "// end"); split; [reflexivity|cbn; auto]|].
  split; [exact sample_decls|]. split; [|split; [|split]].
  - apply (el_line _ (b " ") (b " end")); [reflexivity| |vm_compute; intuition discriminate].
    apply (sep_blank true " "%char []); [cbn; auto|constructor].
  - apply (el_string _ [] []); [reflexivity|constructor|constructor].
  - vm_compute. eexists. reflexivity.
  - vm_compute. reflexivity.
Qed.
