(** C49: the outcome of the program. *)
From Verif Require Import Bytes SpecNum ProtoLex ProtoParse SpecProto SpecSchema Cpp Gen MainC SpecGen SpecCpp SpecFile SpecOpts GenText GenFile PSamples BackProofs BackMore BackSamples.

(** With a readable input and an output that can be created, if the parser ends: the exit
    status is 0 exactly if the schema is parsed and fine, otherwise 1; the generated text goes
    to the file, or to standard output if none is given. *)
Theorem C49_exit : forall cfg srt fs input output text path, build_fine cfg -> permutes srt ->
  fs_read fs input = Some text -> fs_real fs input = Some path -> fs_create fs output = true -> parse text path <> PFuel ->
  exists status err out d, run_text cfg srt text path = CExit status err out d /\
    main cfg srt fs [input; output] = PrExit status err [] (Some (output, out)) /\
    main cfg srt fs [input] = PrExit status err out None /\
    (status = 0 <-> exists p, parse text path = POk p /\ proto_fine p) /\ (status = 0 \/ status = 1).
Proof. exact main_exact. Qed.
Print Assumptions C49_exit.

(** No undefined behaviour and no exception leaves [main], whatever the arguments and files.
    The program fails to end only where the parser does. *)
Theorem C49_safe : forall cfg srt fs args r, build_fine cfg -> permutes srt -> main cfg srt fs args = PrBad r ->
  r = CHangs /\ exists input text path, fs_read fs input = Some text /\ fs_real fs input = Some path /\ parse text path = PFuel.
Proof. exact main_never_bad. Qed.
Print Assumptions C49_safe.

(** The same for the part after the files are open. *)
Theorem C49_run : forall cfg srt text path, build_fine cfg -> permutes srt ->
  match run_text cfg srt text path with
  | CExit s _ _ d => (s = 0 <-> exists p, parse text path = POk p /\ proto_fine p) /\ (s = 1 \/ s = 0) /\ (s = 0 <-> d <> None)
  | CAbort | CUndef => False
  | CHangs => parse text path = PFuel
  end.
Proof. exact run_total. Qed.
Print Assumptions C49_run.

(** Standard error: nothing on success, otherwise one line with the position, twice, and the
    message of the parser or of the generator. *)
Theorem C49_message : forall cfg srt text path s err out d, build_fine cfg -> permutes srt ->
  run_text cfg srt text path = CExit s err out d ->
  (s = 0 /\ err = []) \/
  (s = 1 /\ exists m l c lt ct, numeral l lt /\ numeral c ct /\
     err = path ++ b ":" ++ lt ++ b ":" ++ ct ++ b ": error: " ++ m ++ b " (" ++ lt ++ b ":" ++ ct ++ b ")" ++ [LF] /\
     ((parse text path = PThrow m l c /\ out = []) \/ exists p, parse text path = POk p /\ failure p m l c)).
Proof. exact run_message. Qed.
Print Assumptions C49_message.

(** The other ways to end: a wrong number of arguments, an input that cannot be opened, an
    output that cannot be created, an input without a real path (the output is then empty). *)
Theorem C49_refused : forall cfg srt fs,
  (forall args, length args <> 1%nat -> length args <> 2%nat ->
     main cfg srt fs args = PrExit 1 (b "protogen " ++ b_version cfg ++ [LF] ++ b "Usage: protogen <proto3 file> [ <output file> ]" ++ [LF]) [] None) /\
  (forall i more, (length more <= 1)%nat -> fs_read fs i = None ->
     main cfg srt fs (i :: more) = PrExit 1 (b "ERROR: Unable to open '" ++ i ++ b "'" ++ [LF]) [] None) /\
  (forall i o text, fs_read fs i = Some text -> fs_create fs o = false ->
     main cfg srt fs [i; o] = PrExit 1 (b "ERROR: Unable to open '" ++ o ++ b "'" ++ [LF]) [] None) /\
  (forall i text, fs_read fs i = Some text -> fs_real fs i = None ->
     main cfg srt fs [i] = PrExit 1 [] [] None /\
     forall o, fs_create fs o = true -> main cfg srt fs [i; o] = PrExit 1 [] [] (Some (o, []))).
Proof. exact main_refused. Qed.
Print Assumptions C49_refused.

(** A failing run does not leave the output file alone: a schema with a syntax error empties
    it, a schema with a wrong option leaves part of a header in it. *)
Theorem C49_untouched_refuted :
  (exists fs err, main bare (fun l => l) fs [b "f"; b "o"] = PrExit 1 err [] (Some (b "o", []))) /\ (exists fs err out, main bare (fun l => l) fs [b "f"; b "o"] = PrExit 1 err [] (Some (b "o", out)) /\ (1000 < length out)%nat).
Proof. exact main_spoils. Qed.
Print Assumptions C49_untouched_refuted.

Example C49_exit_applies : let fs := one_file test1_text in
  build_fine bare /\ permutes (fun l => l) /\ fs_read fs (b "f") = Some test1_text /\ fs_real fs (b "f") = Some (b "f") /\ fs_create fs (b "o") = true /\ parse test1_text (b "f") <> PFuel.
Proof.
  refine (conj bare_fine (conj id_permutes (conj eq_refl (conj eq_refl (conj eq_refl _))))).
  assert (X : match parse test1_text (b "f") with POk _ => True | _ => False end) by (vm_compute; exact I).
  intros E. rewrite E in X. exact X.
Qed.

(** The parser does not end: a comment at the end of the file. *)
Example C49_safe_applies : main bare (fun l => l) (one_file (b "//x")) [b "f"] = PrBad CHangs.
Proof. vm_compute. reflexivity. Qed.

Definition status (r : crun) : Z := match r with CExit s _ _ _ => s | _ => 2 end.
Example C49_run_applies : build_fine bare /\ permutes (fun l => l).
Proof. exact (conj bare_fine id_permutes). Qed.
Example C49_run_statuses : status (run_text bare (fun l => l) test1_text (b "f")) = 0 /\
  status (run_text bare (fun l => l) (b "message M{int32 a=0;}") (b "f")) = 1.
Proof. split; vm_compute; reflexivity. Qed.

(** Line 2, column 9. *)
Example C49_message_applies : run_text bare (fun l => l) (b "message M" ++ [LF] ++ b "{ int32 = 1; }") (b "f") =
  CExit 1 (b "f:2:9: error: Missing field name (2:9)" ++ [LF]) [] None.
Proof. vm_compute. reflexivity. Qed.
Example C49_refused_applies : let fs := FS (fun _ => Some []) (fun o => bytes_eqb o (b "o")) (fun _ => None) in
  main bare (fun l => l) fs [b "f"; b "o"] = PrExit 1 [] [] (Some (b "o", [])) /\
  main bare (fun l => l) fs [b "f"; b "x"] = PrExit 1 (b "ERROR: Unable to open 'x'" ++ [LF]) [] None.
Proof. split; vm_compute; reflexivity. Qed.
