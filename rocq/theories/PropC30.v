(** C30: parsing recovers every schema. *)
From Verif Require Import Bytes ProtoLex ProtoParse SpecProto SpecSchema PAcceptProofs PRenderProofs PSamples.

(** [laid false ps text next]: the text consists of the tokens with any white space and
    comments between them ([laid true]: the compiler also skips a '/' that starts no comment,
    with the character after it).  [proto_is]: packages, names, types, modifiers, numbers,
    references and the last value of every option. *)
Theorem C30_recovers : forall stray decls text next file,
  laid stray (schema_pieces decls) text next -> schema_ok decls -> sep stray next ->
  exists p, parse (text ++ next) file = POk p /\ proto_is p decls /\ pr_file p = file.
Proof. exact recovers. Qed.
Print Assumptions C30_recovers.

(** The result determines the schema: what two schemas with the same result have in common. *)
Theorem C30_exact : forall p decls decls', proto_is p decls -> proto_is p decls' ->
  Forall2 (fun d d' => let '(pkg, name, items) := d in let '(pkg', name', items') := d' in
    pkg = pkg' /\ name = name' /\
    Forall2 (fun s s' => sf_mod s = sf_mod s' /\ sf_type s = sf_type s' /\ sf_name s = sf_name s' /\
                         sf_number s = sf_number s' /\ same_options (sf_opts s) (sf_opts s'))
      (item_fields items) (item_fields items') /\
    same_options (item_opts items) (item_opts items'))
    (messages_of [] decls) (messages_of [] decls') /\
  same_options (decl_opts decls) (decl_opts decls').
Proof. exact recovers_exactly. Qed.
Print Assumptions C30_exact.

(** Every schema can be written. *)
Theorem C30_writable : forall decls, Forall decl_ok decls -> exists text, laid false (schema_pieces decls) text [].
Proof. exact schema_layout. Qed.
Print Assumptions C30_writable.

Example C30_example : laid false (schema_pieces sample) sample_text [LF] /\ schema_ok sample /\ sep false [LF].
Proof.
  split; [apply sample_laid; right; exists LF, []; split; [reflexivity|cbn; auto]|]. split; [exact sample_ok|].
  apply sep_blank; [cbn; auto|constructor].
Qed.
