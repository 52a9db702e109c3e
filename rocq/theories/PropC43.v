(** C43: truncated schemas.  A user relies on them being rejected: refuted, for every schema. *)
From Verif Require Import Bytes ProtoLex ProtoParse SpecProto SpecSchema PAcceptProofs PRenderProofs PSamples.

(** The closing brace of the last message may be missing; the result is the same. *)
Theorem C43_open_message_refuted : forall stray decls name items text next file,
  laid stray (schema_pieces decls ++ message_head name items) text next ->
  schema_ok (decls ++ [SDMessage name items]) -> sep stray next ->
  exists p, parse (text ++ next) file = POk p /\ proto_is p (decls ++ [SDMessage name items]).
Proof. exact open_message. Qed.
Print Assumptions C43_open_message_refuted.

(** A block comment may be left open. *)
Theorem C43_open_comment_refuted : forall stray decls text sp body file,
  laid stray (schema_pieces decls) text (sp ++ b "/*" ++ body) -> schema_ok decls -> sep stray sp ->
  ~ occurs (b "*/") body ->
  exists p, parse (text ++ sp ++ b "/*" ++ body) file = POk p /\ proto_is p decls.
Proof. exact open_comment. Qed.
Print Assumptions C43_open_comment_refuted.

(** A string literal cut by a line feed or a NUL ends the file: the rest is ignored, whatever it is. *)
Theorem C43_cut_string_refuted : forall stray decls text sp w c rest file,
  laid stray (schema_pieces decls) text (sp ++ chr 34 :: w ++ c :: rest) -> schema_ok decls -> sep stray sp ->
  Forall lit_char w -> c = LF \/ c = NUL ->
  exists p, parse (text ++ sp ++ chr 34 :: w ++ c :: rest) file = POk p /\ proto_is p decls.
Proof. exact cut_string. Qed.
Print Assumptions C43_cut_string_refuted.

(** So may it be inside the body of a message. *)
Theorem C43_cut_string_in_message_refuted : forall stray decls name items text sp w c rest file,
  laid stray (schema_pieces decls ++ message_head name items) text (sp ++ chr 34 :: w ++ c :: rest) ->
  schema_ok (decls ++ [SDMessage name items]) -> sep stray sp -> Forall lit_char w -> c = LF \/ c = NUL ->
  exists p, parse (text ++ sp ++ chr 34 :: w ++ c :: rest) file = POk p /\ proto_is p (decls ++ [SDMessage name items]).
Proof. exact cut_string_in_message. Qed.
Print Assumptions C43_cut_string_in_message_refuted.

Definition cut : bytes := b " " ++ chr 34 :: b "oops" ++ LF :: b "}}}%".
Example C43_example : laid false (schema_pieces sample) sample_text cut /\ schema_ok sample /\
  Forall lit_char (b "oops") /\
  laid false (schema_pieces [SDSyntax] ++ message_head (b "M") []) (render (schema_pieces [SDSyntax] ++ message_head (b "M") [])) [] /\
  schema_ok ([SDSyntax] ++ [SDMessage (b "M") []]) /\ ~ occurs (b "*/") (b "*").
Proof.
  split; [apply sample_laid; right; do 2 eexists; split; [reflexivity|cbn; auto]|]. split; [exact sample_ok|].
  split; [apply lit_chars; vm_compute; reflexivity|].
  assert (M : member_name (b "M")) by (left; plain).
  split; [|split; [split|]].
  - apply render_laid; [|now left]. apply Forall_app. split; [apply schema_pieces_ok; repeat constructor|].
    apply head_pieces_ok; [exact M|constructor].
  - apply Forall_cons; [exact I|]. apply Forall_cons; [|constructor]. split; [exact M|]. split; constructor.
  - intros pkg name items f w [H|[]] H2. injection H as <- <- <-. contradiction.
  - intros (u & v & E). destruct u as [|? [|? ?]]; discriminate E.
Qed.
