(** C29: type references of accepted schemas are resolved. *)
From Verif Require Import Bytes ProtoLex ProtoParse SpecProto PAcceptProofs PSamples.

(** [f_ref f] is the position of a message in the file. *)
Theorem C29_resolved : forall text file p m f, parse text file = POk p -> In m (pr_messages p) -> In f (m_fields m) ->
  (f_type f = FMessage ->
    (exists w, dotted w /\ f_qname f = full_name (m_package m) w) /\
    exists k m', f_ref f = Some k /\ nth_error (pr_messages p) k = Some m' /\
      full_name (m_package m') (m_name m') = f_qname f) /\
  (f_type f <> FMessage -> f_ref f = None).
Proof. exact accepted_refs. Qed.
Print Assumptions C29_resolved.

(** A schema that uses a message declared nowhere is rejected, however it is written: the
    error names one such type. *)
Theorem C29_unresolved : forall stray decls text next file,
  laid stray (schema_pieces decls) text next -> Forall decl_ok decls -> file_rest next ->
  ~ resolved (messages_of [] decls) ->
  exists pkg name items s w, In (pkg, name, items) (messages_of [] decls) /\ In s (item_fields items) /\
    sf_type s = SMessage w /\ (forall k, ~ first_named (messages_of [] decls) (full_name pkg w) k) /\
    parse (text ++ next) file = PThrow (b "Unable to find message '" ++ full_name pkg w ++ b "'") 0 0.
Proof. exact rejects_unresolved. Qed.
Print Assumptions C29_unresolved.

Example C29_example :
  (exists p m n f g h, parse sample_text [] = POk p /\ pr_messages p = [m; n] /\ m_fields m = [f; g; h] /\
     f_type g = FMessage /\ f_ref g = Some 1%nat /\ m_name n = b "N") /\
  parse (b "package a;message M{a.M m=1;}") [] = PThrow (b "Unable to find message 'a.a.M'") 0 0.
Proof. split; [vm_compute; do 6 eexists; repeat split|vm_compute; reflexivity]. Qed.

Definition undeclared : list sdecl := [SDMessage (b "M") [SIField (SField SPlain (SMessage (b "X")) (b "x") 1 [])]].
Example C29_example_2 : laid false (schema_pieces undeclared) (PRenderProofs.render (schema_pieces undeclared)) [] /\
  Forall decl_ok undeclared /\ ~ resolved (messages_of [] undeclared).
Proof.
  assert (D : Forall decl_ok undeclared).
  { unfold undeclared. repeat apply Forall_cons; try apply Forall_nil. split; [left; plain|]. split.
    - repeat apply Forall_cons; try apply Forall_nil. split; [apply plain_one; plain|]. split; [left; plain|].
      split; [vm_compute; intuition discriminate|apply Forall_nil].
    - cbn. repeat constructor. auto. }
  split; [apply PRenderProofs.render_laid; [now apply PRenderProofs.schema_pieces_ok|now left]|]. split; [exact D|].
  intros R. destruct (R [] (b "M") _ _ (b "X") (or_introl eq_refl) (or_introl eq_refl) eq_refl) as (k & (p & n & i & A & B) & _).
  destruct k as [|[|k]]; try discriminate A. injection A as <- <- _. discriminate B.
Qed.
