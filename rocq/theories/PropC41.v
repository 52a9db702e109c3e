(** C41: messages with more than 64 fields are rejected. *)
From Verif Require Import Bytes ProtoLex ProtoParse Cpp Gen MainC SpecGen SpecCpp SpecFile GenFile BackProofs BackMore BackSamples.

Theorem C41_rejected : forall cfg p m, build_fine cfg -> refs_ok (pr_messages p) ->
  In m (pr_messages p) -> (64 < length (m_fields m))%nat ->
  exists t e l c, generate cfg p = (t, GThrow e l c) /\ failure p e l c.
Proof. exact generate_many. Qed.
Print Assumptions C41_rejected.

(** Never for that reason otherwise. *)
Theorem C41_reason : forall cfg p t name l c, build_fine cfg -> refs_ok (pr_messages p) ->
  generate cfg p = (t, GThrow (b "more than 64 fields in message '" ++ name ++ b "'") l c) ->
  exists m, In m (pr_messages p) /\ m_name m = name /\ (64 < length (m_fields m))%nat.
Proof. exact generate_many_reason. Qed.
Print Assumptions C41_reason.

(** When nothing else is wrong, the number of fields decides. *)
Theorem C41_exact : forall cfg p, build_fine cfg -> refs_ok (pr_messages p) ->
  (forall n, In n file_flags -> is_bool (pr_options p) n) ->
  (forall m, In m (pr_messages p) -> Forall field_fine (m_fields m)) -> ~ cyclic (pr_messages p) ->
  ((forall m, In m (pr_messages p) -> (length (m_fields m) <= 64)%nat) /\ exists t d, generate cfg p = (t, GOk d)) \/
  (exists t m, In m (pr_messages p) /\ (64 < length (m_fields m))%nat /\
     generate cfg p = (t, GThrow (b "more than 64 fields in message '" ++ m_name m ++ b "'") 0 0)).
Proof. exact generate_only_size. Qed.
Print Assumptions C41_exact.

Example C41_rejected_applies : build_fine bare /\ refs_ok (pr_messages (wide_proto 65)) /\
  exists m, In m (pr_messages (wide_proto 65)) /\ (64 < length (m_fields m))%nat.
Proof.
  split; [exact bare_fine|]. split; [exact (wide_refs 65)|]. eexists. split; [left; reflexivity|].
  cbn [m_fields]. rewrite map_length, seq_length. repeat constructor.
Qed.

Example C41_reason_applies : snd (generate bare (wide_proto 65)) = GThrow (b "more than 64 fields in message '" ++ b "W" ++ b "'") 0 0.
Proof. vm_compute. reflexivity. Qed.

Example C41_exact_applies : refs_ok (pr_messages (wide_proto 64)) /\ proto_fine (wide_proto 64) /\
  exists m, In m (pr_messages (wide_proto 64)) /\ length (m_fields m) = 64%nat.
Proof.
  split; [exact (wide_refs 64)|]. split; [apply succeeds_fine; [exact (wide_refs 64)|vm_compute; reflexivity]|].
  eexists. split; [left; reflexivity|]. cbn [m_fields]. now rewrite map_length, seq_length.
Qed.
