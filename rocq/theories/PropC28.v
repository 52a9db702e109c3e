(** C28: field numbers of accepted schemas. *)
From Verif Require Import Bytes ProtoLex ProtoParse SpecProto PAcceptProofs PSamples PWitness.

Theorem C28_numbers : forall text file p m, parse text file = POk p -> In m (pr_messages p) ->
  NoDup (map f_index (m_fields m)) /\
  forall f, In f (m_fields m) -> 0 < f_index f < 2 ^ 29 - 1 /\ f_index f <> 19000 /\ f_index f <> 19999.
Proof. exact accepted_numbers. Qed.
Print Assumptions C28_numbers.

(** The whole reserved range rejected: false for all the numbers inside. *)
Theorem C28_reserved_refuted : forall z file, 19000 < z < 19999 ->
  exists p m f, parse (b "message M{int32 a=" ++ dec z ++ b ";}") file = POk p /\
    pr_messages p = [m] /\ m_fields m = [f] /\ f_index f = z.
Proof. exact reserved_accepted. Qed.
Print Assumptions C28_reserved_refuted.

(** 2^29-1 accepted: false. *)
Theorem C28_largest_refuted : forall file,
  parse (b "message M{int32 a=" ++ dec (2 ^ 29 - 1) ++ b ";}") file = PThrow (b "Invalid field index") 1 19.
Proof. exact largest_rejected. Qed.
Print Assumptions C28_largest_refuted.

(** Numbers above 2^31 rejected: false, they wrap. *)
Theorem C28_wrap_refuted : forall file, exists p m f g,
  parse (b "message M{int32 a=4294967297;int32 b=4294967298;}") file = POk p /\
  pr_messages p = [m] /\ m_fields m = [f; g] /\ f_index f = 1 /\ f_index g = 2.
Proof. exact wraps_accepted. Qed.
Print Assumptions C28_wrap_refuted.

(** All the other numbers are accepted. *)
Theorem C28_accepted : forall z file, 0 < z < 2 ^ 29 - 1 -> z <> 19000 -> z <> 19999 ->
  exists p m f, parse (b "message M{int32 a=" ++ dec z ++ b ";}") file = POk p /\
    pr_messages p = [m] /\ m_fields m = [f] /\ f_index f = z.
Proof. exact (fun z file A B C => one_accepted z file (conj A (conj B C))). Qed.
Print Assumptions C28_accepted.

Example C28_example :
  (exists p m n, parse sample_text [] = POk p /\ pr_messages p = [m; n] /\ map f_index (m_fields m) = [1; 536870910; 19500]) /\
  parse (b "message M{int32 a=1;int32 b=1;}") [] = PThrow (b "Field 'a' has the same index as 'b'") 1 30.
Proof. split; [vm_compute; do 3 eexists; repeat split|vm_compute; reflexivity]. Qed.
