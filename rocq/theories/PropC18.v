(** C18: transient fields never cross the JSON boundary. *)
From Verif Require Import Bytes Types Stream Tokenizer Write Read SpecJson SpecInterp SpecWrite SpecKept
  ReadSim ApiProofs KeptProofs SerProofs Samples SampleProofs.

(** Whatever the input (valid or not) and the outcome, the object afterwards differs
    only in persistent fields, at every depth. *)
Theorem C18_not_read : forall t v inp po r v' po',
  shape t v = true -> lookup_ok t -> deserialize t v inp po = Some (r, v', po') -> kept t v v'.
Proof. exact deserialize_kept. Qed.
Print Assumptions C18_not_read.

(** Objects that differ only in their own transient fields are written alike. *)
Theorem C18_not_written : forall ms g vs vs' po,
  (forall k, written g k = true -> nth_error vs k = nth_error vs' k) ->
  serialize (TMsg ms g) (VMsg vs) po = serialize (TMsg ms g) (VMsg vs') po.
Proof. exact serialize_same. Qed.
Print Assumptions C18_not_written.

(** Not so for transient fields of sub-messages: a set transient field makes the
    sub-message non-empty, so that it is written as an empty object. *)
Definition c18_sub : ty := TMsg [TField (PInt true 32); TStr] (GC [(1%nat, b "s")] false [(b "s", 1)] [(1, 1%nat)]).
Definition c18_ty : ty := TMsg [c18_sub] (plain_tables [b "sub"]).
Theorem C18_nested_refuted : exists v v',
  v = VMsg [VMsg [VField true (VInt 0); VStr true []]] /\
  v' = VMsg [VMsg [VField false (VInt 5); VStr true []]] /\
  fst (serialize c18_ty v None) = (true, b "{}") /\
  fst (serialize c18_ty v' None) = (true, b "{""sub"":{}}").
Proof. eexists _, _. split; [reflexivity|]. split; [reflexivity|]. split; vm_compute; reflexivity. Qed.
Print Assumptions C18_nested_refuted.

Example C18_example :
  shape c18_sub (VMsg [VField false (VInt 5); VStr true []]) = true /\ lookup_ok c18_sub /\
  written (GC [(1%nat, b "s")] false [(b "s", 1)] [(1, 1%nat)]) 0 = false /\
  deserialize c18_sub (VMsg [VField false (VInt 5); VStr true []]) (b "{""n"":7,""s"":""x"",") None
  = Some (false, VMsg [VField false (VInt 5); VStr false (b "x")], None).
Proof.
  split; [reflexivity|]. split; [|split; vm_compute; reflexivity].
  apply lookup_ok_msg. split; [|repeat constructor]. intros name. unfold select_member, gen_index. cbn.
  destruct (bytes_eqb (b "s") name); reflexivity.
Qed.
