(** C09: [deserialize] terminates on every input. *)
From Verif Require Import Bytes Types Stream Tokenizer Write Read Termination Samples.

(** For every type, object, byte sequence and parameters, the reader finishes within
    [2 * length + 3] iterations/nested calls ([deserialize_fuel] returns [None]
    exactly when this budget is exceeded). *)
Theorem C09_deserialize_terminates : forall (t : ty) (v : val) (inp : bytes) (po : option params) (n : nat),
  (2 * length inp + 3 <= n)%nat ->
  exists ok v' po', deserialize_fuel n t v (mk_istream inp) po = Some (ok, v', po').
Proof. exact (fun t v inp po n => deserialize_fuel_total n t v inp po). Qed.
Print Assumptions C09_deserialize_terminates.

(** A truncated document. *)
Example C09_example : (2 * length (b "{""id"": [1, {") + 3 <= 100)%nat /\
  exists v', deserialize_fuel 100 outer_ty (dflt outer_ty) (mk_istream (b "{""id"": [1, {")) None
             = Some (false, v', None).
Proof. split; [vm_compute; repeat constructor|]. vm_compute. eauto. Qed.
