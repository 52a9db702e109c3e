(** C58: fields as optional values. *)
From Verif Require Import Bytes Num Types Fields SpecOption FieldProofs.

(** Whatever is done to a set of fields, they hold what optional values would hold after the
    same operations; only what comes out of a field without a value is left open. *)
Theorem C58_history : forall (T : Type) (zero : T) l s s', steps zero l s = Some s' ->
  does_all (fun _ => True) l (contents s) (contents s').
Proof. exact @steps_does. Qed.
Print Assumptions C58_history.

(** Without the two careless operations (SpecOption.v), zero comes out of such fields. *)
Theorem C58_careful : forall (T : Type) (zero : T) l s s', tidy zero s -> careful_all (eq zero) l (contents s) ->
  steps zero l s = Some s' -> tidy zero s' /\ does_all (eq zero) l (contents s) (contents s').
Proof. exact @steps_tidy. Qed.
Print Assumptions C58_careful.

(** What can be asked of a field. *)
Theorem C58_observers : forall (T : Type) (eqb : T -> T -> bool) a c x,
  (num_empty a = true <-> seen a = None) /\
  (eq_val eqb a x = true <-> exists y, seen a = Some y /\ eqb y x = true) /\
  (ne_val eqb a x = true <-> exists y, seen a = Some y /\ eqb y x = false) /\
  ne_field eqb a c = negb (eq_field eqb a c) /\
  (forall y, seen a = Some y -> get a = y).
Proof. exact @observers. Qed.
Print Assumptions C58_observers.

(** In a tidy state also this. *)
Theorem C58_tidy_observers : forall (T : Type) (zero : T) (eqb : T -> T -> bool) a c, eqb zero zero = true ->
  (c_unset a = true -> c_val a = zero) -> (c_unset c = true -> c_val c = zero) ->
  (str_empty zero eqb a = true <-> seen a = None) /\
  (eq_field eqb a c = true <-> match seen a, seen c with
     | None, None => True | Some x, Some y => eqb x y = true | _, _ => False end) /\
  (seen a = None -> get a = zero).
Proof. exact @tidy_observers. Qed.
Print Assumptions C58_tidy_observers.

(** The functions the generated code calls on fields are these. *)
Theorem C58_numbers : forall reuse a c x, pval_ok x (c_val a) = true ->
  vempty (of_num a) = num_empty a /\ vequal (of_num a) (of_num c) = eq_field pval_eqb a c /\
  vclear (of_num a) = of_num (clear (pzero x) a) /\ vassign reuse (of_num a) (of_num c) = of_num (assign a c) /\
  vswap (of_num a) (of_num c) = (of_num (fst (swap a c)), of_num (snd (swap a c))).
Proof. exact numbers_use. Qed.
Print Assumptions C58_numbers.

Theorem C58_strings : forall reuse a c,
  vempty (of_str a) = str_empty [] bytes_eqb a /\ vequal (of_str a) (of_str c) = eq_field bytes_eqb a c /\
  vclear (of_str a) = of_str (clear [] a) /\ vassign reuse (of_str a) (of_str c) = of_str (assign a c) /\
  vswap (of_str a) (of_str c) = (of_str (fst (swap a c)), of_str (snd (swap a c))).
Proof. exact strings_use. Qed.
Print Assumptions C58_strings.

(** A field without a value is neither equal to a plain value nor different from it. *)
Theorem C58_different_refuted : forall (T : Type) (zero : T) (eqb : T -> T -> bool) x,
  eq_val eqb (fresh zero) x = false /\ ne_val eqb (fresh zero) x = false.
Proof. exact @fresh_compared. Qed.
Print Assumptions C58_different_refuted.

(** Assigning from a field without a value keeps the old value out of sight: two fields
    that both have no value then compare as different, and the value returns with [swap]. *)
Theorem C58_hidden_refuted : exists l fs vs, steps 0%Z l ([fresh 0%Z; fresh 0%Z], [9%Z]) = Some (fs, vs) /\
  l = [OSet 0 5%Z; OAssign 0 1] /\ map seen fs = [None; None] /\
  (exists a c, fs = [a; c] /\ eq_field Z.eqb a c = false /\ get a = 5%Z) /\
  option_map snd (steps 0%Z [OSwapVal 0 0] (fs, vs)) = Some [5%Z].
Proof. exact hidden. Qed.
Print Assumptions C58_hidden_refuted.

(** Text written through the reference of a string without a value is not there for [==],
    although the field is not empty, and it is lost by an assignment. *)
Theorem C58_reference_refuted : exists a, a = write_ref (fresh []) (b "x") /\
  str_empty [] bytes_eqb a = false /\ eq_val bytes_eqb a (b "x") = false /\ get a = b "x" /\
  assign (fresh []) a = fresh [].
Proof. exact reference. Qed.
Print Assumptions C58_reference_refuted.

Example C58_applies : exists s', tidy 0%Z ([fresh 0%Z; made 7%Z], [9%Z]) /\
  careful_all (eq 0%Z) [OSet 0 5%Z; OSwap 0 1; OSwapVal 0 0; OClear 1] (contents ([fresh 0%Z; made 7%Z], [9%Z])) /\
  steps 0%Z [OSet 0 5%Z; OSwap 0 1; OSwapVal 0 0; OClear 1] ([fresh 0%Z; made 7%Z], [9%Z]) = Some s' /\
  contents s' = ([Some 9%Z; None], [7%Z]).
Proof. exact careful_sample. Qed.

Example C58_applies_strings : exists s', steps [] [OMark 0 false; OWrite 0 (b "ab"); OAssign 1 0; OMark 0 true]
  ([fresh []; fresh []], []) = Some s' /\ contents s' = ([None; Some (b "ab")], []) /\
  pval_ok (PInt true 32) (c_val (num_cell false (VInt 5))) = true.
Proof. exact strings_sample. Qed.
