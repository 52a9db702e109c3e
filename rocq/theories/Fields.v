(** Model of the two classes that hold a field: [field<T>] for numbers
    (json-number.hh:8-30) and [string_field] (json-string.hh:8-38).  Their members are
    alike: a value and a flag that says that there is none ([empty_], [null_]). *)
From Verif Require Import Bytes.

Record cell (T : Type) := Cell { c_val : T; c_unset : bool }.
Arguments Cell {T}. Arguments c_val {T}. Arguments c_unset {T}.

Section Fields.
  Context {T : Type}.
  (** The value of a cleared field: zero or the empty string. *)
  Context (zero : T).
  (** [==] of the values; [!=] is its negation for numbers (NaN included) and strings. *)
  Context (eqb : T -> T -> bool).

  (** json-number.hh:12-16, json-string.hh:11-15: the default constructor. *)
  Definition fresh : cell T := Cell zero true.
  (** json-string.hh:18-19: construction from a string. *)
  Definition made (x : T) : cell T := Cell x false.
  (** json-number.hh:22, json-string.hh:24. *)
  Definition clear (_ : cell T) : cell T := Cell zero true.
  (** json-number.hh:23, json-string.hh:25: [a = c]; the new [a]. *)
  Definition assign (a c : cell T) : cell T :=
    Cell (if c_unset c then c_val a else c_val c) (c_unset c).
  (** json-number.hh:24, json-string.hh:26-27: [a = x]. *)
  Definition set (_ : cell T) (x : T) : cell T := Cell x false.
  (** json-number.hh:19, json-string.hh:20. *)
  Definition swap (a c : cell T) : cell T * cell T := (c, a).
  (** json-number.hh:20, json-string.hh:21: with a plain variable. *)
  Definition swap_val (a : cell T) (x : T) : cell T * T := (Cell x false, c_val a).
  (** json-string.hh:23, [empty(bool)]; strings only. *)
  Definition mark (a : cell T) (state : bool) : cell T := Cell (if state then zero else c_val a) state.
  (** json-string.hh:34-37: assignment through the reference that [*a] and the conversion
      give; strings only. *)
  Definition write_ref (a : cell T) (x : T) : cell T := Cell x (c_unset a).

  (** json-number.hh:21. *)
  Definition num_empty (a : cell T) : bool := c_unset a.
  (** json-string.hh:22; [value_.empty()] is the comparison with the empty string. *)
  Definition str_empty (a : cell T) : bool := c_unset a && eqb (c_val a) zero.
  (** json-number.hh:25-26, json-string.hh:28-31: comparison with a plain value. *)
  Definition eq_val (a : cell T) (x : T) : bool := negb (c_unset a) && eqb (c_val a) x.
  Definition ne_val (a : cell T) (x : T) : bool := negb (c_unset a) && negb (eqb (c_val a) x).
  (** json-number.hh:27-28, json-string.hh:32-33. *)
  Definition eq_field (a c : cell T) : bool := Bool.eqb (c_unset a) (c_unset c) && eqb (c_val a) (c_val c).
  Definition ne_field (a c : cell T) : bool := negb (Bool.eqb (c_unset a) (c_unset c)) || negb (eqb (c_val a) (c_val c)).
  (** json-number.hh:29, json-string.hh:34-37: the value. *)
  Definition get (a : cell T) : T := c_val a.
End Fields.

(** ** Programs that use fields: some fields and some plain variables of the value type. *)
Inductive op (T : Type) :=
  | OClear (i : nat)                (* a.clear() *)
  | OSet (i : nat) (x : T)          (* a = x *)
  | OAssign (i j : nat)             (* a = c *)
  | OSwap (i j : nat)               (* a.swap(c) *)
  | OSwapVal (i k : nat)            (* a.swap(x) *)
  | OMark (i : nat) (state : bool)  (* a.empty(state), strings only *)
  | OWrite (i : nat) (x : T).       (* *a = x, strings only *)
Arguments OClear {T}. Arguments OSet {T}. Arguments OAssign {T}. Arguments OSwap {T}.
Arguments OSwapVal {T}. Arguments OMark {T}. Arguments OWrite {T}.

Definition state (T : Type) : Type := list (cell T) * list T.

(** One operation; [None] if there is no such field or variable. *)
Definition step {T} (zero : T) (o : op T) (s : state T) : option (state T) :=
  let '(fs, vs) := s in
  match o with
  | OClear i => match nth_error fs i with Some a => Some (set_nth i (clear zero a) fs, vs) | None => None end
  | OSet i x => match nth_error fs i with Some a => Some (set_nth i (set a x) fs, vs) | None => None end
  | OAssign i j =>
      match nth_error fs i, nth_error fs j with
      | Some a, Some c => Some (set_nth i (assign a c) fs, vs)
      | _, _ => None
      end
  | OSwap i j =>
      match nth_error fs i, nth_error fs j with
      | Some a, Some c => let '(a', c') := swap a c in Some (set_nth j c' (set_nth i a' fs), vs)
      | _, _ => None
      end
  | OSwapVal i k =>
      match nth_error fs i, nth_error vs k with
      | Some a, Some x => let '(a', x') := swap_val a x in Some (set_nth i a' fs, set_nth k x' vs)
      | _, _ => None
      end
  | OMark i st => match nth_error fs i with Some a => Some (set_nth i (mark zero a st) fs, vs) | None => None end
  | OWrite i x => match nth_error fs i with Some a => Some (set_nth i (write_ref a x) fs, vs) | None => None end
  end.

Fixpoint steps {T} (zero : T) (l : list (op T)) (s : state T) : option (state T) :=
  match l with
  | [] => Some s
  | o :: l' => match step zero o s with Some s' => steps zero l' s' | None => None end
  end.
