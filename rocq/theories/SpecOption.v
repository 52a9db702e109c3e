(** Fields as optional values: independent of how they are stored. *)
From Verif Require Import Bytes Fields.

(** What a field is to its user. *)
Definition seen {T} (a : cell T) : option T := if c_unset a then None else Some (c_val a).

(** The contents of the fields, and of the plain variables. *)
Definition optional (T : Type) : Type := list (option T) * list T.
Definition contents {T} (s : state T) : optional T := (map seen (fst s), snd s).

(** What an operation does to optional values.  [h] are the values that may come out of
    a field that has none. *)
Inductive does {T} (h : T -> Prop) : op T -> optional T -> optional T -> Prop :=
  | d_clear i os vs : (i < length os)%nat -> does h (OClear i) (os, vs) (set_nth i None os, vs)
  | d_set i x os vs : (i < length os)%nat -> does h (OSet i x) (os, vs) (set_nth i (Some x) os, vs)
  | d_assign i j v os vs : (i < length os)%nat -> nth_error os j = Some v ->
      does h (OAssign i j) (os, vs) (set_nth i v os, vs)
  | d_swap i j u v os vs : nth_error os i = Some u -> nth_error os j = Some v ->
      does h (OSwap i j) (os, vs) (set_nth j u (set_nth i v os), vs)
  | d_swap_val i k x y os vs : nth_error os i = Some (Some x) -> nth_error vs k = Some y ->
      does h (OSwapVal i k) (os, vs) (set_nth i (Some y) os, set_nth k x vs)
  | d_swap_none i k z y os vs : nth_error os i = Some None -> nth_error vs k = Some y -> h z ->
      does h (OSwapVal i k) (os, vs) (set_nth i (Some y) os, set_nth k z vs)
  | d_mark i os vs : (i < length os)%nat -> does h (OMark i true) (os, vs) (set_nth i None os, vs)
  | d_unmark i x os vs : nth_error os i = Some (Some x) -> does h (OMark i false) (os, vs) (os, vs)
  | d_unmark_none i z os vs : nth_error os i = Some None -> h z ->
      does h (OMark i false) (os, vs) (set_nth i (Some z) os, vs)
  | d_write i x y os vs : nth_error os i = Some (Some x) -> does h (OWrite i y) (os, vs) (set_nth i (Some y) os, vs)
  | d_write_none i y os vs : nth_error os i = Some None -> does h (OWrite i y) (os, vs) (os, vs).

Inductive does_all {T} (h : T -> Prop) : list (op T) -> optional T -> optional T -> Prop :=
  | da_nil a : does_all h [] a a
  | da_cons o l a a1 a2 : does h o a a1 -> does_all h l a1 a2 -> does_all h (o :: l) a a2.

(** Nothing hidden: fields without a value hold zero. *)
Definition tidy {T} (zero : T) (s : state T) : Prop :=
  forall a, In a (fst s) -> c_unset a = true -> c_val a = zero.

(** Operations that hide nothing: no field that has a value is assigned from one that has
    none, and nothing is written through the reference to a field that has none. *)
Definition careful {T} (o : op T) (a : optional T) : Prop :=
  match o with
  | OAssign i j => nth_error (fst a) j = Some None -> nth_error (fst a) i = Some None
  | OWrite i _ => nth_error (fst a) i <> Some None
  | _ => True
  end.

Inductive careful_all {T} (h : T -> Prop) : list (op T) -> optional T -> Prop :=
  | ca_nil a : careful_all h [] a
  | ca_cons o l a : careful o a -> (forall a1, does h o a a1 -> careful_all h l a1) -> careful_all h (o :: l) a.
