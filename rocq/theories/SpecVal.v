(** Equality of objects as a relation, and related notions. *)
From Verif Require Import Bytes Num Dbl Types.

(** Equality of floating point numbers: signs of zero do not matter, NaN equals nothing. *)
Inductive deq : dbl -> dbl -> Prop :=
  | deq_zero s s' : deq (DZero s) (DZero s')
  | deq_inf s : deq (DInf s) (DInf s)
  | deq_fin s m e : deq (DFin s m e) (DFin s m e).

Inductive peq : pval -> pval -> Prop :=
  | peq_int z : peq (VInt z) (VInt z)
  | peq_dbl x y : deq x y -> peq (VDbl x) (VDbl y)
  | peq_bool x : peq (VBool x) (VBool x).

(** Two objects are equal when all their fields are: presence and value. *)
Inductive veq : val -> val -> Prop :=
  | veq_prim p q : peq p q -> veq (VPrim p) (VPrim q)
  | veq_field e p q : peq p q -> veq (VField e p) (VField e q)
  | veq_str n s : veq (VStr n s) (VStr n s)
  | veq_b64 s : veq (VB64 s) (VB64 s)
  | veq_list l m : Forall2 veq l m -> veq (VList l) (VList m)
  | veq_msg l m : Forall2 veq l m -> veq (VMsg l) (VMsg m).

Definition pnan (p : pval) : Prop := match p with VDbl (DNan _) => True | _ => False end.

(** No NaN anywhere. *)
Inductive no_nan : val -> Prop :=
  | nn_prim p : ~ pnan p -> no_nan (VPrim p)
  | nn_field e p : ~ pnan p -> no_nan (VField e p)
  | nn_str n s : no_nan (VStr n s)
  | nn_b64 s : no_nan (VB64 s)
  | nn_list l : Forall no_nan l -> no_nan (VList l)
  | nn_msg l : Forall no_nan l -> no_nan (VMsg l).

(** Every numeric and string field is set, at every depth. *)
Inductive all_set : val -> Prop :=
  | as_prim p : all_set (VPrim p)
  | as_field p : all_set (VField false p)
  | as_str s : all_set (VStr false s)
  | as_b64 s : all_set (VB64 s)
  | as_list l : Forall all_set l -> all_set (VList l)
  | as_msg l : Forall all_set l -> all_set (VMsg l).
