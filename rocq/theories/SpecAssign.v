(** What assignment may leave behind in its target. *)
From Verif Require Import Bytes Dbl Types SpecVal.

(** [harmless reuse x y]: wherever [y] has an unset number or string, the [x] assigned to
    holds the same value there.  Elements of a repeated field matter where the container
    assigns to the old ones ([reuse]). *)
Inductive harmless (reuse : list val -> list val -> bool) : val -> val -> Prop :=
  | hl_prim p q : harmless reuse (VPrim p) (VPrim q)
  | hl_set e p q : harmless reuse (VField e p) (VField false q)
  | hl_unset e p q : peq p q -> harmless reuse (VField e p) (VField true q)
  | hl_str n s s' : harmless reuse (VStr n s) (VStr false s')
  | hl_null n s : harmless reuse (VStr n s) (VStr true s)
  | hl_b64 s s' : harmless reuse (VB64 s) (VB64 s')
  | hl_fresh l m : reuse l m = false -> harmless reuse (VList l) (VList m)
  | hl_list l m : (forall i u v, nth_error l i = Some u -> nth_error m i = Some v -> harmless reuse u v) ->
      harmless reuse (VList l) (VList m)
  | hl_msg l m : (forall i u v, nth_error l i = Some u -> nth_error m i = Some v -> harmless reuse u v) ->
      harmless reuse (VMsg l) (VMsg m).

(** Unset numbers and strings hold the value of a new object. *)
Inductive tidy : val -> Prop :=
  | td_prim p : tidy (VPrim p)
  | td_set p : tidy (VField false p)
  | td_unset p : p = VInt 0 \/ p = VDbl (DZero false) \/ p = VBool false -> tidy (VField true p)
  | td_str s : tidy (VStr false s)
  | td_null : tidy (VStr true [])
  | td_b64 s : tidy (VB64 s)
  | td_list l : Forall tidy l -> tidy (VList l)
  | td_msg l : Forall tidy l -> tidy (VMsg l).

(** Every string is set, at every depth. *)
Inductive strings_set : val -> Prop :=
  | ss_prim p : strings_set (VPrim p)
  | ss_field e p : strings_set (VField e p)
  | ss_str s : strings_set (VStr false s)
  | ss_b64 s : strings_set (VB64 s)
  | ss_list l : Forall strings_set l -> strings_set (VList l)
  | ss_msg l : Forall strings_set l -> strings_set (VMsg l).
