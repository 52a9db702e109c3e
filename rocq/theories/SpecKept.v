(** What deserialization leaves alone. *)
From Verif Require Import Bytes Num Dbl Types SpecWrite.

(** [kept t v v']: [v'] differs from [v] only in fields that are written by
    serialize (persistent), at every depth.  Existing elements of containers stay,
    in the same place; new elements differ from a default constructed one only in
    persistent fields. *)
Inductive kept : ty -> val -> val -> Prop :=
  | kp_prim p v v' : kept (TPrim p) v v'
  | kp_field p v v' : kept (TField p) v v'
  | kp_str v v' : kept TStr v v'
  | kp_b64 s new : kept TB64 (VB64 s) (VB64 (s ++ new))
  | kp_rep t l new : (forall x, In x new -> kept t (dflt t) x) ->
      kept (TRep t) (VList l) (VList (l ++ new))
  | kp_msg ms g vs vs' : length vs' = length vs ->
      (forall k t v, nth_error ms k = Some t -> nth_error vs k = Some v ->
         exists v', nth_error vs' k = Some v' /\
                    (written g k = true -> kept t v v') /\ (written g k = false -> v' = v)) ->
      kept (TMsg ms g) (VMsg vs) (VMsg vs').
