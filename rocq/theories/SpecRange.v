(** Well-formed types: the integer types are at least one bit wide. *)
From Verif Require Import Bytes Num Dbl Types.

Definition prim_wf (p : prim) : Prop := match p with PInt _ bits => 1 <= bits | _ => True end.

Inductive ty_wf : ty -> Prop :=
  | wf_prim p : prim_wf p -> ty_wf (TPrim p)
  | wf_field p : prim_wf p -> ty_wf (TField p)
  | wf_str : ty_wf TStr
  | wf_b64 : ty_wf TB64
  | wf_rep t : ty_wf t -> ty_wf (TRep t)
  | wf_msg ms g : Forall ty_wf ms -> ty_wf (TMsg ms g).
