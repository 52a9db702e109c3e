(** Objects with non-finite numbers, and where their texts go wrong. *)
From Verif Require Import Bytes Num Dbl Types SpecJson SpecInterp SpecStr SpecBad.

(** Objects that would be JSON if their numbers were finite: [jsonable] of
    [SpecWrite] without the condition on numbers. *)
Inductive nearly (ea strict : bool) : ty -> val -> Prop :=
  | ne_prim p x : pval_ok p x = true -> nearly ea strict (TPrim p) (VPrim x)
  | ne_unset p x : nearly ea strict (TField p) (VField true x)
  | ne_field p x : pval_ok p x = true -> nearly ea strict (TField p) (VField false x)
  | ne_null n s : vempty (VStr n s) = true -> nearly ea strict TStr (VStr n s)
  | ne_str n s : writable ea s -> Forall (okc strict) s -> nearly ea strict TStr (VStr n s)
  | ne_b64 s : nearly ea strict TB64 (VB64 s)
  | ne_rep t l : (forall x, In x l -> nearly ea strict t x) -> nearly ea strict (TRep t) (VList l)
  | ne_msg ms g vs :
      (forall k label t x, In (k, label) (g_write g) -> nth_error ms k = Some t ->
                           nth_error vs k = Some x -> nearly ea strict t x) ->
      nearly ea strict (TMsg ms g) (VMsg vs).

Definition nonfinite (v : pval) : Prop :=
  match v with VDbl (DInf _) | VDbl (DNan _) => True | _ => False end.

(** A NaN or an infinity is written somewhere in the object. *)
Inductive nonfinite_in : ty -> val -> Prop :=
  | ni_prim p x : nonfinite x -> nonfinite_in (TPrim p) (VPrim x)
  | ni_field p x : nonfinite x -> nonfinite_in (TField p) (VField false x)
  | ni_rep t l x : In x l -> nonfinite_in t x -> nonfinite_in (TRep t) (VList l)
  | ni_msg ms g vs k label t x : In (k, label) (g_write g) -> nth_error ms k = Some t ->
      nth_error vs k = Some x -> nonfinite_in t x -> nonfinite_in (TMsg ms g) (VMsg vs).

Definition nonfinite_text (d : bytes) : Prop := In d [b "nan"; b "-nan"; b "inf"; b "-inf"].

(** A container with such a text in place of an element or a member. *)
Inductive nonfinite_inside (strict : bool) : ty -> bytes -> Prop :=
  | nf_elem t u w d rest : (exists p, t = TPrim p \/ t = TField p) ->
      elems_prefix strict u -> ws w -> nonfinite_text d ->
      nonfinite_inside strict (TRep t) ([chr 91] ++ u ++ w ++ d ++ rest)
  | nf_member ms g l u w1 w2 w3 name kt k t d rest : (exists p, t = TPrim p \/ t = TField p) ->
      members_prefix strict l u -> ws w1 -> ws w2 -> ws w3 ->
      jstring strict kt name -> member_named (g_write g) name = Some k -> nth_error ms k = Some t ->
      nonfinite_text d ->
      nonfinite_inside strict (TMsg ms g) ([chr 123] ++ u ++ w1 ++ kt ++ w2 ++ [chr 58] ++ w3 ++ d ++ rest).
