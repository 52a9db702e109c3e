(** Documents that go wrong somewhere inside a known member, and the loose syntax
    of ignored values.  [strict] is the parameter of the grammar of [SpecJson]. *)
From Verif Require Import Bytes Num Dbl Types SpecJson SpecInterp.

Section Bad.
  Context (strict : bool).

  (** Array elements, each followed by a comma. *)
  Inductive elems_prefix : bytes -> Prop :=
    | ep_nil : elems_prefix []
    | ep_cons w1 w2 j t u : ws w1 -> ws w2 -> jtext strict j t -> elems_prefix u ->
        elems_prefix (w1 ++ t ++ w2 ++ [chr 44] ++ u).

  (** Object members, each followed by a comma, and what they say. *)
  Inductive members_prefix : list (bytes * jval) -> bytes -> Prop :=
    | mp_nil : members_prefix [] []
    | mp_cons w1 w2 w3 w4 k kt j t l u : ws w1 -> ws w2 -> ws w3 -> ws w4 ->
        jstring strict kt k -> jtext strict j t -> members_prefix l u ->
        members_prefix ((k, j) :: l) (w1 ++ kt ++ w2 ++ [chr 58] ++ w3 ++ t ++ w4 ++ [chr 44] ++ u).

  (** [bad_at B t x]: in the text [x], read for the type [t], everything is fine up
      to a value of a known member or element of type [t'] where the text from there
      on satisfies [B t']. *)
  Inductive bad_at (B : ty -> bytes -> Prop) : ty -> bytes -> Prop :=
    | bad_here t x : B t x -> bad_at B t x
    | bad_elem t u w x : elems_prefix u -> ws w -> bad_at B t x ->
        bad_at B (TRep t) ([chr 91] ++ u ++ w ++ x)
    | bad_member ms g l u w1 w2 w3 name kt k t x : members_prefix l u -> ws w1 -> ws w2 -> ws w3 ->
        jstring strict kt name -> member_named (g_write g) name = Some k -> nth_error ms k = Some t ->
        bad_at B t x -> bad_at B (TMsg ms g) ([chr 123] ++ u ++ w1 ++ kt ++ w2 ++ [chr 58] ++ w3 ++ x).

  (** A non-empty list of elements or members with a comma before the closing
      bracket or brace. *)
  Inductive trailing_comma : ty -> bytes -> Prop :=
    | tc_array t u w rest : elems_prefix u -> u <> [] -> ws w ->
        trailing_comma (TRep t) ([chr 91] ++ u ++ w ++ [chr 93] ++ rest)
    | tc_object ms g l u w rest : members_prefix l u -> l <> [] -> ws w ->
        trailing_comma (TMsg ms g) ([chr 123] ++ u ++ w ++ [chr 125] ++ rest).

  (** Values of unknown members: a comma may precede the closing bracket or brace. *)
  Inductive itext : bytes -> Prop :=
    | it_scalar j t : jtext strict j t -> match j with JArr _ | JObj _ => False | _ => True end -> itext t
    | it_arr t : ielems t -> itext ([chr 91] ++ t ++ [chr 93])
    | it_obj t : imembers t -> itext ([chr 123] ++ t ++ [chr 125])
  with ielems : bytes -> Prop :=
    | ie_end w : ws w -> ielems w
    | ie_one w1 w2 t : ws w1 -> ws w2 -> itext t -> ielems (w1 ++ t ++ w2)
    | ie_more w1 w2 t u : ws w1 -> ws w2 -> itext t -> ielems u -> ielems (w1 ++ t ++ w2 ++ [chr 44] ++ u)
  with imembers : bytes -> Prop :=
    | im_end w : ws w -> imembers w
    | im_one w1 w2 w3 w4 k kt t : ws w1 -> ws w2 -> ws w3 -> ws w4 -> jstring strict kt k -> itext t ->
        imembers (w1 ++ kt ++ w2 ++ [chr 58] ++ w3 ++ t ++ w4)
    | im_more w1 w2 w3 w4 k kt t u : ws w1 -> ws w2 -> ws w3 -> ws w4 -> jstring strict kt k -> itext t ->
        imembers u ->
        imembers (w1 ++ kt ++ w2 ++ [chr 58] ++ w3 ++ t ++ w4 ++ [chr 44] ++ u).
End Bad.

Scheme itext_mut := Induction for itext Sort Prop
  with ielems_mut := Induction for ielems Sort Prop
  with imembers_mut := Induction for imembers Sort Prop.
Combined Scheme itext_ielems_imembers_ind from itext_mut, ielems_mut, imembers_mut.
