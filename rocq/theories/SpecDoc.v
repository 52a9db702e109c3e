(** Notions on JSON documents used by the statements about deserialization. *)
From Verif Require Import Bytes Num Dbl Types SpecJson SpecInterp.

(** [prune t j]: the document [j] without the members that are not fields of the
    message type, at every depth. *)
Section PruneMembers.
  Context {A : Type} (fs : list (A -> A)).
  Fixpoint prune_members (names : list (nat * bytes)) (l : list (bytes * A)) : list (bytes * A) :=
    match l with
    | [] => []
    | (name, j) :: r =>
        match member_named names name with
        | None => prune_members names r
        | Some k =>
            (name, match nth_error fs k with Some f => f j | None => j end)
            :: prune_members names r
        end
    end.
End PruneMembers.

Fixpoint prune (t : ty) {struct t} : jval -> jval :=
  match t with
  | TRep t' => fun j => match j with JArr l => JArr (map (prune t') l) | _ => j end
  | TMsg ms g => fun j =>
      match j with JObj l => JObj (prune_members (map prune ms) (g_write g) l) | _ => j end
  | _ => fun j => j
  end.

(** The values a document gives to member [k], in document order. *)
Definition given (names : list (nat * bytes)) (k : nat) (l : list (bytes * jval)) : list jval :=
  map snd (filter (fun m => match member_named names (fst m) with
                            | Some k' => Nat.eqb k' k
                            | None => false
                            end) l).

Definition is_str (t : ty) : bool := match t with TStr => true | _ => false end.
