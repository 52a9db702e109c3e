(** How deeply a JSON value is nested, and how deeply the reader must follow it. *)
From Verif Require Import Bytes Num Types SpecJson SpecInterp SpecTok.
Local Open Scope nat_scope.

(** A number, string or word has height 1. *)
Fixpoint height (j : jval) : nat :=
  match j with
  | JArr l => S (list_max (map height l))
  | JObj l => S (list_max (map (fun m => height (snd m)) l))
  | _ => 1
  end.

(** Members of the type are followed as far as the type goes, unknown members to their end. *)
Fixpoint reach (t : ty) (j : jval) {struct t} : nat :=
  match t with
  | TRep t' => match j with JArr l => S (list_max (map (reach t') l)) | _ => 1 end
  | TMsg ms g =>
      match j with
      | JObj l =>
          let member (m : bytes * jval) :=
            match member_named (g_write g) (fst m) with
            | Some k => match nth_error (map reach ms) k with Some f => f (snd m) | None => height (snd m) end
            | None => height (snd m)
            end in
          S (list_max (map member l))
      | _ => 1
      end
  | _ => 1
  end.

(** Every member of the document that is read as a member of a message is one of the type. *)
Fixpoint known (t : ty) (j : jval) {struct t} : Prop :=
  match t with
  | TRep t' => match j with JArr l => Forall (known t') l | _ => True end
  | TMsg ms g =>
      match j with
      | JObj l =>
          let member (m : bytes * jval) :=
            match member_named (g_write g) (fst m) with
            | Some k => match nth_error (map known ms) k with Some f => f (snd m) | None => False end
            | None => False
            end in
          Forall member l
      | _ => True
      end
  | _ => True
  end.

(** How deeply a type is nested. *)
Fixpoint levels (t : ty) : nat :=
  match t with
  | TRep t' => S (levels t')
  | TMsg ms _ => S (list_max (map levels ms))
  | _ => 1
  end.

(** Opening and closing brackets. *)
Definition opens (l : list jtok) : nat := length (filter (fun k => match k with KLBrace | KLBrack => true | _ => false end) l).
Definition closes (l : list jtok) : nat := length (filter (fun k => match k with KRBrace | KRBrack => true | _ => false end) l).

(** No beginning of the document, valid or not, opens more than [d] brackets that it does not close. *)
Definition nested_at_most (d : nat) (inp : bytes) : Prop :=
  forall pre post toks, inp = pre ++ post -> tokens pre post toks -> opens toks <= closes toks + d.

(** The opening brackets among the bytes of a document, those in strings included. *)
Definition brackets (inp : bytes) : nat :=
  length (filter (fun c => ((code c =? 123) || (code c =? 91))%Z) inp).
