(** Two versions of a schema: when objects written by programs of one are read by programs
    of the other. *)
From Verif Require Import Bytes Num Types ProtoLex ProtoParse SpecProto Cpp SpecGen SpecFile SpecProgram SpecEvolve.

Definition key (m : message) : bytes * bytes := (m_package m, m_name m).

(** The header has the Base64 serializer, so bytes are written as text (see C40). *)
Definition encodes (p : proto) : Prop := uses (pr_messages p) (fun f => f_repeated f = true /\ f_type f = FBytes).

(** [R] says which messages of the two versions correspond.  Fields of the same kind: numbers of
    any type, booleans, strings, bytes, corresponding messages; both repeated or neither. *)
Inductive alike (p p' : proto) (R : bytes * bytes -> bytes * bytes -> Prop) (f f' : field) : Prop :=
  | al_number : numeric f -> numeric f' -> number (prim_of (f_type f)) = number (prim_of (f_type f')) ->
      f_repeated f = f_repeated f' -> alike p p' R f f'
  | al_string : f_type f = FString -> f_type f' = FString -> f_repeated f = f_repeated f' -> alike p p' R f f'
  | al_bytes : f_type f = FBytes -> f_type f' = FBytes -> (encodes p <-> encodes p') -> alike p p' R f f'
  | al_encoded : f_type f = FBytes -> encodes p -> f_type f' = FString -> f_repeated f' = false -> alike p p' R f f'
  | al_decoded : f_type f = FString -> f_repeated f = false -> f_type f' = FBytes -> encodes p' -> alike p p' R f f'
  | al_message : f_type f = FMessage -> f_type f' = FMessage -> f_repeated f = f_repeated f' ->
      (forall j j' m m', f_ref f = Some j -> f_ref f' = Some j' -> nth_error (pr_messages p) j = Some m ->
         nth_error (pr_messages p') j' = Some m' -> R (key m) (key m')) -> alike p p' R f f'.

(** Corresponding messages: fields with the same JSON name are alike.  Nothing is asked of
    fields that only one version has, of their order, numbers, C++ names and of transient fields. *)
Definition compatible (p p' : proto) (R : bytes * bytes -> bytes * bytes -> Prop) : Prop :=
  forall m m', In m (pr_messages p) -> In m' (pr_messages p') -> R (key m) (key m') ->
  forall f f', In f (written m) -> In f' (written m') -> wire p f = wire p' f' -> alike p p' R f f'.
