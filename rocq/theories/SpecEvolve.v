(** What becomes of an object that is written with one version of a schema and read with
    another: fields added, removed, reordered, made transient, types changed.  From the model
    it uses types and values ([Types.v]) and, where a floating point type is involved, the text
    of a number and its conversion ([prim_text], [string_to_prim]; C15, C16 and C53). *)
From Verif Require Import Bytes Num Dbl Types Write Read SpecNum SpecB64 SpecWrite.
From Verif Require SpecLenient.

(** The integer [z] in a type of [bits] bits: signed types take at most 2^63-1, and what
    does not fit is reduced modulo 2^bits. *)
Definition int_becomes (sg : bool) (bits z z' : Z) : Prop :=
  int_min sg bits <= z' <= int_max sg bits /\
  exists k, z' = (if sg then Z.min z (2 ^ 63 - 1) else z) + k * 2 ^ bits.

Definition real (p : prim) : bool := match p with PDouble | PFloat => true | _ => false end.
Definition number (p : prim) : bool := match p with PBool => false | _ => true end.

(** The value [x] of type [p] for a reader that has the type [p']. *)
Inductive prim_carries : prim -> pval -> prim -> pval -> Prop :=
  | pc_same p x : pval_ok p x = true -> prim_exact p x -> prim_carries p x p x
  | pc_int sg bits z sg' bits' z' : int_width bits -> int_width bits' -> in_range sg bits z = true ->
      int_becomes sg' bits' z z' -> prim_carries (PInt sg bits) (VInt z) (PInt sg' bits') (VInt z')
  | pc_real p x p' : pval_ok p x = true -> prim_finite x -> number p = true -> number p' = true ->
      real p || real p' = true -> prim_carries p x p' (string_to_prim p' (prim_text x)).

(** [v] of type [t] is the arithmetic value [x]. *)
Inductive holds : prim -> pval -> ty -> val -> Prop :=
  | ho_prim p x : holds p x (TPrim p) (VPrim x)
  | ho_field p x : holds p x (TField p) (VField false x).

(** Unset: written as null, if at all. *)
Definition null_value (v : val) : Prop :=
  match v with VField e _ => e = true | VStr n s => n = true /\ s = [] | _ => False end.

(** [carries sn t v t' v']: the object [v] of type [t], written with the option
    serialize_null as [sn] says, is [v'] for a reader that has the type [t'].
    [slot sn ms g vs g' k' t' x']: member number [k'] of the reader, of type [t'], is [x']
    if the message written has the members [ms] with the values [vs] and the tables [g]. *)
Inductive carries (sn : bool) : ty -> val -> ty -> val -> Prop :=
  | ca_num p x t v p' x' t' v' : holds p x t v -> holds p' x' t' v' -> prim_carries p x p' x' ->
      carries sn t v t' v'
  | ca_str n s : ~ null_value (VStr n s) -> carries sn TStr (VStr n s) TStr (VStr false s)
  | ca_b64 s : carries sn TB64 (VB64 s) TB64 (VB64 s)
  | ca_encoded s : carries sn TB64 (VB64 s) TStr (VStr false (rfc4648 s))
  | ca_decoded n s : ~ null_value (VStr n s) -> carries sn TStr (VStr n s) TB64 (VB64 (SpecLenient.lenient s))
  | ca_rep t l t' l' : length l' = length l ->
      (forall i x x', nth_error l i = Some x -> nth_error l' i = Some x' -> carries sn t x t' x') ->
      carries sn (TRep t) (VList l) (TRep t') (VList l')
  | ca_msg ms g vs ms' g' vs' : length vs = length ms -> length vs' = length ms' ->
      (forall k' t' x', nth_error ms' k' = Some t' -> nth_error vs' k' = Some x' -> slot sn ms g vs g' k' t' x') ->
      carries sn (TMsg ms g) (VMsg vs) (TMsg ms' g') (VMsg vs')

with slot (sn : bool) : list ty -> gencode -> list val -> gencode -> nat -> ty -> val -> Prop :=
  (* the reader does not read it *)
  | sl_transient ms g vs g' k' t' : ~ In k' (map fst (g_write g')) -> slot sn ms g vs g' k' t' (dflt t')
  (* the writer does not write it *)
  | sl_absent ms g vs g' k' label t' : In (k', label) (g_write g') -> ~ In label (map snd (g_write g)) ->
      slot sn ms g vs g' k' t' (dflt t')
  (* it is empty and left out *)
  | sl_empty ms g vs g' k k' label x t' : In (k', label) (g_write g') -> In (k, label) (g_write g) ->
      nth_error vs k = Some x -> vempty x = true -> sn = false -> slot sn ms g vs g' k' t' (dflt t')
  (* it is null: strings become present (C08) *)
  | sl_null ms g vs g' k k' label x t' : In (k', label) (g_write g') -> In (k, label) (g_write g) ->
      nth_error vs k = Some x -> null_value x -> sn = true ->
      slot sn ms g vs g' k' t' (match t' with TStr => VStr false [] | _ => dflt t' end)
  (* it is written *)
  | sl_value ms g vs g' k k' label t x t' x' : In (k', label) (g_write g') -> In (k, label) (g_write g) ->
      nth_error ms k = Some t -> nth_error vs k = Some x -> sn = true \/ vempty x = false ->
      carries sn t x t' x' -> slot sn ms g vs g' k' t' x'.

(** The kind of JSON value that a type is written as and reads. *)
Inductive kind := KNumber | KBoolean | KText | KArray | KObject.
Definition kind_of (t : ty) : kind :=
  match t with
  | TPrim p | TField p => if number p then KNumber else KBoolean
  | TStr | TB64 => KText
  | TRep _ => KArray
  | TMsg _ _ => KObject
  end.

(** [rejects sn t v t']: a value of one kind where the reader wants another, or an unset
    element of an array; inside arrays and inside members that both know. *)
Inductive rejects (sn : bool) : ty -> val -> ty -> Prop :=
  | rj_kind t v t' : ~ null_value v -> kind_of t <> kind_of t' -> rejects sn t v t'
  | rj_null t l t' x : In x l -> null_value x -> rejects sn (TRep t) (VList l) (TRep t')
  | rj_elem t l t' x : In x l -> rejects sn t x t' -> rejects sn (TRep t) (VList l) (TRep t')
  | rj_member ms g vs ms' g' k k' label t x t' : In (k, label) (g_write g) -> In (k', label) (g_write g') ->
      nth_error ms k = Some t -> nth_error vs k = Some x -> nth_error ms' k' = Some t' ->
      sn = true \/ vempty x = false -> rejects sn t x t' ->
      rejects sn (TMsg ms g) (VMsg vs) (TMsg ms' g').

(** Types between which objects carry over: members that both know have the same kind. *)
Inductive evolves : ty -> ty -> Prop :=
  | ev_scalar t t' : kind_of t = kind_of t' -> kind_of t <> KArray -> kind_of t <> KObject -> evolves t t'
  | ev_rep t t' : evolves t t' -> evolves (TRep t) (TRep t')
  | ev_msg ms g ms' g' :
      (forall k k' label t t', In (k, label) (g_write g) -> In (k', label) (g_write g') ->
         nth_error ms k = Some t -> nth_error ms' k' = Some t' -> evolves t t') ->
      evolves (TMsg ms g) (TMsg ms' g').

(** No array has an unset element. *)
Inductive no_nulls : ty -> val -> Prop :=
  | nn_scalar t v : kind_of t <> KArray -> kind_of t <> KObject -> no_nulls t v
  | nn_rep t l : (forall x, In x l -> ~ null_value x /\ no_nulls t x) -> no_nulls (TRep t) (VList l)
  | nn_msg ms g vs :
      (forall k label t x, In (k, label) (g_write g) -> nth_error ms k = Some t -> nth_error vs k = Some x -> no_nulls t x) ->
      no_nulls (TMsg ms g) (VMsg vs).

(** Integers have one of the widths that the compiler uses. *)
Definition prim_sized (p : prim) : Prop := match p with PInt _ bits => int_width bits | _ => True end.
Inductive sized : ty -> Prop :=
  | sz_prim p : prim_sized p -> sized (TPrim p)
  | sz_field p : prim_sized p -> sized (TField p)
  | sz_str : sized TStr
  | sz_b64 : sized TB64
  | sz_rep t : sized t -> sized (TRep t)
  | sz_msg ms g : Forall sized ms -> sized (TMsg ms g).

(** [t'] has every member of [t], under the same label, and possibly more. *)
Inductive extends : ty -> ty -> Prop :=
  | ex_scalar t : kind_of t <> KArray -> kind_of t <> KObject -> extends t t
  | ex_rep t t' : extends t t' -> extends (TRep t) (TRep t')
  | ex_msg ms g ms' g' :
      (forall k label t, In (k, label) (g_write g) -> nth_error ms k = Some t ->
         exists k' t', In (k', label) (g_write g') /\ nth_error ms' k' = Some t' /\ extends t t') ->
      extends (TMsg ms g) (TMsg ms' g').
