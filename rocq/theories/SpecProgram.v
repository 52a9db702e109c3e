(** What the generated classes are meant to be: the types of the members and their names. *)
From Verif Require Import Bytes Num Types Read SpecInterp SpecWrite ProtoLex ProtoParse SpecProto SpecTemplate Cpp SpecGen SpecFile SpecOpts.

(** ** JSON names *)

(** The name that the generated code uses for the label [l].  Obfuscated: the literal ends
    for C++ at the first byte equal to the mask, which becomes zero, and what remains is
    revealed with the mask for its own length. *)
Fixpoint before (z : Z) (l : bytes) : bytes :=
  match l with [] => [] | c :: r => if code c =? z then [] else c :: before z r end.
Definition effective (obf : bool) (l : bytes) : bytes :=
  if obf then
    let s := before (name_mask (length l)) l in
    map (fun c => chr (Z.lxor (Z.lxor (code c) (name_mask (length l))) (name_mask (length s)))) s
  else l.

Definition wire (p : proto) (f : field) : bytes :=
  effective (flag (pr_options p) (b "obfuscate_strings")) (json_label (flag (pr_options p) (b "number_names")) f).

(** Positions and names of the persistent fields. *)
Fixpoint wire_at (p : proto) (k : nat) (l : list field) : list (nat * bytes) :=
  match l with
  | [] => []
  | f :: r => if transient f then wire_at p (S k) r else (k, wire p f) :: wire_at p (S k) r
  end.

(** Positions and JSON names (without obfuscation). *)
Fixpoint labels_at (numbers : bool) (k : nat) (l : list field) : list (nat * bytes) :=
  match l with
  | [] => []
  | f :: r => if transient f then labels_at numbers (S k) r else (k, json_label numbers f) :: labels_at numbers (S k) r
  end.

(** ** Types *)

Definition prim_of (t : ftype) : prim :=
  match t with
  | FDouble => PDouble
  | FFloat => PFloat
  | FInt32 | FSint32 | FSfixed32 => PInt true 32
  | FInt64 | FSint64 | FSfixed64 => PInt true 64
  | FUint32 | FFixed32 => PInt false 32
  | FUint64 | FFixed64 => PInt false 64
  | _ => PBool
  end.

(** [T]: the types of the messages.  Bytes are Base64 if the header has the serializer,
    otherwise an array of numbers. *)
Definition field_ty (h : headers) (T : nat -> ty) (f : field) : ty :=
  match f_type f with
  | FBytes => if h_base64 h then TB64 else TRep (TPrim (PInt false 8))
  | FString => if f_repeated f then TRep TStr else TStr
  | FMessage => let t := match f_ref f with Some k => T k | None => TStr end in
                if f_repeated f then TRep t else t
  | t => if f_repeated f then TRep (TPrim (prim_of t)) else TField (prim_of t)
  end.

(** The type of every message: its fields in order; names written as above, and the lookup
    selects the first member written under a name, or none. *)
Definition solves (p : proto) (h : headers) (T : nat -> ty) : Prop :=
  forall k m, nth_error (pr_messages p) k = Some m ->
    exists g, T k = TMsg (map (field_ty h T) (m_fields m)) g /\ g_write g = wire_at p 0 (m_fields m) /\
      forall name, select_member g name = member_named (g_write g) name.

(** ** Conditions for the C++ compiler *)

(** A label that a literal gives back. *)
Definition literal_fine (l : bytes) : Prop :=
  ~ In """"%char l /\ ~ In "\"%char l /\ ~ In LF l /\ ~ In NUL l /\ no_trigraph l.

(** The structures of a message, with their namespaces; the namespaces of a package. *)
Definition structs (m : message) : list bytes :=
  [full_name (m_package m) (m_name m ++ b "_type"); full_name (m_package m) (m_name m)].
Definition encloses (ns pkg : bytes) : Prop :=
  pkg <> [] /\ (ns = pkg \/ exists r, pkg = ns ++ "."%char :: r).

Definition message_cpp (p : proto) (m : message) : Prop :=
  NoDup (map f_name (m_fields m)) /\
  (forall f, In f (m_fields m) -> ~ In (f_name f) cpp_keywords) /\
  ~ In (m_name m) cpp_keywords /\
  (forall ps w, package_parts (m_package m) ps -> In w ps -> ~ In w cpp_keywords) /\
  (flag (pr_options p) (b "obfuscate_strings") = false ->
   forall f, In f (m_fields m) -> transient f = false -> literal_fine (json_label (flag (pr_options p) (b "number_names")) f)).

(** A bytes field finds a serializer. *)
Definition bytes_cpp (p : proto) (h : headers) : Prop :=
  uses (pr_messages p) (fun f => f_type f = FBytes) -> h_base64 h = true \/ h_array h = true /\ h_number h = true.

Definition names_cpp (p : proto) : Prop :=
  (forall m, In m (pr_messages p) -> message_cpp p m) /\
  NoDup (concat (map structs (pr_messages p))) /\
  (forall m m' ns, In m (pr_messages p) -> In m' (pr_messages p) -> encloses ns (m_package m) -> ~ In ns (structs m')).
Definition cpp_fine (p : proto) (h : headers) : Prop := names_cpp p /\ bytes_cpp p h.

(** Distinct clean names: the tables are those of the runtime theorems. *)
Definition wire_fine (strict : bool) (p : proto) : Prop :=
  forall m, In m (pr_messages p) ->
    NoDup (map (wire p) (written m)) /\ forall f, In f (written m) -> clean strict (wire p f).

(** What the classes mean. *)
Definition means (p : proto) (order : list nat) (T : nat -> ty) (env : cenv) : Prop :=
  Forall2 (fun k e => exists m, nth_error (pr_messages p) k = Some m /\ e = (m_package m, m_name m, T k)) order env.

(** ** Dispatch (C32) *)

(** With distinct names every member is found under its own; other names are not found; a
    second member with the same name is never found. *)
Definition dispatches (g : gencode) : Prop :=
  (forall k name, NoDup (map snd (g_write g)) -> In (k, name) (g_write g) -> select_member g name = Some k) /\
  (forall name, ~ In name (map snd (g_write g)) -> select_member g name = None) /\
  (forall u k n v k' w, g_write g = u ++ (k, n) :: v ++ (k', n) :: w -> forall name, select_member g name <> Some k').
