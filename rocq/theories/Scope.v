(** Which names of a schema come between the generated header and the names it relies on. *)
From Verif Require Import Bytes Num Types Cpp.

(** The surroundings of the header: the namespace of the library, "protogen" and the
    version (cppgen.cc:128-131, 160-161), and what the standard headers included by
    protogen.hh:20-31 and json.hh:5 bring along besides [std] and the integer types. *)
Record platform := Platform {
  pf_globals : list bytes;                (* declared in the global namespace *)
  pf_macros : list bytes
}.

(** The words for which the header relies on the global namespace: cppgen.cc:57-75
    (integers), 128-131, 147-151, 160-163 (std and the library). *)
Definition std_name : bytes := b "std".
Definition int_names : list bytes := map b ["int32_t"; "int64_t"; "uint8_t"; "uint32_t"; "uint64_t"]%string.
Definition prim_names (p : prim) : list bytes :=
  match p with
  | PInt true 32 => [b "int32_t"]
  | PInt true 64 => [b "int64_t"]
  | PInt false 8 => [b "uint8_t"]
  | PInt false 32 => [b "uint32_t"]
  | PInt false 64 => [b "uint64_t"]
  | _ => []
  end.

(** Words of a member's type that stand alone, and words before '::' (cppgen.cc:122-167).
    Messages are written from the global namespace, ' ::' first (cppgen.cc:77-93). *)
Definition elem_alone (e : celem) : list bytes := match e with EPrim p => prim_names p | _ => [] end.
Definition type_alone (t : ctype) : list bytes :=
  match t with CField p => prim_names p | CElem e => elem_alone e | CSeq _ e => elem_alone e end.
Definition elem_before (lib : bytes) (e : celem) : list bytes := match e with EStr => [lib] | _ => [] end.
Definition type_before (lib : bytes) (t : ctype) : list bytes :=
  match t with CField _ => [lib] | CElem e => elem_before lib e | CSeq _ e => std_name :: elem_before lib e end.

(** Unqualified lookup (C++11 3.4.1) from inside the namespaces around a class: [w] is
    found too early if one of them has a member called [w] among the declarations [d]. *)
Definition hidden (d : list bytes) (c : cls) (w : bytes) : bool :=
  existsb (fun q => existsb (bytes_eqb (in_pkg q w)) d) (namespaces c).

(** The structure [c_name]_type (cppgen.cc:190-205), then the structure [c_name]
    (cppgen.cc:451-457, json.hh:63-104; it uses [std] and the library's namespace), then the
    classes after it.  Inside a class its own name is found first, then the members: a
    data member is skipped before '::' (3.4.3), otherwise it must not change the meaning of
    a name used in the class (3.3.7). *)
Fixpoint scopes_go (lib : bytes) (d : list bytes) (l : list cls) : bool :=
  match l with
  | [] => true
  | c :: r =>
      let here := d ++ namespaces c in
      let model := in_pkg (c_pkg c) (c_name c ++ b "_type") in
      let alone := flat_map (fun m => type_alone (fst m)) (c_members c) in
      let before := flat_map (fun m => type_before lib (fst m)) (c_members c) in
      forallb (fun w => negb (hidden (here ++ [model]) c w)) (alone ++ before) &&
      forallb (fun w => negb (existsb (bytes_eqb w) (map snd (c_members c)))) alone &&
      forallb (fun w => negb (hidden (here ++ struct_names c) c w)) [std_name; lib] &&
      scopes_go lib (here ++ struct_names c) r
  end.

(** What a class declares in the global namespace (the structures, or the first namespace),
    and the identifiers printed for it, on which macros act. *)
Definition root_names (c : cls) : list bytes :=
  match c_pkg c with [] => struct_names c | p => match components [] p with r :: _ => [r] | [] => [] end end.
Definition printed_names (c : cls) : list bytes :=
  (match c_pkg c with [] => [] | p => components [] p end) ++ [c_name c ++ b "_type"; c_name c] ++ map snd (c_members c).

Definition global_names (lib : bytes) (pl : platform) : list bytes := std_name :: lib :: int_names ++ pf_globals pl.
Definition outside_ok (lib : bytes) (pl : platform) (c : cls) : bool :=
  forallb (fun w => negb (existsb (bytes_eqb w) (global_names lib pl))) (root_names c) &&
  forallb (fun w => negb (existsb (bytes_eqb w) (pf_macros pl))) (printed_names c).

Definition scopes_ok (lib : bytes) (pl : platform) (l : list cls) : bool :=
  scopes_go lib [] l && forallb (outside_ok lib pl) l.

(** [Cpp.program_ty] with these rules.  [None]: does not compile, or not determined here
    (declaring something in the namespaces [std] and [lib], macros). *)
Definition header_ty (lib : bytes) (pl : platform) (h : headers) (l : list cls) : option cenv :=
  if scopes_ok lib pl l then program_ty h l else None.
