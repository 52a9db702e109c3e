(** Which names of a schema disturb the generated header. *)
From Verif Require Import Bytes Num Types ProtoLex ProtoParse SpecProto Cpp Gen SpecGen SpecFile SpecOpts SpecProgram Scope.

(** The C++ name of an integer type. *)
Definition int_word (t : ftype) : option bytes :=
  match t with
  | FInt32 | FSint32 | FSfixed32 => Some (b "int32_t")
  | FInt64 | FSint64 | FSfixed64 => Some (b "int64_t")
  | FUint32 | FFixed32 => Some (b "uint32_t")
  | FUint64 | FFixed64 => Some (b "uint64_t")
  | FBytes => Some (b "uint8_t")
  | _ => None
  end.

(** A namespace around the class of [m] has something called [w]: one of [own], a structure of an
    earlier message, or a namespace opened before or for [m]. *)
Definition hides (own : list bytes) (earlier : list message) (m : message) (w : bytes) : Prop :=
  exists ns, encloses ns (m_package m) /\
    (In (full_name ns w) own \/
     (exists m', In m' earlier /\ In (full_name ns w) (structs m')) \/
     (exists m', (m' = m \/ In m' earlier) /\ encloses (full_name ns w) (m_package m'))).

(** [ms]: the messages in the order of the header. *)
Definition lookup_fine (lib : bytes) (ms : list message) : Prop :=
  forall u m v, ms = u ++ m :: v ->
    ~ hides (structs m) u m (b "std") /\ ~ hides (structs m) u m lib /\
    forall f w, In f (m_fields m) -> int_word (f_type f) = Some w ->
      ~ hides [full_name (m_package m) (m_name m ++ b "_type")] u m w /\ ~ In w (map f_name (m_fields m)).

(** The names in the global namespace, and macros. *)
Definition well_known (lib : bytes) (pl : platform) (w : bytes) : Prop :=
  In w (map b ["std"; "int32_t"; "int64_t"; "uint8_t"; "uint32_t"; "uint64_t"]%string) \/ w = lib \/ In w (pf_globals pl).
Definition printed (m : message) (w : bytes) : Prop :=
  w = m_name m \/ w = m_name m ++ b "_type" \/ In w (map f_name (m_fields m)) \/
  exists ps, package_parts (m_package m) ps /\ In w ps.
Definition outside_fine (lib : bytes) (pl : platform) (ms : list message) : Prop :=
  forall m, In m ms ->
    (m_package m = [] -> forall w, In w (structs m) -> ~ well_known lib pl w) /\
    (forall w ps, package_parts (m_package m) (w :: ps) -> ~ well_known lib pl w) /\
    (forall w, printed m w -> ~ In w (pf_macros pl)).

(** Enough, whatever the order: none of the words is a message of the schema or a component
    of one of its packages, and no field is called like an integer type. *)
Definition reserved (lib : bytes) (w : bytes) : Prop :=
  In w (map b ["std"; "int32_t"; "int64_t"; "uint8_t"; "uint32_t"; "uint64_t"]%string) \/ w = lib.
Definition names_apart (lib : bytes) (ms : list message) : Prop :=
  forall m, In m ms ->
    ~ reserved lib (m_name m) /\ ~ reserved lib (m_name m ++ b "_type") /\
    (forall ps w, package_parts (m_package m) ps -> In w ps -> ~ reserved lib w) /\
    (forall f, In f (m_fields m) -> ~ reserved lib (f_name f)).
