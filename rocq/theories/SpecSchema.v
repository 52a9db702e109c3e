(** The syntax tree of the compiler that a schema stands for. *)
From Verif Require Import Bytes ProtoLex ProtoParse SpecProto.

Definition value_type (v : svalue) : otype :=
  match v with SBool _ => OBoolean | SIdent _ => OIdentifier | SInt _ => OInteger | SStr _ => OString end.
Definition value_text (v : svalue) : bytes :=
  match v with
  | SBool true => b "true" | SBool false => b "false" | SIdent w => w | SInt ds => ds | SStr s => s
  end.

(** The map holds the last value of every option and nothing else.  The line of an
    entry is not compared. *)
Definition options_are (m : omap) (l : list sopt) : Prop :=
  forall n, match last_value l n, o_find n m with
            | Some v, Some e => o_name e = n /\ o_type e = value_type v /\ o_value e = value_text v
            | None, None => True
            | _, _ => False
            end.

Definition scalar_type (t : stype) : ftype :=
  match t with
  | SDouble => FDouble | SFloat => FFloat | SInt32 => FInt32 | SInt64 => FInt64 | SUint32 => FUint32
  | SUint64 => FUint64 | SSint32 => FSint32 | SSint64 => FSint64 | SFixed32 => FFixed32
  | SFixed64 => FFixed64 | SSfixed32 => FSfixed32 | SSfixed64 => FSfixed64 | SBoolean => FBool
  | SString => FString | SBytes => FBytes | SMessage _ => FMessage
  end.

Definition field_is (all : list (bytes * bytes * list sitem)) (pkg : bytes) (f : field) (s : sfield) : Prop :=
  f_type f = scalar_type (sf_type s) /\
  match sf_type s with
  | SMessage w => f_qname f = full_name pkg w /\ exists k, f_ref f = Some k /\ first_named all (full_name pkg w) k
  | _ => f_qname f = [] /\ f_ref f = None
  end /\
  f_repeated f = match sf_mod s with SRepeated => true | _ => false end /\
  f_optional f = match sf_mod s with SOptional => true | _ => false end /\
  f_name f = sf_name s /\ f_index f = sf_number s /\ options_are (f_options f) (sf_opts s).

Definition message_is (all : list (bytes * bytes * list sitem)) (m : message) (d : bytes * bytes * list sitem) : Prop :=
  let '(pkg, name, items) := d in
  m_package m = pkg /\ m_name m = name /\ Forall2 (field_is all pkg) (m_fields m) (item_fields items) /\
  options_are (m_options m) (item_opts items).

Definition proto_is (p : proto) (l : list sdecl) : Prop :=
  Forall2 (message_is (messages_of [] l)) (pr_messages p) (messages_of [] l) /\
  options_are (pr_options p) (decl_opts l).
