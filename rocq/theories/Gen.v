(** The C++ generator (source/cpp/cppgen.cc). *)
From Verif Require Import Bytes Num Types Read ProtoLex ProtoParse Printer Template Codes Cpp.

(** ** The generator prints and may throw *)

(** What a function did: returned, threw [protogen::exception] (message, line, column), or
    ran into undefined behaviour. *)
Inductive gout (A : Type) := GOk (a : A) | GThrow (msg : bytes) (line col : Z) | GUndef | GFuel.
Arguments GOk {A} a.
Arguments GThrow {A} msg line col.
Arguments GUndef {A}.
Arguments GFuel {A}.

(** The text printed, and the outcome. *)
Definition G (A : Type) : Type := bytes * gout A.
Definition gret {A} (a : A) : G A := ([], GOk a).
Definition gthrow {A} (msg : bytes) (line col : Z) : G A := ([], GThrow msg line col).
Definition gbind {A B} (m : G A) (k : A -> G B) : G B :=
  match snd m with
  | GOk a => let r := k a in (fst m ++ fst r, snd r)
  | GThrow e l c => (fst m, GThrow e l c)
  | GUndef => (fst m, GUndef)
  | GFuel => (fst m, GFuel)
  end.

Notation "x <-- m ;;; k" := (gbind m (fun x => k)) (at level 61, m at next level, right associativity).

(** [ctx.printer(fmt, vars...)], printer.hh:41-45. *)
Definition gput (fmt : bytes) (vars : list bytes) : G unit :=
  match print fmt vars with Some t => (t, GOk tt) | None => ([], GUndef) end.

(** [for (auto x : l) f(x)]. *)
Fixpoint geach {A B} (f : A -> G B) (l : list A) : G (list B) :=
  match l with
  | [] => gret []
  | x :: r => y <-- f x ;;; ys <-- geach f r ;;; gret (y :: ys)
  end.

(** ** Configuration of the build *)

(** PROTOGEN_VERSION, PROTOGEN_VERSION_NAMING (cmake.hh.in:7-8) and the macros with the
    runtime headers (auto-*.hh, made by template.cc from source/cpp/*.hh). *)
Record build := Build {
  b_version : bytes;
  b_naming : bytes;
  b_protogen : bytes;
  b_json : bytes;
  b_array : bytes;
  b_base64 : bytes;
  b_number : bytes;
  b_string : bytes
}.

(** ** Options (cppgen.cc:226-260) *)

Definition opt_string (o : omap) (name dflt : bytes) : G bytes :=
  match o_find name o with
  | None => gret dflt
  | Some e => match o_type e with
              | OString => gret (o_value e)
              | _ => gthrow (b "The value for '" ++ name ++ b "' must be a string") (o_line e) 1
              end
  end.

Definition opt_bool (o : omap) (name : bytes) (dflt : bool) : G bool :=
  match o_find name o with
  | None => gret dflt
  | Some e => match o_type e with
              | OBoolean => gret (bytes_eqb (o_value e) (b "true"))
              | _ => gthrow (b "The value for '" ++ name ++ b "' must be a boolean") (o_line e) 1
              end
  end.

Definition is_transient (f : field) : G bool := opt_bool (f_options f) (b "transient") false.

Definition is_quote (c : ascii) : bool := Ascii.eqb c "'" || Ascii.eqb c """".

(** cppgen.cc:253-260. *)
Definition json_name (f : field) : G bytes :=
  name <-- opt_string (f_options f) (b "name") (f_name f) ;;;
  if existsb is_quote name
  then gthrow (b "option 'name' in the field '" ++ f_name f ++ b "' must not contain quotes") 1 1
  else gret name.

(** ** Names of types (cppgen.cc:77-167) *)

Fixpoint package_go (p : bytes) : bytes :=
  match p with
  | [] => []
  | c :: r => if Ascii.eqb c "." then b "::" ++ package_go r else c :: package_go r
  end.

Definition native_package (pkg : bytes) : bytes :=
  match pkg with [] => b " " | _ => b " ::" ++ package_go pkg end.

(** TYPE_MAPPING, cppgen.cc:52-75: the C++ type of a value, except strings and messages. *)
Definition scalar (t : ftype) : option prim :=
  match t with
  | FDouble => Some PDouble
  | FFloat => Some PFloat
  | FInt32 | FSint32 | FSfixed32 => Some (PInt true 32)
  | FInt64 | FSint64 | FSfixed64 => Some (PInt true 64)
  | FUint32 | FFixed32 => Some (PInt false 32)
  | FUint64 | FFixed64 => Some (PInt false 64)
  | FBool => Some PBool
  | FBytes => Some (PInt false 8)
  | FString | FMessage => None
  end.

Definition native_scalar (t : ftype) : bytes :=
  match t with
  | FDouble => b "double"
  | FFloat => b "float"
  | FInt32 | FSint32 | FSfixed32 => b "int32_t"
  | FInt64 | FSint64 | FSfixed64 => b "int64_t"
  | FUint32 | FFixed32 => b "uint32_t"
  | FUint64 | FFixed64 => b "uint64_t"
  | FBool => b "bool"
  | FBytes => b "uint8_t"
  | FString | FMessage => []
  end.

Section Generator.
  Variable cfg : build.

  (** The messages that [type.ref] points into: the vector made by the parser. *)
  Variable msgs : list message.

  (** [field.type.ref], dereferenced; a null pointer throws (cppgen.cc:111-112). *)
  Definition referred (f : field) : G message :=
    match f_ref f with
    | None => gthrow (b "Message type reference is null") 0 0
    | Some k => match nth_error msgs k with Some m => gret m | None => ([], GUndef) end
    end.

  (** [fieldNativeType], cppgen.cc:122-167: the text of the type, and the type. *)
  Definition is_seq (f : field) : bool :=
    f_repeated f || match f_type f with FBytes => true | _ => false end.

  Definition value_type (f : field) : G (bytes * celem) :=
    match f_type f with
    | FString => gret (b "protogen" ++ b_naming cfg ++ b "::string_field", EStr)
    | FMessage => m <-- referred f ;;;
                  gret (native_package (m_package m) ++ b "::" ++ m_name m, EMsg (m_package m) (m_name m))
    | t => match scalar t with
           | Some p => gret (native_scalar t, EPrim p)
           | None => ([], GUndef)
           end
    end.

  Definition field_native_type (lists : bool) (f : field) : G (bytes * ctype) :=
    v <-- value_type f ;;;
    let '(text, e) := v in
    if is_seq f then
      if match f_type f with FBytes => true | _ => negb lists end
      then gret (b "std::" ++ b "vector<" ++ text ++ b ">", CSeq false e)
      else gret (b "std::" ++ b "list<" ++ text ++ b ">", CSeq true e)
    else match f_type f, e with
         | (FMessage | FString), _ => gret (text, CElem e)
         | _, EPrim p => gret (b "protogen" ++ b_naming cfg ++ b "::field<" ++ text ++ b ">", CField p)
         | _, _ => ([], GUndef)
         end.

  (** [generateNamespace], cppgen.cc:169-188.  [acc]: the variable [name], reversed. *)
  Fixpoint namespace_go (opening : bool) (acc p : bytes) : G unit :=
    match p with
    | [] => gret tt
    | c :: r =>
        if Ascii.eqb c "." then
          _ <-- gput (if opening then b "namespace $1$ {" ++ [LF] else b "} // namespace $1$" ++ [LF]) [rev acc] ;;;
          namespace_go opening [] r
        else namespace_go opening (c :: acc) r
    end.

  Definition gen_namespace (m : message) (opening : bool) : G unit :=
    match m_package m with
    | [] => gret tt
    | p => namespace_go opening [] (p ++ b ".")
    end.

  Definition TAB : ascii := "009".

  (** [generateModel] of one message, cppgen.cc:190-205. *)
  Definition gen_model (lists : bool) (m : message) : G (list (ctype * bytes)) :=
    _ <-- gen_namespace m true ;;;
    _ <-- gput (TAB :: b "struct $1$_type" ++ LF :: TAB :: b "{" ++ [LF]) [m_name m] ;;;
    ms <-- geach (fun f => t <-- field_native_type lists f ;;;
                           _ <-- gput (TAB :: TAB :: b "$1$ $2$;" ++ [LF]) [fst t; f_name f] ;;;
                           gret (snd t, f_name f)) (m_fields m) ;;;
    _ <-- gput (TAB :: b "};" ++ [LF]) [] ;;;
    _ <-- gen_namespace m false ;;;
    gret ms.

  (** [obfuscate], cppgen.cc:207-224: lower case hexadecimal without padding. *)
  Definition hex_char (d : Z) : ascii := if d <? 10 then chr (48 + d) else chr (87 + d).
  Definition hex_byte (z : Z) : bytes :=
    if z / 16 =? 0 then [hex_char (z mod 16)] else [hex_char (z / 16); hex_char (z mod 16)].
  Definition obfuscate (value : bytes) : bytes :=
    let mask := rol8 147 (Z.of_nat (length value) mod 8) in
    concat (map (fun c => b "\x" ++ hex_byte (Z.lxor (code c) mask)) value).

  (** [std::to_string(field.index)] or the JSON name (cppgen.cc:301-303, 414-416). *)
  Definition field_label (numbers : bool) (f : field) : G bytes :=
    name <-- json_name f ;;; gret (if numbers then dec (f_index f) else name).

  (** The loops over the persistent fields: fields for which [is_transient] is false, each
      with the value of the counter [i] (cppgen.cc:273-280, 296-311, 409-421). *)
  Fixpoint gpersist {B} (g : Z -> field -> G B) (i : Z) (l : list field) : G (list B) :=
    match l with
    | [] => gret []
    | f :: r =>
        t <-- is_transient f ;;;
        if t then gpersist g i r
        else y <-- g i f ;;; ys <-- gpersist g (i + 1) r ;;; gret (y :: ys)
    end.

  Definition no_fields (m : message) : bool := match m_fields m with [] => true | _ => false end.

  (** cppgen.cc:262-283. *)
  Definition gen_read_field (m : message) (type_name : bytes) (persistent : bool) : G (list (Z * bytes)) :=
    if no_fields m || negb persistent then
      _ <-- gput CODE_JSON__READ_FIELD__EMPTY [type_name] ;;; gret []
    else
      _ <-- gput CODE_JSON__READ_FIELD__HEADER [type_name] ;;;
      cs <-- gpersist (fun i f => _ <-- gput CODE_JSON__READ_FIELD__ITEM [dec i; f_name f] ;;; gret (i, f_name f))
                      0 (m_fields m) ;;;
      _ <-- gput CODE_JSON__READ_FIELD__FOOTER [] ;;;
      gret cs.

  (** cppgen.cc:285-314. *)
  Definition label_text (obf : bool) (l : bytes) : G bytes :=
    match (if obf then print (b "reveal(""$1$"")") [obfuscate l] else print (b """$1$""") [l]) with
    | Some t => gret t
    | None => ([], GUndef)
    end.

  Definition gen_write (obf numbers : bool) (m : message) (type_name : bytes) (persistent : bool)
    : G (list (bytes * label)) :=
    if no_fields m || negb persistent then
      _ <-- gput CODE_JSON__WRITE__EMPTY [type_name] ;;; gret []
    else
      _ <-- gput CODE_JSON__WRITE__HEADER [type_name; b_naming cfg] ;;;
      ws <-- gpersist (fun _ f => l <-- field_label numbers f ;;;
                                  t <-- label_text obf l ;;;
                                  _ <-- gput CODE_JSON__WRITE__ITEM [f_name f; t] ;;;
                                  gret (f_name f, Label obf (if obf then obfuscate l else l)))
                      0 (m_fields m) ;;;
      _ <-- gput CODE_JSON__WRITE__FOOTER [] ;;;
      gret ws.

  (** [generate_function__empty], [clear], [equal], [swap] (cppgen.cc:316-394): the same
      loop with four sets of templates. *)
  Definition gen_all (e h i f : bytes) (m : message) (type_name : bytes) : G (list bytes) :=
    if no_fields m then _ <-- gput e [type_name] ;;; gret []
    else
      _ <-- gput h [type_name] ;;;
      l <-- geach (fun x => _ <-- gput i [f_name x] ;;; gret (f_name x)) (m_fields m) ;;;
      _ <-- gput f [] ;;;
      gret l.
  Definition gen_empty := gen_all CODE_JSON__EMPTY__EMPTY CODE_JSON__EMPTY__HEADER CODE_JSON__EMPTY__ITEM CODE_JSON__EMPTY__FOOTER.
  Definition gen_clear := gen_all CODE_JSON__CLEAR__EMPTY CODE_JSON__CLEAR__HEADER CODE_JSON__CLEAR__ITEM CODE_JSON__CLEAR__FOOTER.
  Definition gen_equal := gen_all CODE_JSON__EQUAL__EMPTY CODE_JSON__EQUAL__HEADER CODE_JSON__EQUAL__ITEM CODE_JSON__EQUAL__FOOTER.
  Definition gen_swap := gen_all CODE_JSON__SWAP__EMPTY CODE_JSON__SWAP__HEADER CODE_JSON__SWAP__ITEM CODE_JSON__SWAP__FOOTER.

  (** cppgen.cc:396-424. *)
  Definition gen_index_fn (obf numbers : bool) (m : message) (persistent : bool) : G (list (bytes * Z)) :=
    if no_fields m || negb persistent then
      _ <-- gput CODE_JSON__INDEX__EMPTY [] ;;; gret []
    else
      _ <-- gput (if obf then CODE_JSON__INDEX__HEADER_OBF else CODE_JSON__INDEX__HEADER) [] ;;;
      is <-- gpersist (fun i f => l <-- field_label numbers f ;;;
                                  let lit := if obf then obfuscate l else l in
                                  _ <-- gput CODE_JSON__INDEX__ITEM [lit; dec i] ;;;
                                  gret (lit, i)) 0 (m_fields m) ;;;
      _ <-- gput CODE_JSON__INDEX__FOOTER [] ;;;
      gret is.

  (** The loop that stops at the first persistent field (cppgen.cc:430-438). *)
  Fixpoint any_persistent (l : list field) : G bool :=
    match l with
    | [] => gret false
    | f :: r => t <-- is_transient f ;;; if t then any_persistent r else gret true
    end.

  (** [generateModelWrapper], cppgen.cc:426-449, and the structure. *)
  Definition gen_wrapper (obf numbers : bool) (m : message) (members : list (ctype * bytes)) : G cls :=
    let type_name := native_package (m_package m) ++ b "::" ++ m_name m ++ b "_type" in
    persistent <-- any_persistent (m_fields m) ;;;
    _ <-- gput CODE_JSON_MODEL__HEADER [b_naming cfg; type_name] ;;;
    cs <-- gen_read_field m type_name persistent ;;;
    ws <-- gen_write obf numbers m type_name persistent ;;;
    e <-- gen_empty m type_name ;;;
    c <-- gen_clear m type_name ;;;
    q <-- gen_equal m type_name ;;;
    s <-- gen_swap m type_name ;;;
    is <-- gen_index_fn obf numbers m persistent ;;;
    _ <-- gput CODE_JSON_MODEL__FOOTER [b_naming cfg] ;;;
    gret (Cls (m_package m) (m_name m) members cs ws e c q s
              (obf && negb (no_fields m) && persistent) is).

  (** [generateEntity], [generateEntityWrapper], cppgen.cc:451-463. *)
  Definition gen_entity (m : message) : G unit :=
    let t := native_package (m_package m) ++ b "::" ++ m_name m in
    _ <-- gen_namespace m true ;;;
    _ <-- gput CODE_ENTITY [m_name m; t ++ b "_type"; b_naming cfg] ;;;
    _ <-- gen_namespace m false ;;;
    gput CODE_ENTITY_JSON [t; t ++ b "_type"; b_naming cfg].

  (** [generateMessage], cppgen.cc:465-480; MAX_FIELDS is 64 (include/protogen/protogen.hh:55). *)
  Definition gen_message (obf lists numbers : bool) (m : message) : G cls :=
    if 64 <? Z.of_nat (length (m_fields m)) then
      gthrow (b "more than 64 fields in message '" ++ m_name m ++ b "'") 0 0
    else
      _ <-- gput (LF :: b "//" ++ LF :: b "// $1$" ++ LF :: b "//" ++ [LF]) [m_name m] ;;;
      members <-- gen_model lists m ;;;
      c <-- gen_wrapper obf numbers m members ;;;
      _ <-- gen_entity m ;;;
      gret c.

  (** ** Order of the messages (cppgen.cc:498-535) *)

  (** A message is identified by its position in [msgs], like its [shared_ptr].
      [output]: positions already emitted, last first; [pending]: the set, as a list. *)
  Definition memb (k : nat) (l : list nat) : bool := existsb (Nat.eqb k) l.

  (** [sort(output, pending, message)], cppgen.cc:509-525, at most [n] calls deep. *)
  Fixpoint sort_one (n : nat) (pending output : list nat) (k : nat) {struct n} : gout (list nat) :=
    match n with
    | O => GFuel
    | S n' =>
        match nth_error msgs k with
        | None => GUndef
        | Some m =>
            if memb k pending then GThrow (b "circular reference with '" ++ m_name m ++ b "'") 0 0
            else if memb k output then GOk output
            else
              match (fix each (l : list field) (out : list nat) : gout (list nat) :=
                       match l with
                       | [] => GOk out
                       | f :: r =>
                           match f_ref f with
                           | Some j => if memb j out then each r out
                                       else match sort_one n' (k :: pending) out j with
                                            | GOk out' => each r out'
                                            | x => x
                                            end
                           | None => each r out
                           end
                       end) (m_fields m) output with
              | GOk out => GOk (k :: out)
              | x => x
              end
        end
    end.

  (** [sort(ctx)], cppgen.cc:527-535. *)
  Fixpoint sort_from (l : list nat) (output : list nat) : gout (list nat) :=
    match l with
    | [] => GOk output
    | k :: r => match sort_one (S (S (length msgs))) [] output k with
                | GOk out => sort_from r out
                | x => x
                end
    end.

  (** The order of emission. *)
  Definition sort_messages : G (list nat) :=
    ([], match sort_from (seq 0 (length msgs)) [] with
         | GOk out => GOk (rev out)
         | GThrow e l c => GThrow e l c
         | GUndef => GUndef
         | GFuel => GFuel
         end).

  (** ** The whole file *)

  (** The flags of generateInclusions (cppgen.cc:539-564); the [break] only saves time. *)
  Definition any_field (p : field -> bool) : bool := existsb (fun m => existsb p (m_fields m)) msgs.
  Definition header_flags : headers :=
    Hdr (any_field f_repeated)
        (any_field (fun f => f_repeated f && match f_type f with FBytes => true | _ => false end))
        (any_field (fun f => match f_type f with FString | FBytes | FMessage => false | _ => true end))
        (any_field (fun f => match f_type f with FString => true | _ => false end)).

  Definition gwhen (x : bool) (m : G unit) : G unit := if x then m else gret tt.

  (** cppgen.cc:565-575. *)
  Definition gen_inclusions : G headers :=
    let h := header_flags in
    _ <-- gput (b_protogen cfg) [] ;;;
    _ <-- gput (b_json cfg) [] ;;;
    _ <-- gwhen (h_array h) (gput (b_array cfg) []) ;;;
    _ <-- gwhen (h_base64 h) (gput (b_base64 cfg) []) ;;;
    _ <-- gwhen (h_number h) (gput (b_number cfg) []) ;;;
    _ <-- gwhen (h_string h) (gput (b_string cfg) []) ;;;
    gret h.

  (** [makeGuard], cppgen.cc:482-496. *)
  Definition guard_char (c : ascii) : bool :=
    ((65 <=? code c) && (code c <=? 90)) || ((97 <=? code c) && (code c <=? 122)) ||
    ((48 <=? code c) && (code c <=? 57)) || (code c =? 95).
  Definition make_guard (file : bytes) : bytes :=
    b "GUARD_" ++ map (fun c => if guard_char c then c else "_"%char) file.

  Definition nth_message (k : nat) : G message :=
    match nth_error msgs k with Some m => gret m | None => ([], GUndef) end.

  (** [generateModel(ctx)], cppgen.cc:578-590. *)
  Definition gen_file (obf lists numbers : bool) (file : bytes) : G (list cls) :=
    let guard := make_guard file in
    _ <-- gput CODE_HEADER [b_version cfg; file; guard] ;;;
    order <-- sort_messages ;;;
    cs <-- geach (fun k => m <-- nth_message k ;;; gen_message obf lists numbers m) order ;;;
    _ <-- gput (b "#endif // $1$" ++ [LF]) [guard] ;;;
    gret cs.
End Generator.

(** [CppGenerator::generate], cppgen.cc:592-603: the headers included and the classes. *)
Definition generate (cfg : build) (p : proto) : G (headers * list cls) :=
  obf <-- opt_bool (pr_options p) (b "obfuscate_strings") false ;;;
  lists <-- opt_bool (pr_options p) (b "cpp_use_lists") false ;;;
  numbers <-- opt_bool (pr_options p) (b "number_names") false ;;;
  h <-- gen_inclusions cfg (pr_messages p) ;;;
  cs <-- gen_file cfg (pr_messages p) obf lists numbers (pr_file p) ;;;
  gret (h, cs).
