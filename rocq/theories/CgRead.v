(** The functions of the generator for the names of types, options and the include guard (source/cpp/cppgen.cc:52-167, 226-260, 482-496)
    from their text, and their execution. *)
From Verif Require Import Bytes Num Types Read ProtoLex ProtoParse Template Cpp CLex CParse CExec Unit HText HParse HExec HNum LexRead Gen.

(** source/cpp/cppgen.cc:52-167. *)
Definition types_cc : bytes := text_of [
  b "static constexpr const struct {";
  b "    protogen::FieldType type;";
  b "    const char *typeName;";
  b "    const char *nativeType;";
  b "    const char *defaultValue;";
  b "} TYPE_MAPPING[] =";
  b "{";
  b "    { protogen::TYPE_DOUBLE,   ""double"",    ""double""      , ""0.0"" },";
  b "    { protogen::TYPE_FLOAT,    ""float"",     ""float""       , ""0.0F"" },";
  b "    { protogen::TYPE_INT32,    ""int32"",     ""int32_t""     , ""0"" },";
  b "    { protogen::TYPE_INT64,    ""int64"",     ""int64_t""     , ""0"" },";
  b "    { protogen::TYPE_UINT32,   ""uint32"",    ""uint32_t""    , ""0"" },";
  b "    { protogen::TYPE_UINT64,   ""uint64"",    ""uint64_t""    , ""0"" },";
  b "    { protogen::TYPE_SINT32,   ""sint32"",    ""int32_t""     , ""0"" },";
  b "    { protogen::TYPE_SINT64,   ""sint64"",    ""int64_t""     , ""0"" },";
  b "    { protogen::TYPE_FIXED32,  ""fixed32"",   ""uint32_t""    , ""0"" },";
  b "    { protogen::TYPE_FIXED64,  ""fixed64"",   ""uint64_t""    , ""0"" },";
  b "    { protogen::TYPE_SFIXED32, ""sfixed32"",  ""int32_t""     , ""0"" },";
  b "    { protogen::TYPE_SFIXED64, ""sfixed64"",  ""int64_t""     , ""0"" },";
  b "    { protogen::TYPE_BOOL,     ""bool"",      ""bool""        , ""false"" },";
  b "    { protogen::TYPE_STRING,   ""string"",    nullptr       , ""\""\"""" },";
  b "    { protogen::TYPE_BYTES,    ""bytes"",     ""uint8_t""     , nullptr },";
  b "    { protogen::TYPE_MESSAGE,  nullptr,     nullptr       , nullptr }";
  b "};";
  b "";
  b "static std::string nativePackage( const std::string &package )";
  b "{";
  b "    // extra space because the compiler may complain about '<::' (i.e. using in templates)";
  b "    if (package.empty())";
  b "        return "" "";";
  b "    std::string name;";
  b "    name.reserve(package.length());";
  b "    name += "" ::"";";
  b "    for (auto c : package)";
  b "    {";
  b "        if (c == '.')";
  b "            name += ""::"";";
  b "        else";
  b "            name += c;";
  b "    }";
  b "    return name;";
  b "}";
  b "";
  b "/**";
  b " * Translates protobuf3 types to C++ types.";
  b " */";
  b "static std::string nativeType( const Field &field )";
  b "{";
  b "    if (field.type.id >= protogen::TYPE_DOUBLE && field.type.id <= protogen::TYPE_STRING)";
  b "    {";
  b "        int index = (int)field.type.id - (int)protogen::TYPE_DOUBLE;";
  b "        return TYPE_MAPPING[index].nativeType;";
  b "    }";
  b "    else";
  b "    if (field.type.id == protogen::TYPE_BYTES)";
  b "        return ""uint8_t"";";
  b "    else";
  b "    if (field.type.id == protogen::TYPE_MESSAGE)";
  b "    {";
  b "        if (field.type.ref == nullptr)";
  b "            throw protogen::exception(""Message type reference is null"");";
  b "        return nativePackage(field.type.ref->package) + ""::"" + field.type.ref->name;";
  b "    }";
  b "    else";
  b "        throw protogen::exception(""Invalid field type"");";
  b "}";
  b "";
  b " /**";
  b "  * Translates protobuf3 types to C++ types.";
  b "  */";
  b "static std::string fieldNativeType( const Field &field, bool useLists )";
  b "{";
  b "    std::string valueType;";
  b "";
  b "    // value type";
  b "    if (field.type.id == protogen::TYPE_STRING)";
  b "    {";
  b "        valueType = ""protogen"";";
  b "        valueType += PROTOGEN_VERSION_NAMING;";
  b "        valueType += ""::string_field"";";
  b "    }";
  b "    else";
  b "    if (field.type.id >= protogen::TYPE_DOUBLE && field.type.id <= protogen::TYPE_BYTES)";
  b "    {";
  b "        int index = (int)field.type.id - (int)protogen::TYPE_DOUBLE;";
  b "        valueType = TYPE_MAPPING[index].nativeType;";
  b "    }";
  b "    else";
  b "    if (field.type.id == protogen::TYPE_MESSAGE)";
  b "        valueType = nativeType(field);";
  b "    else";
  b "        throw protogen::exception(""Invalid field type"");";
  b "";
  b "    if (field.type.repeated || field.type.id == protogen::TYPE_BYTES)";
  b "    {";
  b "        std::string output = ""std::"";";
  b "        if (field.type.id == protogen::TYPE_BYTES || !useLists)";
  b "            output += ""vector<"";";
  b "        else";
  b "            output += ""list<"";";
  b "        output += valueType;";
  b "        output += '>';";
  b "        return output;";
  b "    }";
  b "    if (field.type.id == protogen::TYPE_MESSAGE || field.type.id == protogen::TYPE_STRING)";
  b "        return valueType;";
  b "    else";
  b "    {";
  b "        std::string output = ""protogen"";";
  b "        output += PROTOGEN_VERSION_NAMING;";
  b "        output += ""::field<"";";
  b "        output += valueType;";
  b "        output += '>';";
  b "        return output;";
  b "    }";
  b "}"].
(** source/cpp/cppgen.cc:226-260. *)
Definition options_cc : bytes := text_of [
  b "static std::string get_option( const protogen::OptionMap &options, const std::string &name, const std::string &value )";
  b "{";
  b "    if (options.count(name) == 0)";
  b "        return value;";
  b "";
  b "    OptionEntry opt = options.at(name);";
  b "    if (opt.type != OptionType::STRING)";
  b "        throw exception(""The value for '"" + name + ""' must be a string"", opt.line, 1);";
  b "    return opt.value;";
  b "}";
  b "";
  b "static bool get_option( const protogen::OptionMap &options, const std::string &name, bool value )";
  b "{";
  b "    if (options.count(name) == 0)";
  b "        return value;";
  b "";
  b "    OptionEntry opt = options.at(name);";
  b "    if (opt.type != OptionType::BOOLEAN)";
  b "        throw exception(""The value for '"" + name + ""' must be a boolean"", opt.line, 1);";
  b "    return opt.value == ""true"";";
  b "}";
  b "";
  b "static bool is_transient( const Field &field )";
  b "{";
  b "    return get_option(field.options, PROTOGEN_O_TRANSIENT, false);";
  b "}";
  b "";
  b "static std::string get_json_name( const Field &field )";
  b "{";
  b "    auto name = get_option(field.options, PROTOGEN_O_NAME, field.name);";
  b "    for (auto c : name)";
  b "        if (c == '\'' || c == '""')";
  b "            throw exception(""option '"" + std::string(PROTOGEN_O_NAME) + ""' in the field '"" + field.name + ""' must not contain quotes"", 1, 1);";
  b "    return name;";
  b "}"].
(** source/cpp/cppgen.cc:482-496. *)
Definition guard_cc : bytes := text_of [
  b "static std::string makeGuard( const std::string &fileName )";
  b "{";
  b "    std::string out = ""GUARD_"";";
  b "    for (auto it = fileName.begin(); it != fileName.end(); ++it)";
  b "    {";
  b "        if ( (*it >= 'A' && *it <= 'Z') ||";
  b "             (*it >= 'a' && *it <= 'z') ||";
  b "             (*it >= '0' && *it <= '9') ||";
  b "             *it == '_')";
  b "            out += *it;";
  b "        else";
  b "            out += '_';";
  b "    }";
  b "    return out;";
  b "}"].
Definition cppgen_cc : bytes := types_cc ++ options_cc ++ guard_cc.

(** ** Reading *)

(** "OptionEntry x = …" is read as "auto x = …". *)
Fixpoint entries_auto (l : list ctok) : list ctok :=
  match l with
  | [] => []
  | KId w :: r => (match r with KId _ :: _ => if same w (b "OptionEntry") then KKw (b "auto") else KId w | _ => KId w end) :: entries_auto r
  | k :: r => k :: entries_auto r
  end.
Definition names_source (text : bytes) : list tree :=
  match op_lines (OP XText [] []) (logical_lines text) with
  | Some (ks, OP XText _ []) => match trees (entries_auto ks) with Some l => plain l | None => [] end
  | _ => []
  end.
(** The third member of the structures of TYPE_MAPPING (cppgen.cc:52-75), nativeType; [None]: a null pointer. *)
Definition mapping_row (e : hexpr) : option (option bytes) :=
  match e with
  | EList [_; _; EStr s; _] => option_map Some (lit_go LText s)
  | EList [_; _; ENull; _] => Some None
  | _ => None
  end.
Definition third_native (l : list tree) : bool :=
  match members [] l with Some [_; _; (_, x); _] => same x (b "nativeType") | _ => false end.
Definition mapping (l : list tree) : list (option bytes) :=
  if third_native (inner_block l ["static constexpr const struct"]%string) then
    match all_some (map (fun p => match hexpr_of p with Some e => mapping_row e | None => None end)
                        (drop_last_empty (pieces (is_op ",") (inner_block l ["TYPE_MAPPING[] ="]%string)))) with
    | Some vs => vs
    | None => []
    end
  else [].
Record gtext := GTx { gt_funs : list hfun; gt_map : list (option bytes) }.
Definition gen_text (text : bytes) : gtext := let l := names_source text in GTx (nfunctions (PInt false 8) l) (mapping l).
