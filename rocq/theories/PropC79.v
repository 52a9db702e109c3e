(** C79: what the text of the functions of the generator for the names of types, options and the include guard (cppgen.cc:52-167, 226-260,
    482-496) does, read and executed as C++. *)
From Verif Require Import Bytes Num Types Read ProtoLex ProtoParse Cpp HParse HExec SpecHTok Gen CgRead GenExec SpecGenText GenTextProofs.

(** fieldNativeType: the text, the exception and the undefined behaviour (a reference to no message) of [field_native_type] of Gen.v. *)
Theorem C79_type : forall cfg msgs loops lists f,
  same_as (field_native_type cfg msgs lists f) (fun t => GS (fst t)) (source_gen cppgen_cc cfg msgs loops "fieldNativeType" [GF f; GB lists]).
Proof. exact field_text. Qed.
Print Assumptions C79_type.

(** nativePackage. *)
Theorem C79_package : forall cfg msgs loops p, source_gen cppgen_cc cfg msgs loops "nativePackage" [GS p] = GOk (GS (native_package p)).
Proof. exact package_text. Qed.
Print Assumptions C79_package.

(** get_option, for strings and for bool. *)
Theorem C79_string : forall cfg msgs loops o x d, same_as (opt_string o x d) GS (source_gen cppgen_cc cfg msgs loops "get_option" [GO o; GS x; GS d]).
Proof. exact string_text. Qed.
Print Assumptions C79_string.
Theorem C79_bool : forall cfg msgs loops o x d, same_as (opt_bool o x d) GB (source_gen cppgen_cc cfg msgs loops "get_option" [GO o; GS x; GB d]).
Proof. exact bool_text. Qed.
Print Assumptions C79_bool.

(** is_transient, get_json_name. *)
Theorem C79_transient : forall cfg msgs loops f, same_as (is_transient f) GB (source_gen cppgen_cc cfg msgs loops "is_transient" [GF f]).
Proof. exact transient_text. Qed.
Print Assumptions C79_transient.
Theorem C79_json_name : forall cfg msgs loops f, same_as (json_name f) GS (source_gen cppgen_cc cfg msgs loops "get_json_name" [GF f]).
Proof. exact json_text. Qed.
Print Assumptions C79_json_name.

(** makeGuard.  The loop takes an iteration for a character. *)
Theorem C79_guard : forall cfg msgs loops s, (length s < loops)%nat -> source_gen cppgen_cc cfg msgs loops "makeGuard" [GS s] = GOk (GS (make_guard s)).
Proof. exact guard_text. Qed.
Print Assumptions C79_guard.

(** ** Examples *)
Example C79_guard_applies : (length (b "a.proto") < 8)%nat.
Proof. repeat constructor. Qed.
Example C79_text : gen_text cppgen_cc = the_gen.
Proof. exact the_gen_is. Qed.

Definition some_build : build := Build (b "1.2.3") (b "_1_2_3") [] [] [] [] [] [].
Definition some_msgs : list message := [Msg [] (b "N") (b "a.b") []].
Definition some_field (t : ftype) (r : option nat) (rep : bool) (o : omap) : field := Fld t [] r rep false (b "f") 1 o.
Definition runs (T : gtext) (f : string) (vs : list gval) : gout gval := call_gen T some_build some_msgs 20 3 (b f) vs.
Definition type_of (T : gtext) (t : ftype) (r : option nat) (rep lists : bool) : gout gval := runs T "fieldNativeType" [GF (some_field t r rep []); GB lists].
Definition says (s : string) : gout gval := GOk (GS (b s)).
Example C79_executed :
  type_of the_gen FDouble None false false = says "protogen_1_2_3::field<double>" /\
  type_of the_gen FSfixed64 None true true = says "std::list<int64_t>" /\
  type_of the_gen FBytes None false true = says "std::vector<uint8_t>" /\
  type_of the_gen FString None false true = says "protogen_1_2_3::string_field" /\
  type_of the_gen FString None true false = says "std::vector<protogen_1_2_3::string_field>" /\
  type_of the_gen FMessage (Some 0%nat) true true = says "std::list< ::a::b::N>" /\
  type_of the_gen FMessage None false false = GThrow (b "Message type reference is null") 0 0 /\
  type_of the_gen FMessage (Some 1%nat) false false = GUndef /\
  runs the_gen "nativePackage" [GS []] = says " " /\
  runs the_gen "get_json_name" [GF (some_field FBool None false [OE (b "name") OString (b "it's") 4])] = GThrow (b "option 'name' in the field 'f' must not contain quotes") 1 1 /\
  runs the_gen "get_json_name" [GF (some_field FBool None false [OE (b "name") OString (b "x") 4])] = says "x" /\
  runs the_gen "get_json_name" [GF (some_field FBool None false [OE (b "name") OInteger (b "5") 4])] = GThrow (b "The value for 'name' must be a string") 4 1 /\
  runs the_gen "is_transient" [GF (some_field FBool None false [OE (b "transient") OBoolean (b "true") 4])] = GOk (GB true) /\
  runs the_gen "is_transient" [GF (some_field FBool None false [OE (b "transient") OString (b "true") 4])] = GThrow (b "The value for 'transient' must be a boolean") 4 1 /\
  runs the_gen "makeGuard" [GS (b "dir/aZ_09.p")] = says "GUARD_dir_aZ_09_p" /\
  call_gen the_gen some_build some_msgs 3 3 (b "makeGuard") [GS (b "abc")] = GFuel.
Proof. vm_compute. repeat split. Qed.

(** Other texts do other things; each is a part of the text. *)
Definition other (cc : bytes) (old new : string) : gtext := gen_text (instead (length (b old)) (b old) (b new) cc).
Example C79_tells :
  type_of (other types_cc "{ protogen::TYPE_INT32,    ""int32"",     ""int32_t"" " "{ protogen::TYPE_INT32,    ""int32"",     ""int64_t"" ") FInt32 None true false = says "std::vector<int64_t>" /\
  type_of (other types_cc "    { protogen::TYPE_BOOL,     ""bool"",      ""bool""        , ""false"" }," "") FBytes None false false = GUndef /\
  type_of (other types_cc "const char *nativeType;" "const char *other;") FInt32 None true false = GUndef /\
  type_of (other types_cc "if (field.type.id == protogen::TYPE_STRING)" "if (field.type.id == protogen::TYPE_DOUBLE)") FString None false false = GUndef /\
  type_of (other types_cc "|| !useLists" "|| useLists") FInt32 None true false = says "std::list<int32_t>" /\
  type_of (other types_cc "if (field.type.ref == nullptr)" "if (false)") FMessage None false false = GUndef /\
  type_of (other types_cc "field.type.repeated || " "") FInt32 None true false = says "protogen_1_2_3::field<int32_t>" /\
  type_of (other types_cc "ref->package" "ref->name") FMessage (Some 0%nat) false false = says " ::N::N" /\
  runs (other types_cc "c == '.'" "c == '-'") "nativePackage" [GS (b "a.b")] = says " ::a.b" /\
  runs (other types_cc "return "" "";" "return """";") "nativePackage" [GS []] = says "" /\
  runs (other options_cc "opt.value == ""true""" "opt.value == ""false""") "is_transient" [GF (some_field FBool None false [OE (b "transient") OBoolean (b "true") 4])] = GOk (GB false) /\
  runs (other options_cc "opt.type != OptionType::STRING" "opt.type == OptionType::STRING") "get_option" [GO [OE (b "x") OString (b "y") 2]; GS (b "x"); GS []] = GThrow (b "The value for 'x' must be a string") 2 1 /\
  runs (other options_cc "options.count(name) == 0" "options.count(name) == 1") "get_option" [GO []; GS (b "x"); GS []] = GUndef /\
  runs (other options_cc "c == '\'' || " "") "get_json_name" [GF (some_field FBool None false [OE (b "name") OString (b "it's") 4])] = says "it's" /\
  runs (other guard_cc "*it <= 'Z'" "*it <= 'Y'") "makeGuard" [GS (b "Z")] = says "GUARD__" /\
  runs (other guard_cc "++it)" "it)") "makeGuard" [GS (b "Z")] = GUndef.
Proof. vm_compute. repeat split. Qed.
