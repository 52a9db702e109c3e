(** The C++ text of the generated header. *)
From Verif Require Import Bytes Num Types Cpp SpecPrint.

Definition ln (s : bytes) : bytes := s ++ [LF].

(** ** Names *)

(** Packages: identifiers separated by dots; the empty package is the global namespace. *)
Definition parts (pkg : bytes) : list bytes := match pkg with [] => [] | _ => components [] pkg end.

Definition qualified (pkg name : bytes) : bytes :=
  b " ::" ++ concat (map (fun c => c ++ b "::") (parts pkg)) ++ name.
Definition opening (pkg : bytes) : bytes := concat (map (fun c => ln (b "namespace " ++ c ++ b " {")) (parts pkg)).
Definition closing (pkg : bytes) : bytes := concat (map (fun c => ln (b "} // namespace " ++ c)) (parts pkg)).

(** ** Types *)

Definition prim_name (p : prim) : bytes :=
  match p with
  | PInt true 32 => b "int32_t"
  | PInt true 64 => b "int64_t"
  | PInt false 8 => b "uint8_t"
  | PInt false 32 => b "uint32_t"
  | PInt false 64 => b "uint64_t"
  | PInt _ _ => []
  | PDouble => b "double"
  | PFloat => b "float"
  | PBool => b "bool"
  end.

Section Text.
  (** The version, as in "_3_0_0". *)
  Variable v : bytes.
  Definition lib : bytes := b "protogen" ++ v ++ b "::".

  Definition elem_text (e : celem) : bytes :=
    match e with
    | EPrim p => prim_name p
    | EStr => lib ++ b "string_field"
    | EMsg pkg name => qualified pkg name
    end.
  Definition type_text (t : ctype) : bytes :=
    match t with
    | CField p => lib ++ b "field<" ++ prim_name p ++ b ">"
    | CElem e => elem_text e
    | CSeq true e => b "std::list<" ++ elem_text e ++ b ">"
    | CSeq false e => b "std::vector<" ++ elem_text e ++ b ">"
    end.

  (** ** One class *)

  Definition quoted (s : bytes) : bytes := b """" ++ s ++ b """".
  Definition label_text (l : label) : bytes :=
    match l with Label true s => b "reveal(" ++ quoted s ++ b ")" | Label false s => quoted s end.

  Definition struct_text (c : cls) : bytes :=
    opening (c_pkg c) ++
    ln (b "    struct " ++ c_name c ++ b "_type") ++ ln (b "    {") ++
    concat (map (fun m => ln (b "        " ++ type_text (fst m) ++ b " " ++ snd m ++ b ";")) (c_members c)) ++
    ln (b "    };") ++
    closing (c_pkg c).

  (** [json<T>::f(value.m)] *)
  Definition call (obj f m args : bytes) : bytes :=
    b "json<decltype(" ++ obj ++ b "." ++ m ++ b ")>::" ++ f ++ b "(" ++ args ++ b ")".

  Definition read_text (t : bytes) (cases : list (Z * bytes)) : bytes :=
    ln (b "    static int read_field( json_context &ctx, const std::string &name, " ++ t ++ b " &value )") ++
    ln (b "    {") ++
    match cases with
    | [] => ln (b "        (void) ctx; (void) name; (void) value;") ++
            ln (b "        return PGR_NIL;")
    | _ => ln (b "        int idx = index(name);") ++
           ln (b "        if (idx < 0) return PGR_NIL;") ++
           ln (b "        switch (idx) {") ++
           concat (map (fun x => ln (b "            case " ++ dec (fst x) ++ b ": return " ++
                                     call (b "value") (b "read") (snd x) (b "ctx, value." ++ snd x) ++ b ";")) cases) ++
           ln (b "            default: return PGR_NIL;") ++
           ln (b "        }")
    end ++
    ln (b "    }").

  Definition write_text (t : bytes) (items : list (bytes * label)) : bytes :=
    ln (b "    static int write( json_context &ctx, const " ++ t ++ b " &value )") ++
    ln (b "    {") ++
    match items with
    | [] => ln (b "        (void) value;") ++
            ln (b "        (*ctx.os) << ""{}"";")
    | _ => ln (b "        bool f = true;") ++
           ln (b "        (*ctx.os) << '{';") ++
           concat (map (fun x => ln (b "        if (ctx.params.serialize_null || !" ++
             call (b "value") (b "empty") (fst x) (b "value." ++ fst x) ++
             b ") { (*ctx.os) << (f?""\"""":"",\"""") << " ++ label_text (snd x) ++ b " << ""\"":""; " ++
             call (b "value") (b "write") (fst x) (b "ctx, value." ++ fst x) ++ b "; f=false; }")) items) ++
           ln (b "        (*ctx.os) << '}';")
    end ++
    ln (b "        return PGR_OK;") ++
    ln (b "    }").

  Definition empty_text (t : bytes) (names : list bytes) : bytes :=
    match names with
    | [] => ln (b "    static bool empty( const " ++ t ++ b " &value ) { (void) value; return true; }")
    | _ => ln (b "    static bool empty( const " ++ t ++ b " &value )") ++
           ln (b "    {") ++ ln (b "        return") ++
           concat (map (fun m => ln (b "            " ++ call (b "value") (b "empty") m (b "value." ++ m) ++ b " &&")) names) ++
           ln (b "            true;") ++ ln (b "    }")
    end.
  Definition clear_text (t : bytes) (names : list bytes) : bytes :=
    match names with
    | [] => ln (b "    static void clear( " ++ t ++ b " &value ) { (void) value; }")
    | _ => ln (b "    static void clear( " ++ t ++ b " &value )") ++ ln (b "    {") ++
           concat (map (fun m => ln (b "        " ++ call (b "value") (b "clear") m (b "value." ++ m) ++ b ";")) names) ++
           ln (b "    }")
    end.
  Definition equal_text (t : bytes) (names : list bytes) : bytes :=
    match names with
    | [] => ln (b "    static bool equal( const " ++ t ++ b " &a, const " ++ t ++ b " &b ) { (void) a; (void) b; return true; }")
    | _ => ln (b "    static bool equal( const " ++ t ++ b " &a, const " ++ t ++ b " &b )") ++
           ln (b "    {") ++ ln (b "        return") ++
           concat (map (fun m => ln (b "            " ++ call (b "a") (b "equal") m (b "a." ++ m ++ b ", b." ++ m) ++ b " &&")) names) ++
           ln (b "            true;") ++ ln (b "    }")
    end.
  Definition swap_text (t : bytes) (names : list bytes) : bytes :=
    match names with
    | [] => ln (b "    static void swap( " ++ t ++ b " &a, " ++ t ++ b " &b ) { (void) a; (void) b; }")
    | _ => ln (b "    static void swap( " ++ t ++ b " &a, " ++ t ++ b " &b )") ++ ln (b "    {") ++
           concat (map (fun m => ln (b "        " ++ call (b "a") (b "swap") m (b "a." ++ m ++ b ", b." ++ m) ++ b ";")) names) ++
           ln (b "    }")
    end.

  Definition index_text (obf : bool) (items : list (bytes * Z)) : bytes :=
    match items with
    | [] => ln (b "    static int index( const std::string &name ) { (void) name; return -1; }")
    | _ => ln (b "    static int index( const std::string &name )") ++ ln (b "    {") ++
           ln (if obf then b "        std::string temp = reveal(name);" else b "        const std::string &temp = name;") ++
           ln (b "        static const std::unordered_map<std::string, int> FIELDS = {") ++
           concat (map (fun x => ln (b "            {" ++ quoted (fst x) ++ b ", " ++ dec (snd x) ++ b "},")) items) ++
           ln (b "        };") ++
           ln (b "        auto it = FIELDS.find(temp);") ++
           ln (b "        return (it == FIELDS.end()) ? -1 : it->second;") ++
           ln (b "    }")
    end.

  Definition json_text (c : cls) : bytes :=
    let t := qualified (c_pkg c) (c_name c) ++ b "_type" in
    ln (b "namespace protogen" ++ v ++ b " {") ++
    ln (b "template<> struct json<" ++ t ++ b ">") ++
    ln (b "{") ++
    ln (b "    static int read( json_context &ctx, " ++ t ++ b " &value ) { return read_object(ctx, value); }") ++
    read_text t (c_cases c) ++ write_text t (c_write c) ++
    empty_text t (c_empty c) ++ clear_text t (c_clear c) ++ equal_text t (c_equal c) ++ swap_text t (c_swap c) ++
    index_text (c_obf c) (c_index c) ++
    ln (b "};") ++
    ln (b "} // protogen" ++ v).

  Definition entity_text (c : cls) : bytes :=
    let t := qualified (c_pkg c) (c_name c) in
    let args n := b "(" ++ n ++ b "," ++ t ++ b "_type," ++ lib ++ b "json<" ++ t ++ b "_type>)" in
    opening (c_pkg c) ++
    ln (b "PG" ++ v ++ b "_ENTITY" ++ args (c_name c)) ++
    closing (c_pkg c) ++
    ln (b "PG" ++ v ++ b "_ENTITY_SERIALIZER" ++ args t).

  Definition class_text (c : cls) : bytes :=
    [LF] ++ ln (b "//") ++ ln (b "// " ++ c_name c) ++ ln (b "//") ++
    struct_text c ++ json_text c ++ entity_text c.

  (** ** The file *)

  Definition license : list bytes := [
    b "/*";
    b " * This is free and unencumbered software released into the public domain.";
    b " *";
    b " * Anyone is free to copy, modify, publish, use, compile, sell, or";
    b " * distribute this software, either in source code form or as a compiled";
    b " * binary, for any purpose, commercial or non-commercial, and by any";
    b " * means.";
    b " *";
    b " * In jurisdictions that recognize copyright laws, the author or authors";
    b " * of this software dedicate any and all copyright interest in the";
    b " * software to the public domain. We make this dedication for the benefit";
    b " * of the public at large and to the detriment of our heirs and";
    b " * successors. We intend this dedication to be an overt act of";
    b " * relinquishment in perpetuity of all present and future rights to this";
    b " * software under copyright law.";
    b " *";
    b " * THE SOFTWARE IS PROVIDED ""AS IS"", WITHOUT WARRANTY OF ANY KIND,";
    b " * EXPRESS OR IMPLIED, INCLUDING BUT NOT LIMITED TO THE WARRANTIES OF";
    b " * MERCHANTABILITY, FITNESS FOR A PARTICULAR PURPOSE AND NONINFRINGEMENT.";
    b " * IN NO EVENT SHALL THE AUTHORS BE LIABLE FOR ANY CLAIM, DAMAGES OR";
    b " * OTHER LIABILITY, WHETHER IN AN ACTION OF CONTRACT, TORT OR OTHERWISE,";
    b " * ARISING FROM, OUT OF OR IN CONNECTION WITH THE SOFTWARE OR THE USE OR";
    b " * OTHER DEALINGS IN THE SOFTWARE.";
    b " *";
    b " * For more information, please refer to <http://unlicense.org>";
    b " */"; [];
    b "// AUTO-GENERATED FILE. DO NOT EDIT!"].

  Definition head_text (version file guard : bytes) : bytes :=
    concat (map ln license) ++
    ln (b "// Generated by the protogen " ++ version ++ b " <https://github.com/brunexgeek/protogen>") ++
    ln (b "// Source: " ++ file) ++ [LF] ++
    ln (b "#ifndef " ++ guard) ++ ln (b "#define " ++ guard) ++ [LF] ++
    concat (map (fun h => ln (b "#include <" ++ h ++ b ">"))
      [b "string"; b "stdint.h"; b "iterator"; b "sstream"; b "iostream"; b "vector"; b "list"; b "utility";
       b "stdexcept"; b "forward_list"]).
End Text.

(** The runtime headers are printed with tabs as four spaces. *)
Definition detab (s : bytes) : bytes := concat (map char_out s).
