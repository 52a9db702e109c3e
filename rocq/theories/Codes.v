(** The templates of the generator: the macros that source/template.cc makes of
    source/cpp/code.txt, which auto-code.hh defines and cppgen.cc uses.  The theorem
    C39_templates states that these are their values. *)
From Verif Require Import Bytes Template.

(** code.txt:1-46. *)
Definition CODE_HEADER : bytes := text_of [
  b "/*";
  b " * This is free and unencumbered software released into the public domain.";
  b " *";
  b " * Anyone is free to copy, modify, publish, use, compile, sell, or";
  b " * distribute this software, either in source code form or as a compiled";
  b " * binary, for any purpose, commercial or non-commercial, and by any";
  b " * means.";
  b " *";
  b " * In jurisdictions that recognize copyright laws, the author or authors";
  b " * of this software dedicate any and all copyright interest in the";
  b " * software to the public domain. We make this dedication for the benefit";
  b " * of the public at large and to the detriment of our heirs and";
  b " * successors. We intend this dedication to be an overt act of";
  b " * relinquishment in perpetuity of all present and future rights to this";
  b " * software under copyright law.";
  b " *";
  b " * THE SOFTWARE IS PROVIDED ""AS IS"", WITHOUT WARRANTY OF ANY KIND,";
  b " * EXPRESS OR IMPLIED, INCLUDING BUT NOT LIMITED TO THE WARRANTIES OF";
  b " * MERCHANTABILITY, FITNESS FOR A PARTICULAR PURPOSE AND NONINFRINGEMENT.";
  b " * IN NO EVENT SHALL THE AUTHORS BE LIABLE FOR ANY CLAIM, DAMAGES OR";
  b " * OTHER LIABILITY, WHETHER IN AN ACTION OF CONTRACT, TORT OR OTHERWISE,";
  b " * ARISING FROM, OUT OF OR IN CONNECTION WITH THE SOFTWARE OR THE USE OR";
  b " * OTHER DEALINGS IN THE SOFTWARE.";
  b " *";
  b " * For more information, please refer to <http://unlicense.org>";
  b " */";
  b "";
  b "// AUTO-GENERATED FILE. DO NOT EDIT!";
  b "// Generated by the protogen $1$ <https://github.com/brunexgeek/protogen>";
  b "// Source: $2$";
  b "";
  b "#ifndef $3$";
  b "#define $3$";
  b "";
  b "#include <string>";
  b "#include <stdint.h>";
  b "#include <iterator>";
  b "#include <sstream>";
  b "#include <iostream>";
  b "#include <vector>";
  b "#include <list>";
  b "#include <utility>";
  b "#include <stdexcept>";
  b "#include <forward_list>"
].

(** code.txt:48-53. *)
Definition CODE_JSON_MODEL__HEADER : bytes := text_of [
  b "namespace protogen$1$ {";
  b "template<> struct json<$2$>";
  b "{";
  b "    static int read( json_context &ctx, $2$ &value ) { return read_object(ctx, value); }"
].

(** code.txt:55-58. *)
Definition CODE_JSON_MODEL__FOOTER : bytes := text_of [
  b "};";
  b "} // protogen$1$"
].

(** code.txt:61-67. *)
Definition CODE_JSON__READ_FIELD__EMPTY : bytes := text_of [
  b "    static int read_field( json_context &ctx, const std::string &name, $1$ &value )";
  b "    {";
  b "        (void) ctx; (void) name; (void) value;";
  b "        return PGR_NIL;";
  b "    }"
].

(** code.txt:69-75. *)
Definition CODE_JSON__READ_FIELD__HEADER : bytes := text_of [
  b "    static int read_field( json_context &ctx, const std::string &name, $1$ &value )";
  b "    {";
  b "        int idx = index(name);";
  b "        if (idx < 0) return PGR_NIL;";
  b "        switch (idx) {"
].

(** code.txt:77-79. *)
Definition CODE_JSON__READ_FIELD__ITEM : bytes := text_of [
  b "            case $1$: return json<decltype(value.$2$)>::read(ctx, value.$2$);"
].

(** code.txt:81-85. *)
Definition CODE_JSON__READ_FIELD__FOOTER : bytes := text_of [
  b "            default: return PGR_NIL;";
  b "        }";
  b "    }"
].

(** code.txt:88-95. *)
Definition CODE_JSON__WRITE__EMPTY : bytes := text_of [
  b "    static int write( json_context &ctx, const $1$ &value )";
  b "    {";
  b "        (void) value;";
  b "        (*ctx.os) << ""{}"";";
  b "        return PGR_OK;";
  b "    }"
].

(** code.txt:97-102. *)
Definition CODE_JSON__WRITE__HEADER : bytes := text_of [
  b "    static int write( json_context &ctx, const $1$ &value )";
  b "    {";
  b "        bool f = true;";
  b "        (*ctx.os) << '{';"
].

(** code.txt:104-106. *)
Definition CODE_JSON__WRITE__ITEM : bytes := text_of [
  b "        if (ctx.params.serialize_null || !json<decltype(value.$1$)>::empty(value.$1$)) { (*ctx.os) << (f?""\"""":"",\"""") << $2$ << ""\"":""; json<decltype(value.$1$)>::write(ctx, value.$1$); f=false; }"
].

(** code.txt:108-112. *)
Definition CODE_JSON__WRITE__FOOTER : bytes := text_of [
  b "        (*ctx.os) << '}';";
  b "        return PGR_OK;";
  b "    }"
].

(** code.txt:115-117. *)
Definition CODE_JSON__EMPTY__EMPTY : bytes := text_of [
  b "    static bool empty( const $1$ &value ) { (void) value; return true; }"
].

(** code.txt:119-123. *)
Definition CODE_JSON__EMPTY__HEADER : bytes := text_of [
  b "    static bool empty( const $1$ &value )";
  b "    {";
  b "        return"
].

(** code.txt:125-127. *)
Definition CODE_JSON__EMPTY__ITEM : bytes := text_of [
  b "            json<decltype(value.$1$)>::empty(value.$1$) &&"
].

(** code.txt:129-132. *)
Definition CODE_JSON__EMPTY__FOOTER : bytes := text_of [
  b "            true;";
  b "    }"
].

(** code.txt:135-137. *)
Definition CODE_JSON__CLEAR__EMPTY : bytes := text_of [
  b "    static void clear( $1$ &value ) { (void) value; }"
].

(** code.txt:139-142. *)
Definition CODE_JSON__CLEAR__HEADER : bytes := text_of [
  b "    static void clear( $1$ &value )";
  b "    {"
].

(** code.txt:144-146. *)
Definition CODE_JSON__CLEAR__ITEM : bytes := text_of [
  b "        json<decltype(value.$1$)>::clear(value.$1$);"
].

(** code.txt:148-150. *)
Definition CODE_JSON__CLEAR__FOOTER : bytes := text_of [
  b "    }"
].

(** code.txt:153-155. *)
Definition CODE_JSON__EQUAL__EMPTY : bytes := text_of [
  b "    static bool equal( const $1$ &a, const $1$ &b ) { (void) a; (void) b; return true; }"
].

(** code.txt:157-161. *)
Definition CODE_JSON__EQUAL__HEADER : bytes := text_of [
  b "    static bool equal( const $1$ &a, const $1$ &b )";
  b "    {";
  b "        return"
].

(** code.txt:163-165. *)
Definition CODE_JSON__EQUAL__ITEM : bytes := text_of [
  b "            json<decltype(a.$1$)>::equal(a.$1$, b.$1$) &&"
].

(** code.txt:167-170. *)
Definition CODE_JSON__EQUAL__FOOTER : bytes := text_of [
  b "            true;";
  b "    }"
].

(** code.txt:173-175. *)
Definition CODE_JSON__SWAP__EMPTY : bytes := text_of [
  b "    static void swap( $1$ &a, $1$ &b ) { (void) a; (void) b; }"
].

(** code.txt:177-180. *)
Definition CODE_JSON__SWAP__HEADER : bytes := text_of [
  b "    static void swap( $1$ &a, $1$ &b )";
  b "    {"
].

(** code.txt:182-184. *)
Definition CODE_JSON__SWAP__ITEM : bytes := text_of [
  b "        json<decltype(a.$1$)>::swap(a.$1$, b.$1$);"
].

(** code.txt:186-188. *)
Definition CODE_JSON__SWAP__FOOTER : bytes := text_of [
  b "    }"
].

(** code.txt:214-216. *)
Definition CODE_JSON__INDEX__EMPTY : bytes := text_of [
  b "    static int index( const std::string &name ) { (void) name; return -1; }"
].

(** code.txt:218-223. *)
Definition CODE_JSON__INDEX__HEADER : bytes := text_of [
  b "    static int index( const std::string &name )";
  b "    {";
  b "        const std::string &temp = name;";
  b "        static const std::unordered_map<std::string, int> FIELDS = {"
].

(** code.txt:225-230. *)
Definition CODE_JSON__INDEX__HEADER_OBF : bytes := text_of [
  b "    static int index( const std::string &name )";
  b "    {";
  b "        std::string temp = reveal(name);";
  b "        static const std::unordered_map<std::string, int> FIELDS = {"
].

(** code.txt:232-234. *)
Definition CODE_JSON__INDEX__ITEM : bytes := text_of [
  b "            {""$1$"", $2$},"
].

(** code.txt:236-241. *)
Definition CODE_JSON__INDEX__FOOTER : bytes := text_of [
  b "        };";
  b "        auto it = FIELDS.find(temp);";
  b "        return (it == FIELDS.end()) ? -1 : it->second;";
  b "    }"
].

(** code.txt:243-245. *)
Definition CODE_ENTITY : bytes := text_of [
  b "PG$3$_ENTITY($1$,$2$,protogen$3$::json<$2$>)"
].

(** code.txt:247-249. *)
Definition CODE_ENTITY_JSON : bytes := text_of [
  b "PG$3$_ENTITY_SERIALIZER($1$,$2$,protogen$3$::json<$2$>)"
].
