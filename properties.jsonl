{"id": "C01", "title": "String literals round-trip byte for byte", "statement": "For every byte string without NUL bytes, the JSON string literal that serialize writes for it (ensure_ascii off) is read back by deserialize as exactly the same byte string, whatever follows the literal. The NUL restriction is necessary: a string that contains a NUL byte is written but can never be read back.", "quantifier": "all byte strings of any length, all continuations of the input", "why_tests_cant": "the set of strings is infinite; escaping bugs hide in particular byte sequences", "anchors": ["source/cpp/json-string.hh: json<std::string>::write, read", "source/cpp/protogen.hh: tokenizer::parse_string"]}
{"id": "C02", "title": "ensure_ascii output is ASCII and round-trips UTF-8", "statement": "With Parameters::ensure_ascii set, every well-formed UTF-8 string without NUL (1 to 4 byte sequences, any mixture) is written using only bytes below 0x80 and is read back as exactly the same bytes; code points beyond the BMP travel as surrogate pairs.", "quantifier": "all well-formed UTF-8 strings", "why_tests_cant": "1.1 million code points and all their sequences; surrogate state is carried between characters", "anchors": ["source/cpp/json-string.hh: write, write_escaped_utf8", "source/cpp/protogen.hh: parse_escaped_utf8"]}
{"id": "C03", "title": "Unencodable strings are reported by serialize", "statement": "If ensure_ascii is on and some string in the object is not UTF-8 encodable, a user relies on serialize returning false and filling Parameters::error. (The code violates this: it returns true, leaves error clear and emits an unterminated JSON string.)", "quantifier": "all objects, all invalid UTF-8 strings", "why_tests_cant": "needs every invalid byte sequence and every nesting of the string inside messages", "anchors": ["source/cpp/json-string.hh: json<std::string>::write", "source/cpp/code.txt: CODE_JSON__WRITE__ITEM", "source/cpp/json.hh: PG_X_Y_Z_ENTITY serialize"]}
{"id": "C04", "title": "Message serialize/deserialize round-trip", "statement": "For every message type the compiler can generate with distinct clean JSON names, and every object of it whose values are representable in JSON text (see C15/C16 for numbers, C01/C02 for strings), serialize followed by deserialize into a fresh object returns true and yields an equal object, transient fields excepted (they come back default).", "quantifier": "all message types of any nesting depth, all objects, both ensure_ascii settings", "why_tests_cant": "unbounded nesting of messages and repeated fields", "anchors": ["source/cpp/json.hh: read_object", "source/cpp/code.txt: CODE_JSON__WRITE__*, CODE_JSON__READ_FIELD__*", "source/cpp/json-array.hh", "source/cpp/json-number.hh", "source/cpp/json-string.hh", "source/cpp/json-base64.hh"]}
{"id": "C05", "title": "Serialized output is well-formed JSON", "statement": "The text serialize writes is an RFC 8259 JSON object for every object whose strings contain no control bytes other than the ones with a short escape and whose floating point values are finite.", "quantifier": "all message types and objects", "why_tests_cant": "output shape depends on the emptiness of each field, at every nesting level", "anchors": ["source/cpp/code.txt: CODE_JSON__WRITE__ITEM (comma placement)", "source/cpp/json-array.hh: write", "source/cpp/json-string.hh: write", "source/cpp/json-number.hh: number_to_string"]}
{"id": "C06", "title": "Deserialization implements the JSON document", "statement": "For every well-formed JSON document whose strings use only the supported escapes, in any layout (arbitrary spaces, tabs, CR, LF between tokens), the outcome of deserialize depends only on the document's abstract value, and equals a simple structural interpretation of that value against the message type.", "quantifier": "all JSON values, all whitespace layouts, all message types, all initial objects", "why_tests_cant": "layouts and documents are unbounded", "anchors": ["source/cpp/protogen.hh: tokenizer", "source/cpp/json.hh: read_object", "source/cpp/json-array.hh: read", "source/cpp/json-number.hh: read", "source/cpp/json-string.hh: read"]}
{"id": "C07", "title": "Unknown fields are skipped", "statement": "A member whose name is not a field of the message type is ignored whatever JSON value it carries: removing it from the document does not change the resulting object nor the success of deserialize.", "quantifier": "all JSON values as unknown members at any position, all message types", "why_tests_cant": "unbounded nesting of the ignored value", "anchors": ["source/cpp/protogen.hh: ignore_value, ignore_object, ignore_array", "source/cpp/json.hh: read_object"]}
{"id": "C08", "title": "A null member leaves the field unchanged", "statement": "A member with value null is accepted for every field type; for numbers, booleans, bytes, repeated fields and messages the field keeps its previous value and presence. (For string fields the code instead makes the field present and empty.)", "quantifier": "all field types, all previous values", "why_tests_cant": "combination of all types and states", "anchors": ["source/cpp/json-number.hh: json<field<T>>::read", "source/cpp/json-string.hh: json<string_field>::read", "source/cpp/json.hh: read_object"]}
{"id": "C09", "title": "deserialize terminates on every input", "statement": "deserialize and deserialize_array terminate on every byte sequence, valid or not, for every message type: the number of loop iterations is bounded by the input length.", "quantifier": "all byte sequences, all message types", "why_tests_cant": "termination on all inputs is not observable by finite runs", "anchors": ["source/cpp/protogen.hh: tokenizer::next, ignore_value", "source/cpp/json.hh: read_object", "source/cpp/json-array.hh: read"]}
{"id": "C10", "title": "Deserializing into a non-empty object merges", "statement": "deserialize does not clear the object first: fields not mentioned in the document keep their value, scalar fields mentioned are overwritten (last occurrence wins), repeated and bytes fields get the new items appended after the old ones, sub-messages are merged recursively.", "quantifier": "all previous objects, all documents", "why_tests_cant": "depends on the complete history of the object", "anchors": ["source/cpp/json-array.hh: read (push_back)", "source/cpp/json-base64.hh: read (push_back)", "source/cpp/json.hh: read_object"]}
{"id": "C11", "title": "Failure is reported through Parameters::error, success leaves it clear", "statement": "After deserialize with a Parameters object: if it returned true the error code is OK with position 0:0 and empty message, whatever the Parameters held before; if it returned false the error code is not OK, except when the document is the literal null.", "quantifier": "all inputs, all previous contents of Parameters, all message types", "why_tests_cant": "every error path of the parser has to set the error", "anchors": ["source/cpp/json.hh: PG_X_Y_Z_ENTITY deserialize", "source/cpp/protogen.hh: tokenizer::error"]}
{"id": "C12", "title": "Error positions point into the document", "statement": "When deserialize fails, the reported line and column are those of the token the parser was looking at: line is 1 plus the number of line feeds before it, column is 1 plus the number of bytes since the last line feed. (String tokens carry no position: there the code reports 0:0.)", "quantifier": "all inputs", "why_tests_cant": "all inputs and all error paths", "anchors": ["source/cpp/protogen.hh: iterator_istream, tokenizer::next, error, parse_string"]}
{"id": "C13", "title": "Layout independence of tokens", "statement": "A user relies on whitespace being allowed only between tokens. For every valid JSON text, replacing the whitespace between tokens by any other whitespace does not change the result. (Outside valid JSON the code also drops line feeds inside numbers, literals and strings.)", "quantifier": "all documents and all layouts", "why_tests_cant": "unbounded", "anchors": ["source/cpp/protogen.hh: iterator_istream::skip, tokenizer::next"]}
{"id": "C14", "title": "Bytes fields round-trip through Base64", "statement": "For every byte vector, the Base64 text written is the RFC 4648 encoding (alphabet, padding, length 4*ceil(n/3)) and reading it back appends exactly the original bytes.", "quantifier": "all byte vectors of any length", "why_tests_cant": "all lengths mod 3 and all contents", "anchors": ["source/cpp/json-base64.hh: write, read"]}
{"id": "C15", "title": "Integers round-trip at every width; out-of-range input never traps", "statement": "Every value of int32, uint32, int64, uint64 (and uint8 elements) is written as its decimal numeral and read back exactly; every numeral text is accepted and yields strtol/strtoul saturation followed by truncation to the field width.", "quantifier": "all integer values and all number texts", "why_tests_cant": "2^64 values; wrap-around on all numerals", "anchors": ["source/cpp/json-number.hh: string_to_number, number_to_string"]}
{"id": "C16", "title": "Floating point text is bounded, decimal and exact where possible", "statement": "For every finite double, the text written fits the 320 byte buffer untruncated, matches the JSON number grammar, and is within half of 10^-6 of the value; values that are multiples of 2^-k representable in 6 decimals (all integers in particular) are read back exactly.", "quantifier": "all finite binary64 and binary32 values", "why_tests_cant": "2^64 values", "anchors": ["source/cpp/json-number.hh: number_to_string, string_to_number"]}
{"id": "C17", "title": "Non-finite floating point values survive serialization", "statement": "A user relies on any field value producing readable JSON. (The code writes nan/inf, which is not JSON and which deserialize rejects.)", "quantifier": "the non-finite values in any object", "why_tests_cant": "needs the reader's behaviour on the produced text in every context", "anchors": ["source/cpp/json-number.hh: number_to_string", "source/cpp/protogen.hh: tokenizer::next"]}
{"id": "C18", "title": "Transient fields never cross the JSON boundary", "statement": "A field with option transient=true is never written by serialize and never changed by deserialize, whatever the document contains; the output is the same for two objects that differ only in transient fields.", "quantifier": "all message types, objects, documents", "why_tests_cant": "all documents", "anchors": ["source/cpp/cppgen.cc: is_transient, generate_function__write/read_field/index", "source/cpp/code.txt"]}
{"id": "C19", "title": "clear, empty, equal and swap obey their laws", "statement": "After clear an object is empty and equal to a default constructed one; empty holds exactly when every field (transient included) is empty; equal is reflexive (no NaN), symmetric, and compares all fields; swap exchanges two objects and is an involution.", "quantifier": "all message types and objects", "why_tests_cant": "recursive over all types", "anchors": ["source/cpp/code.txt: CODE_JSON__CLEAR/EMPTY/EQUAL/SWAP", "source/cpp/json-number.hh: field", "source/cpp/json-string.hh: string_field"]}
{"id": "C20", "title": "Assignment copies the value", "statement": "After a = b a user relies on a == b, on a serializing like b and on a.empty() == b.empty(). (The code violates this when a field of b is unset: field and string_field keep the stale value.)", "quantifier": "all pairs of objects", "why_tests_cant": "depends on the history of the target object", "anchors": ["source/cpp/json-number.hh: field::operator=", "source/cpp/json-string.hh: string_field::operator=, empty"]}
{"id": "C21", "title": "serialize_null writes every persistent field", "statement": "With serialize_null on, every non-transient field of every message written appears exactly once, in order; unset numbers and strings appear as null; with it off exactly the non-empty fields appear.", "quantifier": "all message types, objects", "why_tests_cant": "all emptiness patterns", "anchors": ["source/cpp/code.txt: CODE_JSON__WRITE__ITEM"]}
{"id": "C22", "title": "Serializing into a caller buffer stays in bounds and delivers the text", "statement": "serialize(char*, size_t) never writes outside the buffer and a user relies on finding the JSON text at its beginning. (The code skips the first byte and truncates silently, returning true.)", "quantifier": "all objects, buffer sizes and buffer contents", "why_tests_cant": "all sizes relative to the output length", "anchors": ["source/cpp/protogen.hh: mem_iterator, iterator_ostream, message::serialize(char*, size_t)"]}
{"id": "C23", "title": "All input overloads agree and never read out of bounds", "statement": "deserialize from std::string, std::vector<char>, std::istream and (const char*, size_t) give the same result on the same bytes, and the pointer version never dereferences an address outside [in, in+len).", "quantifier": "all byte sequences, including the empty one", "why_tests_cant": "all inputs", "anchors": ["source/cpp/protogen.hh: mem_const_iterator, iterator_istream, message::deserialize overloads"]}
{"id": "C24", "title": "Serialization appends", "statement": "serialize to std::string, std::vector<char> and std::ostream leaves the previous content of the target untouched and appends exactly the same text to it.", "quantifier": "all objects, all previous contents", "why_tests_cant": "all previous contents", "anchors": ["source/cpp/protogen.hh: iterator_ostream, message::serialize overloads"]}
{"id": "C25", "title": "Data after the document is ignored", "statement": "Whatever follows the closing brace (or bracket, for deserialize_array) of the top-level value does not influence the result of deserialize.", "quantifier": "all accepted documents, all suffixes", "why_tests_cant": "all suffixes", "anchors": ["source/cpp/json.hh: read_object", "source/cpp/protogen.hh: tokenizer::next"]}
{"id": "C26", "title": "The .proto parser terminates", "statement": "Proto3::parse terminates on every file. (The code violates this: a // comment or a string literal cut by the end of the file loops forever.) It terminates on every file that ends with a line feed.", "quantifier": "all files", "why_tests_cant": "non-termination is not observable", "anchors": ["source/proto3.cc: Tokenizer::comment, literalString"]}
{"id": "C27", "title": "The parser never hits its internal unget limits", "statement": "No input makes the tokenizer throw 'Already ungot' or the stream throw 'unable to unget' (the latter is not a protogen::exception and would terminate the compiler).", "quantifier": "all files", "why_tests_cant": "all paths", "anchors": ["source/proto3.cc: InputStream::unget, Tokenizer::unget"]}
{"id": "C28", "title": "Accepted schemas satisfy the field number rules", "statement": "In every accepted file, the field numbers of each message are pairwise distinct, positive, below 2^29-1 and different from 19000 and 19999. A user also relies on the whole reserved range 19000-19999 being rejected, on 2^29-1 being accepted and on numbers above 2^31 being rejected (the code violates these three).", "quantifier": "all files", "why_tests_cant": "all files", "anchors": ["source/proto3.cc: parseField"]}
{"id": "C29", "title": "Type references of accepted schemas are resolved", "statement": "In every accepted file each message-typed field refers to a message of the same file whose qualified name is the enclosing package plus the written name; otherwise parse throws.", "quantifier": "all files", "why_tests_cant": "all files; forward references", "anchors": ["source/proto3.cc: parseField, findMessage, Proto3::parse"]}
{"id": "C30", "title": "Parsing recovers every schema", "statement": "For every well-formed schema (packages, options, messages, fields with all types, modifiers and options), writing it in proto3 syntax, with any whitespace and comments between tokens, and parsing that text gives back exactly that schema.", "quantifier": "all schemas, all layouts", "why_tests_cant": "unbounded", "anchors": ["source/proto3.cc: Tokenizer, parseProto and callees"]}
{"id": "C31", "title": "Messages are emitted in dependency order", "statement": "If generation succeeds, every message is emitted exactly once and after every message its fields refer to; generation fails with 'circular reference' exactly when the reference graph has a cycle.", "quantifier": "all schemas (all reference graphs)", "why_tests_cant": "all graphs", "anchors": ["source/cpp/cppgen.cc: sort"]}
{"id": "C32", "title": "JSON names dispatch to the right field", "statement": "In the generated code, looking up the JSON name of a persistent field selects exactly that field and every other name selects none, provided JSON names are distinct; with duplicate JSON names the later field is unreachable although it is written.", "quantifier": "all messages", "why_tests_cant": "all field lists, transient patterns and option settings", "anchors": ["source/cpp/cppgen.cc: generate_function__index, generate_function__read_field, generate_function__write"]}
{"id": "C33", "title": "String obfuscation is transparent", "statement": "With obfuscate_strings on a user relies on the same JSON names being written and recognised as without it. (The code violates this when a name contains the byte equal to the mask for its length, e.g. 'order'.)", "quantifier": "all names", "why_tests_cant": "depends on length mod 8 and every byte", "anchors": ["source/cpp/cppgen.cc: obfuscate, rol", "source/cpp/protogen.hh: reveal, rol", "source/cpp/code.txt: CODE_JSON__INDEX__HEADER_OBF"]}
{"id": "C34", "title": "number_names yields distinct numeric names", "statement": "With number_names on the JSON name of each field is the decimal numeral of its field number, so names are always distinct and never need escaping.", "quantifier": "all messages", "why_tests_cant": "all numbers", "anchors": ["source/cpp/cppgen.cc: generate_function__write, generate_function__index"]}
{"id": "C35", "title": "Option values are type-checked and the last one wins", "statement": "A boolean option given a non-boolean value, a name option that is not a string or contains a quote make generation fail; when an option is repeated the last value counts.", "quantifier": "all option maps", "why_tests_cant": "all combinations", "anchors": ["source/cpp/cppgen.cc: get_option, get_json_name", "source/proto3.cc: parseStandardOption, parseFieldOptions"]}
{"id": "C36", "title": "The include guard is a valid identifier", "statement": "For every file name the include guard is a valid preprocessor identifier, and guards of files whose names differ only in special characters coincide only then.", "quantifier": "all file names", "why_tests_cant": "all names", "anchors": ["source/cpp/cppgen.cc: makeGuard"]}
{"id": "C37", "title": "Generated namespaces are balanced", "statement": "For every package the closing text closes exactly as many namespaces as the opening text opened, one per package component.", "quantifier": "all packages", "why_tests_cant": "all packages", "anchors": ["source/cpp/cppgen.cc: generateNamespace"]}
{"id": "C38", "title": "Template substitution is exact", "statement": "The printer replaces $k$ by the k-th argument verbatim (arguments are never re-scanned), tabs by four spaces, drops backspaces and copies everything else.", "quantifier": "all formats and arguments", "why_tests_cant": "all formats", "anchors": ["source/printer.cc: Printer::print"]}
{"id": "C39", "title": "Embedded runtime text is faithful", "statement": "The template tool turns each line of a runtime header into a C++ string literal whose value is that line (after version substitution), for all lines; a last line without line feed is lost.", "quantifier": "all files", "why_tests_cant": "all files", "anchors": ["source/template.cc: copy, process"]}
{"id": "C40", "title": "Every field type has its serializer included", "statement": "A user relies on the generated header containing the serializer for every field type it uses and on bytes fields being written as Base64. (The code includes the Base64 serializer only when a field is declared 'repeated bytes'.)", "quantifier": "all schemas", "why_tests_cant": "all combinations of field types", "anchors": ["source/cpp/cppgen.cc: generateInclusions, fieldNativeType"]}
{"id": "C41", "title": "Messages with more than 64 fields are rejected", "statement": "Generation fails when a message has more than 64 fields and never for that reason otherwise.", "quantifier": "all schemas", "why_tests_cant": "all sizes", "anchors": ["source/cpp/cppgen.cc: generateMessage", "include/protogen/protogen.hh: MAX_FIELDS"]}
{"id": "C42", "title": "Generated member order is the sorted field order", "statement": "The compiler emits fields sorted by name, independent of the order in the .proto file; two files that differ only in the order of fields generate the same code.", "quantifier": "all schemas, all permutations of fields", "why_tests_cant": "all permutations", "anchors": ["source/main.cc: main (std::sort)", "source/cpp/cppgen.cc"]}
{"id": "C43", "title": "Truncated schemas are rejected", "statement": "A user relies on a file with an unclosed message body, comment or string being rejected. (The code accepts an unclosed message body, an unterminated block comment, and treats a string literal cut by a line feed at top level as end of file.)", "quantifier": "all files", "why_tests_cant": "all truncation points", "anchors": ["source/proto3.cc: parseMessage, comment, literalString, parseProto"]}
{"id": "C44", "title": "Top-level arrays round-trip", "statement": "serialize_array followed by deserialize_array into an empty container returns true and yields the same elements in the same order, for every element type and every length.", "quantifier": "all containers", "why_tests_cant": "unbounded", "anchors": ["source/cpp/json-array.hh: serialize_array, deserialize_array"]}
{"id": "C45", "title": "Null elements of arrays", "statement": "A user relies on arrays produced by serialize being readable; a null element makes deserialize fail with an invalid array error, and a repeated string field holding an unset string_field produces such an array.", "quantifier": "all arrays", "why_tests_cant": "all element types and positions", "anchors": ["source/cpp/json-array.hh: read, write", "source/cpp/json-string.hh: json<string_field>::write"]}
{"id": "C46", "title": "Trailing commas are rejected in known members", "statement": "A comma before the closing brace or bracket of a message or repeated field makes deserialize fail; inside ignored values the code accepts it.", "quantifier": "all documents", "why_tests_cant": "all documents", "anchors": ["source/cpp/json.hh: read_object", "source/cpp/json-array.hh: read", "source/cpp/protogen.hh: ignore_array, ignore_object"]}
{"id": "C47", "title": "Deserialized values stay in the range of their type", "statement": "Whatever the input, and whether or not deserialize succeeds, afterwards every integer field holds a value of its width, every floating point field a value of its format, and every message has the same members of the same kinds.", "quantifier": "all types, all objects, all byte sequences", "why_tests_cant": "a missing truncation or rounding shows only for particular numerals or for inputs that fail half way", "anchors": ["source/cpp/json-number.hh:32-73", "source/cpp/json-number.hh:117-154", "source/cpp/json.hh:33-87"]}
{"id": "C48", "title": "The generated file is exactly the specified text", "statement": "For every schema the parser takes and that meets the generator's conditions, the output is: the runtime headers needed, the introduction with include guard, one class per message in dependency order with its members, serializer, name tables and switch, and the end of the guard; otherwise one of the listed errors with its position is reported.", "quantifier": "all schemas, all sorting routines, all file names", "why_tests_cant": "all schemas and option combinations; tests compile and run a few generated headers and do not look at the text", "anchors": ["source/cpp/cppgen.cc", "source/cpp/code.txt", "source/main.cc"]}
{"id": "C49", "title": "Exit status and safety of the compiler", "statement": "The program exits with 0 exactly if the schema parses and meets the generator's conditions, otherwise with 1; no exception escapes, nothing undefined is executed, and it fails to terminate only where the parser does. (A user would also rely on the output file being left alone on failure; the code truncates it before parsing and may leave part of a header.)", "quantifier": "all arguments, files and schemas", "why_tests_cant": "all inputs", "anchors": ["source/main.cc", "source/exception.cc"]}
{"id": "C50", "title": "Generated classes behave as the schema says", "statement": "For every schema the compiler accepts and whose names suit C++, each generated class writes its objects as JSON, reads JSON documents according to their meaning, and reads back what it wrote.", "quantifier": "all schemas, all sorting routines, all objects, all documents", "why_tests_cant": "composition of generator and runtime over all schemas; tests generate a few headers", "anchors": ["source/main.cc", "source/proto3.cc", "source/cpp/cppgen.cc", "source/cpp/protogen.hh"]}
{"id": "C51", "title": "Exactly the documents of the reader's grammar are read", "statement": "The call succeeds with a given object exactly if the document begins with tokens that the grammar of the message type accepts with that object as result.", "quantifier": "all message types, all objects, all inputs", "why_tests_cant": "an if-and-only-if over all inputs, valid or not; tests show that some documents are taken and some are not", "anchors": ["source/cpp/protogen.hh", "source/cpp/json.hh", "source/cpp/json-array.hh", "source/cpp/json-number.hh", "source/cpp/json-string.hh", "source/cpp/json-base64.hh"]}
{"id": "C52", "title": "A failing document is correct up to the reported place and not beyond", "statement": "When an error is recorded, the tokens before the reported place are the beginning of an accepted value and no accepted value goes on with the token found there, except for a Base64 text that ends inside a group; nothing is recorded exactly when the document is null.", "quantifier": "all message types, all objects, all inputs", "why_tests_cant": "says that no continuation whatever could have been accepted", "anchors": ["source/cpp/protogen.hh", "source/cpp/json.hh", "source/cpp/json-array.hh"]}
{"id": "C53", "title": "Decimal fractions are read correctly rounded", "statement": "Every JSON number read into a double gives the nearest double, ties to even, infinity beyond the range; read into a float it is rounded twice, through double.", "quantifier": "all JSON numbers of any length and exponent, all fields", "why_tests_cant": "infinitely many numerals; wrong roundings occur only near the middle between two doubles", "anchors": ["source/cpp/json-number.hh: string_to_number"]}
{"id": "C54", "title": "Which error is reported", "statement": "The code and the message of a failed read are determined by the tokens read so far and the next one, as a list of situations says (wrong first token, missing name, colon or separator, end of the text, by kind of value and for known and skipped members); each situation gives its error at its place and no other error occurs, except for Base64 text cut short.", "quantifier": "all message types, all objects, all inputs", "why_tests_cant": "unbounded nesting, every context combined with every next token", "anchors": ["source/cpp/protogen.hh", "source/cpp/json.hh", "source/cpp/json-array.hh", "source/cpp/json-number.hh", "source/cpp/json-string.hh", "source/cpp/json-base64.hh"]}
{"id": "C55", "title": "Schema names do not disturb the generated header", "statement": "The names the generated header uses unqualified (std, the namespace of the library, the fixed-width integer types) keep their meaning for the schemas the compiler accepts exactly if nothing declared earlier in an enclosing namespace, no field of the message that uses the integer type, no global name and no macro is called like them or clashes with what the schema declares. (A user would rely on this for every accepted schema; schemas are exhibited for which it fails.)", "quantifier": "all schemas, all platforms (global names and macros), all library versions", "why_tests_cant": "unbounded packages, messages and orders; depends on what the platform's headers declare", "anchors": ["source/cpp/cppgen.cc:57-205", "source/cpp/cppgen.cc:451-463", "source/cpp/json.hh:63-119"]}
{"id": "C56", "title": "What a bytes field makes of an arbitrary text", "statement": "Whatever string is given for a bytes field, the bytes appended are those of its groups of four characters: six bits per character, characters outside the Base64 alphabet counting as zero, '=' in the third place leaving one byte and in the fourth place two, decoding going on after a padded group and an incomplete last group being dropped. (A user would rely on texts that are not Base64 being refused; they are not.)", "quantifier": "all string tokens in all layouts, all previous contents", "why_tests_cant": "unbounded texts over all bytes", "anchors": ["source/cpp/json-base64.hh:14-23", "source/cpp/json-base64.hh:60-101"]}
{"id": "C57", "title": "The text written for an arbitrary string", "statement": "For every byte string the writer produces exactly the escaped text a specification gives; with ensure_ascii it stops at the first byte that begins no multi-byte sequence, leaves out the closing quote and records an error unless there is one already. The text written with ensure_ascii is read back as the same string exactly when the string is UTF-8 without NUL. (A user would rely on a string that is not UTF-8 being refused with ensure_ascii; overlong sequences, surrogates and numbers above U+10FFFF are written.)", "quantifier": "all byte strings, both settings of ensure_ascii, all error records", "why_tests_cant": "unbounded strings over all bytes", "anchors": ["source/cpp/json-string.hh:40-45", "source/cpp/json-string.hh:59-147", "source/cpp/json.hh:21-29"]}
{"id": "C58", "title": "Fields as optional values", "statement": "Whatever sequence of clear, assignment, swap, empty(bool) and writes through references is applied to a set of number or string fields, each holds what an optional value would hold after the same operations; the observers empty, ==, != and the conversion answer in terms of that optional value. (A user would rely on a field without a value being indistinguishable from a fresh one, and on == and != being opposites; assignment from an empty field keeps the old value out of sight, which shows in ==, in the conversion and after swap, and both == and != with a plain value are false for an empty field.)", "quantifier": "all sequences of operations on all sets of fields and values", "why_tests_cant": "unbounded sequences of operations over arbitrary values", "anchors": ["source/cpp/json-number.hh:8-30", "source/cpp/json-string.hh:8-38"]}
{"id": "C59", "title": "Comparison of plain floating point numbers", "statement": "equal_number holds exactly between a finite number and itself or one of the two adjacent numbers of the format, and between an infinity and the greatest finite number of the same sign; it never holds with a NaN. json<T>::empty holds for the zeros and the two numbers of least magnitude. (A user would rely on an equality; the relation is not reflexive at the infinities, not symmetric there and not transitive.)", "quantifier": "all pairs of float values and all pairs of double values", "why_tests_cant": "2^128 pairs of doubles", "anchors": ["source/cpp/json-number.hh:101-112", "source/cpp/json-number.hh:160-162"]}
{"id": "C60", "title": "What the compiler does with every schema file", "statement": "Every text has exactly one of three outcomes, and which one is decided by a grammar and a token machine stated independently of the parser: it is accepted exactly if it spells a well-formed schema (with the documented latitude: comments, free commas between the options of a field, numerals reduced to 32 bits, the last message left open, cut ends of file), and the syntax tree is that schema; it is refused with a given message at a given line and column exactly if the machine stops there; or the lexer never ends exactly if a line comment or string literal reaches the end of the file. The set of error texts is exactly known; the text \"Expected ']'\" of the source is never reported.", "quantifier": "all byte strings as schema files, all file names", "why_tests_cant": "infinitely many malformed files; exactness of the error and its position needs every prefix", "anchors": ["source/proto3.cc:160-809"]}
{"id": "C61", "title": "What a read leaves in a std::istream; documents one after another", "statement": "Deserializing from a std::istream gives the result of deserializing its text, restores skipws, leaves a failed stream untouched, and leaves a suffix of the text or the stream failed at its end. After a value was read, white space, one further token, the line feeds after it and one further character are gone. So messages are read one after another if each is followed by one of {}[]:, and one more character that is not a line feed; written next to each other or on lines of their own, the second is lost, or misread without an error.", "quantifier": "all types, objects, stream states and texts; all sequences of messages", "why_tests_cant": "depends on everything that can follow a value in a stream", "anchors": ["source/cpp/protogen.hh:130-196", "source/cpp/protogen.hh:637-647"]}
{"id": "C62", "title": "Objects written by one version of a schema and read by another", "statement": "What an object written with one type is for a reader of another type is determined: members are matched by label, members only the writer has are skipped, members only the reader has keep their default, numbers are converted as the reader's type says, and a value of another kind than expected is refused. If the fields with the same JSON names of corresponding messages are alike, the generated classes of one schema version read every object the classes of the other write; a version with more fields reads, writes again, and nothing is lost. Adding a first repeated bytes field is not such a change: old objects with bytes are refused.", "quantifier": "all pairs of types and of schemas, all objects", "why_tests_cant": "relates every pair of types and every object of the first", "anchors": ["source/cpp/json.hh: read_object", "source/cpp/protogen.hh:541-600", "source/cpp/cppgen.cc: fieldNativeType, generateInclusions"]}
{"id": "C63", "title": "Several generated headers in one translation unit", "statement": "The headers generated from several schemas can be included one after another: what the preprocessor leaves of them is each header's classes exactly once, in order, after the runtime headers, each of which is left at most once; a header included again leaves nothing. The classes compile together and each has the type it has alone, if no structure is declared twice, no two source paths differ only in special characters, and repeated bytes occur in all schemas that have bytes or in none. Each of these conditions is needed, and the source path must not contain a line feed.", "quantifier": "all finite lists of schemas, in any order and with repetitions; all sets of macros defined before; all outcomes of the #if conditions", "why_tests_cant": "quantifies over all combinations of schemas", "anchors": ["source/cpp/cppgen.cc: generateInclusions, generateProto3Model, makeGuard", "source/cpp/code.txt:1-60", "source/cpp/json-array.hh:35-36", "source/cpp/json-base64.hh:11-12"]}
{"id": "C64", "title": "Depth of the reader's recursion", "statement": "Reading a JSON document needs as many simultaneous activations of json<T>::read and ignore_value as the document is deep where it is followed: members of the type as far as the type goes, unknown members to their end. Without unknown members, and so on everything serialize makes, the nesting of the type is the bound. On any input, valid or not, one activation more than the brackets open at the same time is enough, so the number of opening brackets in the input bounds the stack. No bound depends on the type alone: an unknown member can be nested at will.", "quantifier": "all message types, objects, inputs and stack sizes", "why_tests_cant": "quantifies over all inputs and all stack sizes", "anchors": ["source/cpp/protogen.hh:541-602", "source/cpp/json.hh:33-61", "source/cpp/json-array.hh:38-61", "source/cpp/code.txt:69-85"]}
{"id": "C65", "title": "Which schemas give a header that C++ accepts", "statement": "For every schema that the compiler accepts, C++ accepts the header it prints exactly when: no two fields of a message have the same name, no message, field or package part is a keyword or alternative token of C++11, every JSON name that is printed as it stands is the inside of a C++ string literal, no two structures have one qualified name, no structure is called like an enclosing namespace of another, and a bytes field is accompanied by what makes the header hold its serializer; with lookup of names, the conditions of C55 in addition. The JSON name of a field is then what its literal denotes (trigraphs, escapes and universal character names) up to a NUL, and reading, writing and the round trip are as in C50 for every such schema, if the denoted names are distinct and need no escape in JSON.", "quantifier": "all schemas, all configurations and permutations by sort, all objects and documents", "why_tests_cant": "quantifies over all schemas and over all objects of their classes", "anchors": ["source/cpp/cppgen.cc:129-330", "source/cpp/code.txt:1-130", "source/proto3.cc:180-420"]}
{"id": "C66", "title": "What a std::ostream receives", "statement": "Serializing into a std::ostream hands its buffer the JSON text, the first character padded to the field width that is set, up to the first character the buffer refuses; a stream that is not good receives nothing; the return value and the error are the same in all these cases. Without a width and with a buffer that takes everything the text is appended; padding with white space leaves a document that reads back. A user also relies on true meaning that the stream has the text and on the text being a document whatever the formatting state (the code violates both).", "quantifier": "all objects, stream states and stream buffers", "why_tests_cant": "quantifies over all objects, formatting states and all places where a device may fail", "anchors": ["source/cpp/protogen.hh:117-144", "source/cpp/protogen.hh:677-683"]}
{"id": "C67", "title": "The text of the generated functions, executed", "statement": "The classes in the generated file, read as C++ source and executed statement by statement, do what their message type says: the structure has the members with their types, and read, write, empty, clear, equal, swap and index of its json specialization behave as the runtime model.", "quantifier": "all schemas that compile, all objects, all inputs", "why_tests_cant": "quantifies over all generated programs and all their executions", "anchors": ["source/cpp/code.txt:1-260", "source/cpp/cppgen.cc:190-449"]}
{"id": "C68", "title": "The text of the stream and the tokenizer, executed", "statement": "The classes iterator_istream and tokenizer, read from the text of protogen.hh as C++ source and executed statement by statement, do what the model of the stream and of the tokenizer says: every function gives the result of the model and leaves the object in its state, without undefined behaviour.", "quantifier": "all inputs of at most 2^31 - 2 bytes, all states of the tokenizer whose counters fit", "why_tests_cant": "quantifies over all inputs and all executions of the text", "anchors": ["source/cpp/protogen.hh:157-193", "source/cpp/protogen.hh:288-606"]}
{"id": "C69", "title": "The text of json<T>::read and read_object, executed", "statement": "The functions json<T>::read for numbers, booleans, field<T>, strings, string_field, Base64 vectors and containers, and read_object, read from the text of json.hh, json-number.hh, json-string.hh, json-base64.hh and json-array.hh as C++ source and executed statement by statement, give for every type, value and input the result of the model, leave the object and the tokenizer as the model does, and have no undefined behaviour.", "quantifier": "all types built of these, all values of them, all inputs of at most 2^31 - 2 bytes", "why_tests_cant": "quantifies over all types, inputs and executions of the text", "anchors": ["source/cpp/json.hh:33-61", "source/cpp/json-number.hh:117-125", "source/cpp/json-number.hh:145-154", "source/cpp/json-number.hh:169-178", "source/cpp/json-string.hh:50-58", "source/cpp/json-string.hh:157-165", "source/cpp/json-base64.hh:14-23", "source/cpp/json-base64.hh:60-101", "source/cpp/json-array.hh:38-61"]}
{"id": "C70", "title": "The text of json<T>::write, executed", "statement": "The functions json<T>::write for numbers, booleans, field<T>, strings, string_field, Base64 vectors and containers, write_escaped_utf8 and set_error, read from the text of json.hh, json-number.hh, json-string.hh, json-base64.hh and json-array.hh as C++ source and executed statement by statement, give for every type, value, ensure_ascii and serialize_null the result, the output and the error of the model, and have no undefined behaviour; what they write, the text of json<T>::read reads back.", "quantifier": "all types built of these, all values of them whose strings, byte vectors and lists are shorter than 2^63", "why_tests_cant": "quantifies over all types, values and executions of the text", "anchors": ["source/cpp/json.hh:21-31", "source/cpp/json-number.hh:126-135", "source/cpp/json-number.hh:155-159", "source/cpp/json-number.hh:179-183", "source/cpp/json-string.hh:40-147", "source/cpp/json-string.hh:166-174", "source/cpp/json-base64.hh:24-59", "source/cpp/json-array.hh:62-73"]}
{"id": "C71", "title": "The text of serialize, deserialize and their array forms, executed", "statement": "The functions a program calls - serialize and deserialize of a message (macro PG_X_Y_Z_ENTITY and struct message) and serialize_array and deserialize_array - read from the text of json.hh, protogen.hh and json-array.hh as C++ source, overloads chosen from the arguments, constructors with their initialisers, and executed statement by statement, return what the model's serialize and deserialize return and leave the value, the parameters with their error, the input and the output exactly as the model says: an earlier error is cleared, a new one is handed over, the output is appended to, the input and (when writing) the value are untouched.", "quantifier": "all types, all values, all inputs that ints can count, parameters given or not, input as std::string, std::vector<char> or istream, output as std::string, std::vector<char>, std::ostream or ostream", "why_tests_cant": "quantifies over all types, values, inputs and executions of the text", "anchors": ["source/cpp/json.hh:14-20", "source/cpp/json.hh:67-105", "source/cpp/protogen.hh:54-98", "source/cpp/protogen.hh:160-262", "source/cpp/protogen.hh:630-705", "source/cpp/json-array.hh:80-160"]}
{"id": "C72", "title": "The text of the output stream and of the memory iterators, executed", "statement": "The constructors and operators of iterator_ostream, mem_iterator and mem_const_iterator, read from the text of protogen.hh as C++ source and executed: over a back inserter every << appends exactly the characters of its argument (a char, a std::string with any bytes, a C string up to its NUL); over a mem_iterator it does what the model of C22 does, without an access outside the buffer; a mem_const_iterator walks over exactly the characters of the buffer, and at the end of it stays and yields its own member.", "quantifier": "all sequences of arguments, all targets, all arrays, all places and lengths within them", "why_tests_cant": "quantifies over all arguments, buffers and executions of the text", "anchors": ["source/cpp/protogen.hh:117-143", "source/cpp/protogen.hh:198-222", "source/cpp/protogen.hh:224-248"]}
{"id": "C73", "title": "The text of field<T>, string_field and of empty, clear, equal and swap, executed", "statement": "The member functions of field<T> and string_field and the functions empty, clear, equal and swap of json<T>, read from the text of the headers as C++ source and executed, do what the model has as vempty, vclear, vequal, vswap and vassign; the comparisons with a plain value are true only for a field that is set, so that for one that is not neither == nor != holds.", "quantifier": "all types except messages and plain floating-point numbers, all values of them", "why_tests_cant": "quantifies over all values and executions of the text", "anchors": ["source/cpp/json-number.hh:8-30", "source/cpp/json-number.hh:108-187", "source/cpp/json-string.hh:8-38", "source/cpp/json-string.hh:175-178", "source/cpp/json-base64.hh:102-105", "source/cpp/json-array.hh:74-77"]}
{"id": "C74", "title": "The text of the functions for numbers and names, executed", "statement": "string_to_number, number_to_string, equal_number, rol and reveal, read from the text of the headers as C++ source, with T replaced and the overload chosen by its enable_if condition, and executed: they compute what the model has as string_to_prim, prim_text, equal_number and reveal, never outside a buffer, and leave the locale of the thread as it was; without the locale \"C\" numbers are read and written as 0.", "quantifier": "all types of numbers of generated classes, all texts, all numbers, all names, all locales of the thread", "why_tests_cant": "quantifies over all inputs and executions of the text", "anchors": ["source/cpp/json-number.hh:32-112", "source/cpp/protogen.hh:607-625"]}
{"id": "C75", "title": "The text of the remaining functions of a message, executed", "statement": "The functions deserialize for a std::istream and for characters in memory, serialize into a buffer, clear, empty, equal, swap, == and != of a message, and those of json<N>, read from the text of json.hh and protogen.hh as C++ source and executed, do what the model says: the stream keeps what was not read and its flag skipws, only the given characters are read or written, the short functions are those of the serializer, != is the negation of ==. (A user would also rely on deserialize_array for a const char * and a length: it cannot be instantiated, since a mem_iterator is not made from a const char *.)", "quantifier": "all types, values, streams, memories, lengths and parameters; all serializers", "why_tests_cant": "quantifies over all inputs and executions of the text", "anchors": ["source/cpp/protogen.hh:637-704", "source/cpp/json.hh:101-118", "source/cpp/json-array.hh:107-114"]}
{"id": "C76", "title": "The text of the lexer of the compiler, executed", "statement": "The classes InputStream, Token and Tokenizer of proto3.cc, their macros and the table of keywords, read from the text of proto3.cc:30-483 as C++ source and executed, give for every text the tokens, positions and exceptions of the lexer of the model, for every sequence of calls of next and unget; a loop takes more than F iterations exactly when it does so in the model.", "quantifier": "all texts shorter than 2^31 - 1 bytes, all states whose counters do not overflow, all sequences of calls, all bounds F > 25 for the loops", "why_tests_cant": "quantifies over all texts and all sequences of calls", "anchors": ["source/proto3.cc:30-70", "source/proto3.cc:118-178", "source/proto3.cc:180-283", "source/proto3.cc:285-483"]}
{"id": "C77", "title": "The text of the generator's printer, executed", "statement": "The three functions print of printer.cc, read from the text of the file as C++ source and executed, write to the stream what the model of the printer says for every format and every list of arguments, and have undefined behaviour exactly where it says so (a reference whose number, as an int, is -2^31).", "quantifier": "all formats, all lists of fewer than 2^31 arguments, all previous output", "why_tests_cant": "quantifies over all formats and arguments, and includes undefined behaviour", "anchors": ["source/printer.cc:29-66"]}
{"id": "C78", "title": "The text of the generator's obfuscate, executed", "statement": "The functions rol and obfuscate of cppgen.cc, read from their text as C++ source and executed, make of every name what the model of the generator says: \"\\x\" and the masked byte in hexadecimal for every byte. The text of reveal in protogen.hh, executed on the string literal that this is, returns the name that the model says the generated code uses.", "quantifier": "all names of fewer than 2^64 bytes", "why_tests_cant": "quantifies over all names, and includes undefined behaviour", "anchors": ["source/cpp/cppgen.cc:207-224", "source/cpp/protogen.hh:609-625"]}
{"id": "C79", "title": "The text of the generator's functions for types, options and the include guard, executed", "statement": "The functions nativePackage, nativeType, fieldNativeType, get_option (both), is_transient, get_json_name and makeGuard of cppgen.cc and the table TYPE_MAPPING, read from their text as C++ source and executed, return the text, throw the exception and have the undefined behaviour that the model of the generator says, for every field, option map, name and list of messages.", "quantifier": "all fields, option maps, names, packages, file names, lists of messages and builds", "why_tests_cant": "quantifies over all fields, options and names, and includes exceptions and undefined behaviour", "anchors": ["source/cpp/cppgen.cc:52-167", "source/cpp/cppgen.cc:226-260", "source/cpp/cppgen.cc:482-496"]}
