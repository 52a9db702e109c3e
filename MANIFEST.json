{
 "claims": [
  {
   "property": "C01",
   "status": "proved",
   "theorems": [
    "C01_string_round_trip",
    "C01_nul_never_read_back"
   ],
   "note": "Any continuation, any sufficient fuel; NUL strings are written but reading fails."
  },
  {
   "property": "C02",
   "status": "proved",
   "theorems": [
    "C02_ensure_ascii_round_trip",
    "C02_text",
    "C02_raw_text"
   ],
   "note": "Well-formed UTF-8 per RFC 3629."
  },
  {
   "property": "C03",
   "status": "proved",
   "theorems": [
    "C03_never_reports",
    "C03_unencodable_reported_refuted"
   ],
   "note": "Property false of the code: serialize never reports; witness shows an unterminated string with result true. Proved in refuted form."
  },
  {
   "property": "C04",
   "status": "proved",
   "theorems": [
    "C04_round_trip",
    "C04_no_transient"
   ],
   "note": "Hypotheses tables_ok/lookup_ok describe the generated tables."
  },
  {
   "property": "C05",
   "status": "proved",
   "theorems": [
    "C05_well_formed"
   ],
   "note": ""
  },
  {
   "property": "C06",
   "status": "proved",
   "theorems": [
    "C06_deserialize_interprets",
    "C06_deserialize_interprets_lax"
   ],
   "note": "lookup_ok is the property of the generated tables established by C32."
  },
  {
   "property": "C07",
   "status": "proved",
   "theorems": [
    "C07_unknown_member_ignored",
    "C07_unknown_members_ignored_deep"
   ],
   "note": "Single member at any position, and all unknown members at all depths."
  },
  {
   "property": "C08",
   "status": "proved",
   "theorems": [
    "C08_null_member_ignored",
    "C08_null_string_refuted"
   ],
   "note": "String fields violate it (refuted in general form)."
  },
  {
   "property": "C09",
   "status": "proved",
   "theorems": [
    "C09_deserialize_terminates"
   ],
   "note": "Bound 2*length+3 on iterations and nesting."
  },
  {
   "property": "C10",
   "status": "proved",
   "theorems": [
    "C10_merge",
    "C10_overwrite_or_append"
   ],
   "note": ""
  },
  {
   "property": "C11",
   "status": "proved",
   "theorems": [
    "C11_success_clear",
    "C11_failure_reported"
   ],
   "note": "All inputs. The exception (document null) is characterised exactly."
  },
  {
   "property": "C12",
   "status": "proved",
   "theorems": [
    "C12_error_position",
    "C12_string_position_refuted"
   ],
   "note": "Position is that of a token start (or end of input) of the document; finding: string tokens are reported at 0:0."
  },
  {
   "property": "C13",
   "status": "proved",
   "theorems": [
    "C13_layout_independent",
    "C13_line_feeds_dropped",
    "C13_inside_tokens_refuted"
   ],
   "note": "Finding: line feeds inside tokens are dropped, '1 LF 2' is read as 12."
  },
  {
   "property": "C14",
   "status": "proved",
   "theorems": [
    "C14_base64_round_trip"
   ],
   "note": ""
  },
  {
   "property": "C15",
   "status": "proved",
   "theorems": [
    "C15_integer_round_trip",
    "C15_any_number_text"
   ],
   "note": "Fraction and exponent of a number text are dropped for integer fields."
  },
  {
   "property": "C16",
   "status": "proved",
   "theorems": [
    "C16_text",
    "C16_exact_round_trip"
   ],
   "note": "All finite binary64/binary32 values; 1e-7 shows that six decimals lose small values."
  },
  {
   "property": "C17",
   "status": "proved",
   "theorems": [
    "C17_rejected",
    "C17_readable_refuted"
   ],
   "note": "False as a user expectation: every object with a written NaN or infinity, at any depth, is serialized with result true to a text deserialize rejects. Finding: nan/inf are not JSON."
  },
  {
   "property": "C18",
   "status": "proved",
   "theorems": [
    "C18_not_read",
    "C18_not_written",
    "C18_nested_refuted"
   ],
   "note": "Reading: all inputs, all depths. Writing: own transient fields; nested transient fields do influence the output (refuted with witness)."
  },
  {
   "property": "C19",
   "status": "proved",
   "theorems": [
    "C19_clear",
    "C19_empty",
    "C19_equal",
    "C19_equal_reflexive",
    "C19_equal_symmetric",
    "C19_equal_transitive",
    "C19_swap",
    "C19_empty_fields"
   ],
   "note": ""
  },
  {
   "property": "C20",
   "status": "proved",
   "theorems": [
    "C20_assign_set",
    "C20_assign_refuted",
    "C20_equal",
    "C20_new",
    "C20_text"
   ],
   "note": "False in general (witness); the exact condition is C20_equal. True for fully set sources and for new targets."
  },
  {
   "property": "C21",
   "status": "proved",
   "theorems": [
    "C21_fields_written"
   ],
   "note": ""
  },
  {
   "property": "C22",
   "status": "proved",
   "theorems": [
    "C22_in_bounds",
    "C22_text_at_start_refuted",
    "C22_short_buffer_refuted"
   ],
   "note": "In bounds for every buffer, with the exact content afterwards. Finding: the text starts at offset 1, byte 0 is never written, and a short buffer silently truncates while returning true."
  },
  {
   "property": "C23",
   "status": "proved",
   "theorems": [
    "C23_pointer",
    "C23_container",
    "C23_stream",
    "C23_defined"
   ],
   "note": "The reader is modelled over an abstract stream; iterator_istream over each kind of iterator gives the result of the list model. An access outside the buffer is a distinct outcome that never happens. Both for signed and for unsigned plain char."
  },
  {
   "property": "C24",
   "status": "proved",
   "theorems": [
    "C24_appends"
   ],
   "note": "All types, values, previous contents and parameters."
  },
  {
   "property": "C25",
   "status": "proved",
   "theorems": [
    "C25_suffix_ignored"
   ],
   "note": "Accepted texts stay accepted with the same result under every suffix."
  },
  {
   "property": "C26",
   "status": "proved",
   "theorems": [
    "C26_terminates_lf",
    "C26_endless_files",
    "C26_fuel",
    "C26_terminates_refuted",
    "C26_loops_refuted"
   ],
   "note": "Proved for files ending with LF (and for all that do not end in an open // comment or string literal). Finding: every schema followed by a // comment or a string literal cut by the end of the file loops for ever."
  },
  {
   "property": "C27",
   "status": "proved",
   "theorems": [
    "C27_no_unget_limit",
    "C27_errors"
   ],
   "note": "For any fuel: no run reaches the runtime_error of InputStream::unget or 'Already ungot'; complete list of the errors thrown."
  },
  {
   "property": "C28",
   "status": "proved",
   "theorems": [
    "C28_numbers",
    "C28_accepted",
    "C28_reserved_refuted",
    "C28_largest_refuted",
    "C28_wrap_refuted"
   ],
   "note": "Findings: numbers strictly between 19000 and 19999 are accepted, 2^29-1 is rejected, 4294967297 is accepted as 1."
  },
  {
   "property": "C29",
   "status": "proved",
   "theorems": [
    "C29_resolved",
    "C29_unresolved"
   ],
   "note": "C29_resolved for every accepted file; C29_unresolved for every layout of every schema using an undeclared type."
  },
  {
   "property": "C30",
   "status": "proved",
   "theorems": [
    "C30_recovers",
    "C30_exact",
    "C30_writable"
   ],
   "note": "All layouts (white space, comments) of all well-formed schemas. C30_exact: the syntax tree determines the schema up to overridden options and unused declarations."
  },
  {
   "property": "C31",
   "status": "proved",
   "theorems": [
    "C31_order",
    "C31_compiler",
    "C31_cycle",
    "C31_parsed"
   ],
   "note": "For trees and for the whole compiler. Circular references are reported exactly for cyclic reference graphs once the file options are well typed."
  },
  {
   "property": "C32",
   "status": "proved",
   "theorems": [
    "C32_dispatch"
   ],
   "note": "For every schema accepted by the compiler and by the C++ model: names written and found by the class of each message; distinct names give exact lookup, a later duplicate is never found. cpp_fine states what C++ needs (no keywords, distinct names, literals that give the name back)."
  },
  {
   "property": "C33",
   "status": "proved",
   "theorems": [
    "C33_name",
    "C33_transparent",
    "C33_refuted"
   ],
   "note": "The property as stated is false; C33_refuted is the witness (field 'order'). Exact condition for a name (C33_name) and transparency of the whole program under it (C33_transparent)."
  },
  {
   "property": "C34",
   "status": "proved",
   "theorems": [
    "C34_names",
    "C34_obfuscated",
    "C34_obfuscated_refuted"
   ],
   "note": "Holds without obfuscation; with obfuscation exactly four-digit numbers containing a 9 get another name, and collide (refuted with witness)."
  },
  {
   "property": "C35",
   "status": "proved",
   "theorems": [
    "C35_exact",
    "C35_schema",
    "C35_last_bool",
    "C35_last_name"
   ],
   "note": "Exact conditions for success on trees and on schema texts; the name of a transient field is not checked."
  },
  {
   "property": "C36",
   "status": "proved",
   "theorems": [
    "C36_identifier",
    "C36_same"
   ],
   "note": "Guards of absolute paths contain a double underscore, reserved in C++."
  },
  {
   "property": "C37",
   "status": "proved",
   "theorems": [
    "C37_text",
    "C37_parts",
    "C37_braces",
    "C37_names"
   ],
   "note": "The closing comments name the components in opening order (cosmetic)."
  },
  {
   "property": "C38",
   "status": "proved",
   "theorems": [
    "C38",
    "C38_exact",
    "C38_nul",
    "C38_dollar_refuted"
   ],
   "note": "C38: formats made of text and references to existing arguments, any arguments. C38_exact: every format without NUL and without the overflowing reference prints exactly what the rules of SpecPrint.prints give. Finding: a '$' without partner or with a bad reference drops the rest of the format (C38_dollar_refuted), so 'copies everything else' holds only away from '$'."
  },
  {
   "property": "C39",
   "status": "proved",
   "theorems": [
    "C39_header",
    "C39_version",
    "C39_sections",
    "C39_templates",
    "C39_runtime_headers",
    "C39_trigraph_refuted"
   ],
   "note": "The value of each produced C++ literal is computed by the model of C++ literals, macros, splicing and trigraphs in Cpp.v. The text after the last line feed is lost (any [final]). Finding: lines with a trigraph are changed (C39_trigraph_refuted); no header of the project has one (C39_runtime_headers, C39_templates)."
  },
  {
   "property": "C40",
   "status": "proved",
   "theorems": [
    "C40_exact",
    "C40_types",
    "C40_refuted"
   ],
   "note": "The property as stated is false (C40_refuted, two witnesses). C40_exact gives the exact condition for the header to compile, C40_types the type of every member."
  },
  {
   "property": "C41",
   "status": "proved",
   "theorems": [
    "C41_rejected",
    "C41_reason",
    "C41_exact"
   ],
   "note": ""
  },
  {
   "property": "C42",
   "status": "proved",
   "theorems": [
    "C42_reordered",
    "C42_schemas",
    "C42_members",
    "C42_sorts"
   ],
   "note": "std::sort is any routine that permutes and sorts; distinct names in a message, as std::sort does not determine the order of equal names (duplicates do not compile)."
  },
  {
   "property": "C43",
   "status": "proved",
   "theorems": [
    "C43_open_message_refuted",
    "C43_open_comment_refuted",
    "C43_cut_string_refuted",
    "C43_cut_string_in_message_refuted"
   ],
   "note": "Finding: false for every schema: an unclosed last message, an open block comment and a string literal cut by LF or NUL are accepted."
  },
  {
   "property": "C44",
   "status": "proved",
   "theorems": [
    "C44_array_round_trip"
   ],
   "note": ""
  },
  {
   "property": "C45",
   "status": "proved",
   "theorems": [
    "C45_null_element_rejected",
    "C45_unset_string_refuted"
   ],
   "note": ""
  },
  {
   "property": "C46",
   "status": "proved",
   "theorems": [
    "C46_rejected",
    "C46_ignored_accepted"
   ],
   "note": "Rejected at any depth of known members, whatever follows; accepted inside the values of unknown members, with the exact result."
  },
  {
   "property": "C47",
   "status": "proved",
   "theorems": [
    "C47_values_in_range"
   ],
   "note": "All inputs, accepted or not."
  },
  {
   "property": "C48",
   "status": "proved",
   "theorems": [
    "C48_output",
    "C48_pinned"
   ],
   "note": "Added property. Text against an independent description (SpecCpp.v, SpecFile.v)."
  },
  {
   "property": "C49",
   "status": "proved",
   "theorems": [
    "C49_exit",
    "C49_safe",
    "C49_run",
    "C49_untouched_refuted",
    "C49_message",
    "C49_refused"
   ],
   "note": "Added property. Finding: on failure the output file is truncated or left with part of a header."
  },
  {
   "property": "C50",
   "status": "proved",
   "theorems": [
    "C50_types",
    "C50_writes",
    "C50_reads",
    "C50_round_trip",
    "C50_plain"
   ],
   "note": "End to end: schema text -> generated program -> runtime. Instances of the runtime theorems for every class of every accepted schema."
  },
  {
   "property": "C51",
   "status": "proved",
   "theorems": [
    "C51_accepts"
   ],
   "note": "Added property. The grammar of accepted documents, both directions; it is wider than JSON (trailing commas in unknown members, numerals of any number characters, late surrogates, line feeds inside tokens, anything after the value)."
  },
  {
   "property": "C52",
   "status": "proved",
   "theorems": [
    "C52_fails_where",
    "C52_null"
   ],
   "note": "Added property. Findings: Base64 text cut short is recorded at the token after it and only if something else fails; positions of string tokens are 0:0 (C12)."
  },
  {
   "property": "C53",
   "status": "proved",
   "theorems": [
    "C53_double",
    "C53_float",
    "C53_float_nearest_refuted"
   ],
   "note": "Added property. Finding: a float member is read through double (strtod, then a cast), so the result is not always the float nearest to the numeral (1.0000000596046447753906251 gives 1). That strtod rounds correctly is part of the trusted base; the theorem shows that the model's strtod does."
  },
  {
   "property": "C54",
   "status": "proved",
   "theorems": [
    "C54_only",
    "C54_reported",
    "C54_base64"
   ],
   "note": "Added property. Findings: a member whose value is null at the end of the text is reported as an error of skipping (PGERR_IGNORE_FAILED, end of stream); a skipped scalar at the end of the text too, but a skipped array or object is reported as a missing separator."
  },
  {
   "property": "C55",
   "status": "proved",
   "theorems": [
    "C55_exact",
    "C55_apart",
    "C55_captured_refuted"
   ],
   "note": "Exact characterisation, in the order of the header; a simple sufficient condition. Finding: package a.std, a message called int32_t before a message of the same package that has an int32 field, or an int32 field called int32_t are accepted by the compiler and give headers that do not compile. Lookup rules of C++11 are modelled in Scope.v; global names and macros of the platform are parameters."
  },
  {
   "property": "C56",
   "status": "proved",
   "theorems": [
    "C56_text",
    "C56_canonical",
    "C56_checked_refuted"
   ],
   "note": "Added property. Finding: texts that are not Base64 (characters outside the alphabet, an incomplete group, stray bits, padding in the middle) are read with result true and no error."
  },
  {
   "property": "C57",
   "status": "proved",
   "theorems": [
    "C57_written",
    "C57_read_back",
    "C57_checked_refuted"
   ],
   "note": "Added property. Finding: with ensure_ascii, byte sequences that only look like UTF-8 (overlong, surrogates, above U+10FFFF) are written with success and are read back as something else or not at all."
  },
  {
   "property": "C58",
   "status": "proved",
   "theorems": [
    "C58_history",
    "C58_careful",
    "C58_observers",
    "C58_tidy_observers",
    "C58_numbers",
    "C58_strings",
    "C58_different_refuted",
    "C58_hidden_refuted",
    "C58_reference_refuted"
   ],
   "note": "Added property. Findings: assigning from an empty field keeps the old value hidden (two empty fields then differ under ==, and swap brings it back); == and != with a plain value are both false for an empty field; text written through the reference of a null string is invisible to == and lost by assignment."
  },
  {
   "property": "C59",
   "status": "proved",
   "theorems": [
    "C59_equal",
    "C59_numbers",
    "C59_empty",
    "C59_reflexive_refuted",
    "C59_symmetric_refuted",
    "C59_transitive_refuted",
    "C59_zero_refuted",
    "C59_formats"
   ],
   "note": "Added property. Findings: equal_number is not an equality (infinities differ from themselves; not symmetric; not transitive), and the smallest denormal numbers are called empty. Generated classes do not use it on their members."
  },
  {
   "property": "C60",
   "status": "proved",
   "theorems": [
    "C60_one_meaning",
    "C60_accepts",
    "C60_result",
    "C60_schema",
    "C60_error",
    "C60_loops",
    "C60_messages",
    "C60_no_bracket_error"
   ],
   "note": "Added property. Exact: acceptance, result, error text and position, endless reading, for every byte string. Finding: the check for ']' after the options of a field (\"Expected ']'\") can never fail."
  },
  {
   "property": "C61",
   "status": "proved",
   "theorems": [
    "C61_any",
    "C61_failed",
    "C61_left",
    "C61_document",
    "C61_mark",
    "C61_round_trip",
    "C61_adjacent_refuted",
    "C61_silent_refuted",
    "C61_extract",
    "C61_plain"
   ],
   "note": "Added property. Findings: two messages written to a stream next to each other, or one per line, are not read back: the second call fails (C61_adjacent_refuted) or reads another message without an error (C61_silent_refuted), because the reader takes one token and one character more than the message."
  },
  {
   "property": "C62",
   "status": "proved",
   "theorems": [
    "C62_reads",
    "C62_rejects",
    "C62_decided",
    "C62_unique",
    "C62_evolves",
    "C62_same",
    "C62_there_and_back",
    "C62_schema",
    "C62_added_field_refuted"
   ],
   "note": "Added property. Finding: adding the first field of type repeated bytes to a message changes what its other bytes fields are written as (number arrays become Base64), so that objects of the older version are refused (C62_added_field_refuted)."
  },
  {
   "property": "C63",
   "status": "proved",
   "theorems": [
    "C63_one",
    "C63_again",
    "C63_together",
    "C63_text",
    "C63_all",
    "C63_twice",
    "C63_runtime",
    "C63_order_refuted",
    "C63_dropped_refuted",
    "C63_shared_refuted",
    "C63_path_refuted"
   ],
   "note": "Added property. Findings: (1) a header with bytes but no repeated bytes and one with repeated bytes do not compile in one order and change the JSON form of the first in the other (C63_order_refuted; two units that differ in this also break the one-definition rule); (2) sources whose paths differ only in special characters share a guard, and the second header's classes vanish silently (C63_dropped_refuted); (3) without imports a message repeated in two schemas keeps their headers apart (C63_shared_refuted); (4) a line feed in the source path puts the rest of the path into the code (C63_path_refuted)."
  },
  {
   "property": "C64",
   "status": "proved",
   "theorems": [
    "C64_exact",
    "C64_known",
    "C64_own",
    "C64_any",
    "C64_brackets",
    "C64_bounded_refuted"
   ],
   "note": "Added property. Finding: ignore_value recurses once per bracket of an unknown member and has no limit, so for every stack there is a valid JSON document of two bytes per activation, accepted and without effect on the object, that overflows it (C64_bounded_refuted). The number of activations is modelled, not the bytes of a frame."
  },
  {
   "property": "C65",
   "status": "proved",
   "theorems": [
    "C65_literal",
    "C65_exact",
    "C65_header",
    "C65_types",
    "C65_reads",
    "C65_writes",
    "C65_round_trip",
    "C65_json_refuted"
   ],
   "note": "Added property; makes the condition of C50 exact and drops its restriction to names without escapes. Finding: the option name of a field goes into the string literal unescaped and from there into the JSON text unescaped, so name=\"a\\001\" compiles and every object is written as text that is not JSON (C65_json_refuted). Escapes that C++ only supports conditionally are refused; the execution character set is UTF-8."
  },
  {
   "property": "C66",
   "status": "proved",
   "theorems": [
    "C66_received",
    "C66_plain",
    "C66_blank",
    "C66_reported_refuted",
    "C66_fill_refuted"
   ],
   "note": "Added property. Findings: a stream that fails is not reported, serialize returns true (C66_reported_refuted); a field width set by the caller pads the opening brace, and with a fill character that is not white space the text is not JSON (C66_fill_refuted). Exceptions switched on by exceptions() and tie() are not modelled."
  },
  {
   "property": "C67",
   "status": "proved",
   "theorems": [
    "C67_text"
   ],
   "note": "Added property. The text is cut into tokens, read as declarations, functions, statements and expressions, and executed by an interpreter (CLex.v, CParse.v, CExec.v); the tables of class_ty are proved to be what the text does. Not derived from text: read_object and the functions of json for the types of members (the runtime model), and the two PG_..._ENTITY macros, known by name."
  },
  {
   "property": "C68",
   "status": "proved",
   "theorems": [
    "C68_stream",
    "C68_next",
    "C68_expect",
    "C68_error",
    "C68_ignore",
    "C68_made",
    "C68_nexts",
    "C68_ignores"
   ],
   "note": "Added property. The header is preprocessed, cut into tokens, read as functions, statements and expressions (HText.v, HParse.v) and executed by an interpreter with the integer types of LP64, undefined behaviour as no result (HExec.v). The functions of the classes and the enumerators come from the text; the constructors of the stream, tokenizer and token are stated by hand (initial members, then skip and next of the text)."
  },
  {
   "property": "C69",
   "status": "proved",
   "theorems": [
    "C69_read",
    "C69_reads",
    "C69_input"
   ],
   "note": "Added property. By induction over the type; each function by symbolic execution of its parsed text, loops by induction. By hand: the operators and members of field<T> and string_field, string_to_number, and the generated read_field, whose own text is executed in C67."
  },
  {
   "property": "C70",
   "status": "proved",
   "theorems": [
    "C70_write",
    "C70_output",
    "C70_back"
   ],
   "note": "Added property. By induction over the type; each function by symbolic execution of its parsed text, loops by induction. By hand: number_to_string, snprintf with its one format, the operators and members of field<T>, string_field and std::vector, and the generated write, whose own text is executed in C67."
  },
  {
   "property": "C71",
   "status": "proved",
   "theorems": [
    "C71_deserialize",
    "C71_serialize",
    "C71_back"
   ],
   "note": "Added property. On top of C68-C70, whose functions are called with their texts. By hand: operator<< of iterator_ostream (appends; see C72), std::move, the copy of Parameters, the standard iterators. Not covered: deserialize from a std::istream and from a pointer and a length (C22 has the model of those)."
  },
  {
   "property": "C72",
   "status": "proved",
   "theorems": [
    "C72_append",
    "C72_memory",
    "C72_stream",
    "C72_buffer",
    "C72_new",
    "C72_reading"
   ],
   "note": "Added property. Justifies the hand-made parts of C71 (an ostream appends) and of C22. By hand: std::back_insert_iterator and std::ostream_iterator (++ and * give the iterator, assignment appends), the iterators of std::string."
  },
  {
   "property": "C73",
   "status": "proved",
   "theorems": [
    "C73_empty",
    "C73_clear",
    "C73_equal",
    "C73_swap",
    "C73_field",
    "C73_fields",
    "C73_value",
    "C73_string",
    "C73_strings",
    "C73_text",
    "C73_text_swap",
    "C73_negation_refuted"
   ],
   "note": "Added property. Justifies vempty, vclear, vequal, vswap, vassign and dflt of Types.v for everything but messages (C67 for those). Finding: for a field that is not set both x == v and x != v are false (json-number.hh:24-25, json-string.hh:29-32). By hand: std::swap, the members of std::string and of containers, operator== of containers (as vequal). Not covered: equal_number of floating-point numbers (C59), the copy constructors (= default)."
  },
  {
   "property": "C74",
   "status": "proved",
   "theorems": [
    "C74_read",
    "C74_read_zero",
    "C74_write",
    "C74_write_zero",
    "C74_equal",
    "C74_reveal"
   ],
   "note": "Added property. Justifies what C67, C69 and C70 call by name. By hand: strtol, strtoul, strtod, snprintf with %f, std::to_string, std::nextafter, newlocale, uselocale (C and C++ library); a static variable is initialized by each call instead of the first. C74_reveal asks for names shorter than 2^64."
  },
  {
   "property": "C75",
   "status": "proved",
   "theorems": [
    "C75_stream",
    "C75_memory",
    "C75_buffer",
    "C75_array_refuted",
    "C75_member",
    "C75_static",
    "C75_values"
   ],
   "note": "Added property. The call of deserialize and serialize for the stream made from the iterators is that of GenRead.v, StdIn.v and Write.v (its text: C71 with C68-C70); the constructors of mem_iterator and mem_const_iterator are executed from their text (C72). By hand: std::istream, std::istream_iterator<char>, std::skipws, std::noskipws. Finding C75_array_refuted: deserialize_array(T&, const char*, size_t) does not compile when used (json-array.hh:110 passes a const char* to mem_iterator(T*, size_t), protogen.hh:228)."
  },
  {
   "property": "C76",
   "status": "proved",
   "theorems": [
    "C76_start",
    "C76_get",
    "C76_unget",
    "C76_skipws",
    "C76_expect",
    "C76_position",
    "C76_next",
    "C76_back",
    "C76_tokens"
   ],
   "note": "Added property. LexSrc.v holds the text of proto3.cc:1-483 with a closing brace; LexRead.v expands its object-like and function-like macros and reads classes, constructors and the table; LexExec.v executes. By hand: std::string, std::runtime_error and the exception class of exception.cc, the iterators of the text (a list of bytes and its end), int and char (signed overflow is an error, excluded by the hypothesis on the length). \"throw e\" is read as a call and \"Token x(a)\" as \"auto x = Token(a)\"."
  },
  {
   "property": "C77",
   "status": "proved",
   "theorems": [
    "C77_print",
    "C77_own",
    "C77_plain"
   ],
   "note": "Added property. PrintText.v holds the whole text of printer.cc, read with HParse.v and LexRead.v. A pointer into the format is the rest of it. By hand: strchr, strtol, std::ostream <<, std::vector. \"char *x\" is read as \"const char *x\"."
  },
  {
   "property": "C78",
   "status": "proved",
   "theorems": [
    "C78_obfuscate",
    "C78_model",
    "C78_both"
   ],
   "note": "Added property. ObfText.v holds the text of cppgen.cc:207-224, read with HParse.v, LexRead.v and HNum.v; rol is executed from its text. By hand: std::stringstream with << of a C string and of an int, std::hex, str(). The string literal is read by lit_string (Cpp.v)."
  },
  {
   "property": "C79",
   "status": "proved",
   "theorems": [
    "C79_type",
    "C79_package",
    "C79_string",
    "C79_bool",
    "C79_transient",
    "C79_json_name",
    "C79_guard"
   ],
   "note": "Added property. CgRead.v holds the text of cppgen.cc:52-167, 226-260 and 482-496, read with HParse.v, LexRead.v and HNum.v. By hand: the numbers of the enumerators and the members of Field, OptionEntry and Message (proto3.hh), the macros with the names of options, std::string, the option map, exceptions. \"OptionEntry x\" is read as \"auto x\". nativeType is executed from fieldNativeType, for messages."
  }
 ]
}