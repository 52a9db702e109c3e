# Formal model of brunexgeek/protogen in Rocq (Coq 8.16.1)

## Shape of the development

All sources are in `rocq/theories`, standard library only. Build: `coq_makefile -f
_CoqProject -o Makefile && make` in `rocq`.

| layer | files | models |
|-------|-------|--------|
| bytes | `Bytes.v` | `char`/`std::string` as `ascii`/`list ascii`, decimal numerals |
| runtime input | `Stream.v`, `Tokenizer.v` | `iterator_istream`, `mem_const_iterator`, `internal::tokenizer` |
| runtime input, any iterator | `GenRead.v` | the same readers over an abstract stream (C23) |
| `std::istream` | `StdIn.v` | the stream behind `istream_iterator`, kept after the call |
| `std::ostream` | `StdOut.v` | the stream behind `ostream_iterator`: state, width, fill, a buffer that may refuse |
| runtime numbers | `Num.v`, `Dbl.v` | `strtol`/`strtoul`/`std::to_string`, `%f`, `strtod` |
| runtime values | `Types.v` | field types (`field<T>`, `string_field`, containers, messages), `empty/clear/equal/swap/operator=`, tables of a class |
| runtime codecs | `Write.v`, `Read.v`, `Sinks.v` | `json<T>::write/read`, `read_object`, `serialize`/`deserialize` overloads |
| compiler front end | `ProtoLex.v`, `ProtoParse.v` | `InputStream`, `Tokenizer`, `parse*`, `Proto3::parse` |
| compiler back end | `Printer.v`, `Gen.v`, `Template.v`, `MainC.v` | `printer.cc`, `cppgen.cc`, `template.cc`, `main.cc`, `exception.cc` |
| texts of the project | `CodeTxt.v`, `Codes.v`, `HdrText.v`, `RealBuild.v` | `code.txt`, its macros, the runtime headers, the build of CMakeLists.txt |
| C++ | `Cpp.v`, `Scope.v` | the part of C++11 that gives generated text a meaning: literals, structures, members, tables; lookup of unqualified names |
| C++ text | `CLex.v`, `CParse.v`, `CExec.v` | tokens, declarations and statements of the generated classes; an interpreter for their functions |
| text of the runtime | `HText.v`, `HParse.v`, `HExec.v`, `HTok.v`, `HJson.v` | macros, functions and statements of the runtime headers; an interpreter for them |
| stack | `Depth.v` | how many activations of the JSON reader's recursive functions exist at the same time |
| translation unit | `Unit.v` | the preprocessor on generated headers; several headers compiled together |
| specifications | `Spec*.v` | RFC 8259 grammar, UTF-8, RFC 4648, proto3 syntax, graphs, generated text, generated program: written without the functions of the model |
| proofs | `*Proofs.v` and the files named after their subject | lemmas |
| samples | `Samples.v`, `SampleProofs.v`, `PSamples.v`, `BackSamples.v`, `EndSamples.v` | inputs of the examples |
| theorems | `Prop*.v` | only theorem statements closed by `exact`, `Print Assumptions`, and examples |

Conventions. A C++ function that mutates becomes a function returning the new
value. A loop becomes recursion on explicit fuel returning a distinct outcome
when exhausted (`None`, `PFuel`, `CHangs`), and termination is itself a theorem
(C09, C26, C49). Exceptions and undefined behaviour are distinct outcomes.

The generator model is one monadic function per function of `cppgen.cc`; it
produces the text and, beside it, the declarations the text stands for (`cls`: the
members, the write items, the index table, the switch). `C48` relates the two: the
text is exactly `class_text` of the declarations. `Cpp.v` compiles declarations to
the *tables* that the model of the runtime interprets (`program_ty`), and fails
where C++ would: keywords, duplicate names, missing serializers, broken literals.
`C50` composes everything: schema text → generated program → behaviour.

Assumptions on the platform: LP64, IEEE 754 (plain `char` may be signed or not: C23,
C61), the "C" locale can be made (`newlocale`), so that numbers are read and written in it, no allocation failure, `int` line/column counters do not overflow
(input shorter than 2^31), recursion does not exhaust the stack (for the JSON reader, C64 says when: `Depth.v` counts
activations; the bytes of a frame are not modelled).

## Per property

C01 string escape round trip: induction on the string over the tokenizer's loop.
C02 UTF-8: independent `utf8` predicate; 4 cases of bit arithmetic. Exact text: `SpecEsc.v`, `EscProofs.v`.
C03 refuted: witness object; general theorem: serialize always returns true.
C04 induction on types over writer/reader, through the token view.
C05 independent RFC 8259 grammar; induction on types.
C06 JSON abstract syntax, layout relation, interpretation function; simulation.
C07, C08, C10, C13 consequences of C06; refutations where the code differs.
C09 fuel bound linear in the input length.
C11, C12 all reader paths; invariant relating stream position and consumed prefix.
C14 independent RFC 4648 encoder on bit lists; 3-byte block induction.
C15, C16 numerals; `strtol` with saturation; exact binary64, `%f`, rounded `strtod`.
C17 refuted by witness, plus a general failure theorem.
C18–C21, C44–C46 induction on types, token level.
C22 refuted; bounds; exact contents of the buffer afterwards.
C23 refinement of each iterator to the list of bytes. C24 fold of the sink.
C25 lexing is determined up to the closing brace.
C26 refuted for files ending in a comment or string; exact characterisation otherwise.
C27–C30, C43, C47 the parser is run on the token list of the file; invariants of every
run; completeness for the layouts of every schema; refutations with witnesses.
C31 DFS invariant; success exactly if acyclic.
C32 tables produced by the generator, compiled by `Cpp.v`.
C33, C34 exact condition under which obfuscation keeps a name; refutations.
C35–C37, C41 on the text and the declarations. C36: guard; C37: namespaces.
C38 the printer on a grammar of formats. C39 literals evaluate to the embedded text.
C40 refuted; exact condition under which the header compiles; type of every member.
C42 sorting makes the order of fields irrelevant, for any sorting routine.
C48 text of the generated file. C49 outcome of the program. C50 end to end.
C51 a grammar of tokens with its meaning (`SpecTok.v`, `SpecTakes.v`); a reader on token lists
(`TokRead.v`) is proved equal to the grammar, then simulated by the reader on streams.
C52 the same for the documents that fail: the tokens before the reported place can be
continued to an accepted value, but not with the token found there.
C53 `nearest` over integers (units of the least exponent); uniqueness; refutation for float.
C54 `SpecFault.v`: the situations in which a read fails, each with its code and message.
C55 unqualified lookup of the words the header relies on, in the order of the header.
C56 `SpecLenient.v`: Base64 decoding of arbitrary text on 24-bit numbers.
C57 `SpecLoose.v`: the text of an arbitrary string, and where the writer stops.
C58 `Fields.v`, `SpecOption.v`: sequences of operations on fields against optional values.
C59 `Close.v`, `SpecClose.v`: `nextafter` and `equal_number` on the ordered numbers of a format.
C60 `SpecReads.v`: a token machine and a grammar; every text has one meaning, and the parser of C26-C30 and C43 finds it, with the error and its position.
C61 `SpecFollow.v`: what follows a value in a stream and what remains of it.
C62 `SpecEvolve.v`, `SpecVersions.v`: what an object of one type is for a reader of another; compatible schemas.
C63 `SpecUnit.v`: sources whose headers are included together; guarded texts.
C64 `SpecDepth.v`: nesting of documents and types; brackets of a token sequence.
C65 `SpecHeader.v`, `SpecLiteral.v`: string literals and keywords of C++11; schemas whose header is accepted.
C66 `SpecOut.v`: what a stream buffer receives of a padded text.
C67 `SpecText.v`: the functions of the generated text, read and executed as C++, against the tables; by text fragments, then statements.
C68 `SpecHTok.v`: the functions of iterator_istream and tokenizer, read and executed as C++, against `Stream.v`, `Tokenizer.v`; by symbolic execution, loops by induction.
C69 `SpecHJson.v`: json<T>::read of every type and read_object, read and executed as C++, against `Read.v`; by induction over the type, each function by symbolic execution.
C70 `SpecHJson.v`: json<T>::write of every type, read and executed as C++, against `Write.v`; as C69. With C69 and C04: there and back from the text.
C71 `SpecHApi.v`: serialize, deserialize and the array forms as the program calls them, read and executed as C++, on top of C68-C70.
C72 `SpecHIter.v`: iterator_ostream, mem_iterator and mem_const_iterator, read and executed as C++, against `Stream.v`.
C73 `SpecHField.v`: field<T>, string_field and the functions empty, clear, equal and swap, read and executed as C++, against `Types.v`.
C74 `SpecHNum.v`: string_to_number, number_to_string, equal_number and reveal, read and executed as C++, against `Read.v`, `Write.v` and `Close.v`.
C75 `SpecHStd.v`: the remaining overloads and the short functions of a message and json<N>, read and executed as C++, against `StdIn.v`, `Read.v`, `Sinks.v` and `Types.v`.
C76 `SpecLexText.v`: InputStream, Token and Tokenizer of proto3.cc, read and executed as C++, against `ProtoLex.v` and `ProtoParse.v` (p_next, p_unget).
C77 `SpecPrintText.v`: the functions print of printer.cc, read and executed as C++, against `Printer.v`.
C78 `SpecObfText.v`: rol and obfuscate of cppgen.cc, read and executed as C++, against `Gen.v`, and together with reveal of protogen.hh.
C79 `SpecGenText.v`: the functions of cppgen.cc for the names of types, options and the include guard, read and executed as C++, against `Gen.v`.

## Trusted base

* The Coq 8.16.1 kernel and its conversion (including `vm_compute`, used in the
  examples and a few refutations by evaluation; `coqchk` accepts all files).
* No axioms: `Print Assumptions` beneath every theorem of the `Prop*.v` files
  prints "Closed under the global context". The standard library files loaded by
  `Require` (through `Lia`) contain the module `Coq.ssr.ssrunder`, whose opaque
  module type fields `Under_rel`, `Under_rel_from_rel`, `Under_relE`, `Over_rel`,
  `over_rel`, `over_rel_done`, `under_rel_done` are listed by `coqchk -o` as
  axioms; no theorem here depends on them.
* The reading of the C++ sources: each definition of the model cites the lines it
  transcribes, and its simplifications. The translation itself is by hand and is
  not checked by a tool, except where the text is read and executed (C67-C79), with the
  readers and interpreters of C++ here in its place.
* The statements of the theorems and the `Spec*.v` files they refer to.
* Behaviour of the C and C++ libraries that the code calls (`strtol`, `strtod`,
  `snprintf "%f"`, `std::to_string`, `istream_iterator`, `std::sort`, `realpath`,
  ...), modelled from their standards on an LP64 platform in the "C" locale.
  `std::sort` is any function that permutes (and sorts, where order matters); the
  file system is a record of functions (`fsys`).
* `Cpp.v`: that a header whose declarations are accepted there compiles to classes
  that behave as the tables say. For the functions of the classes this is proved from
  their text (C67), with `CLex.v`, `CParse.v` and `CExec.v` as the meaning of C++. Read
  by hand: the base classes and defaulted functions in the two macros of json.hh:63-119 and
  the runtime headers (the model of the runtime) except the stream, the tokenizer, json<T>::read, json<T>::write, the functions a program
  calls, the iterators, the field classes and the comparisons, whose text is executed (C68-C75).

## What is not modelled

* Stack exhaustion on deeply nested input, allocation failure, sizes over 2^31.
* C++ beyond `Cpp.v` and `Scope.v`: a full grammar, overload resolution, identifiers
  reserved to the implementation. Escape sequences that C++ supports conditionally are
  refused and the execution character set is UTF-8. Which
  macros and global names the standard headers define is a parameter (`platform`);
  an identifier that is one of them is refused, though some uses would compile.
  C32, C33, C40 and C50 are about `program_ty`, without lookup; C55 says for which
  schemas lookup (`header_ty`) makes no difference. A field called like a function
  of the structure derived from its own (`clear`, `swap`, ...) is hidden there, which
  the model of the runtime does not show.
* `CParse.v` and `CExec.v` know the constructions that occur in the generated classes and
  refuse the others (then nothing is claimed): no loops, arithmetic, pointers beyond
  `*ctx.os`, overloads, templates besides the specialization of `json`. Operands and
  arguments are evaluated from left to right; in the generated text no two of them have
  effects that could be told apart. `int` has no bounds. Functions of other types are
  called by the name `json<decltype(x.m)>`, and `read_object`, `reveal` by theirs.
* `HParse.v` and `HExec.v` know the constructions that occur in protogen.hh and refuse the
  others (no result, so nothing is claimed). Operands are evaluated from left to right; a
  reference to a variable of the caller is copied in and out, refused if two parameters
  would refer to the same one. Signed overflow, reading what was not initialized, jumps
  into the scope of a variable and references to ended variables give no result. Integers
  are those of LP64 with signed `char`; `__USE_GNU` is defined (glibc with g++). By hand:
  the constructors of iterator_istream, tokenizer and token, copies of token, `strtol` on
  hexadecimal digits, operations of `std::string` used there.
* `HJson.v` composes the functions of json*.hh over the types: which specialisation of
  json<T> serves which type is by hand (json-number.hh, json-string.hh, json-base64.hh and
  json-array.hh by their headings). Values of fields, strings, vectors and messages are the
  values of `Types.v`. By hand as well: operators and members of field<T> and string_field (their
  text: C73) and of `std::vector`, string_to_number and number_to_string (their text: C74), `snprintf` with "\\u%04x", the
  generated read_field and the items of the generated write (their text: C67).
* The preprocessor (`Unit.v`): macros are names without a value and are not expanded;
  conditions of `#if` are a parameter; `#elif` and raw string literals are not modelled
  (no header of the project has them); of a line only the characters outside comments
  are kept. Headers are pieces of one text: what the generated text itself `#include`s
  (the standard headers) stays as a line.
* Lookup (`Scope.v`) across several headers; two translation units of one program.
* `std::istream`: `badbit`, `putback`; streams in general: exceptions switched on with `exceptions()`, `tie()`.
* A failure of `newlocale` outside of C74 (json-number.hh:44, 85: numbers become 0). Windows and 32-bit
  platforms.
* What is done with standard error and the exit status by the shell; partial writes.
* The build files (CMake) beyond the list of embedded files and the version, the
  test program in `/repo/tests`, and the documentation.
* Comments in message bodies are part of the lexer; imports, enumerations, maps and
  nested messages are not supported by the compiler and are rejected in the model
  as in the code.

## Mutation testing

`seeded/LOG.jsonl`: one line per edit of a definition, made in a scratch copy, with the
claim it breaks and the theorems (or the lemmas behind them) that stop compiling.
How to read a line:

* `first_proof_that_stopped` is what was observed: per file, the first proof that was not
  accepted.  Files that import a failed file are not tried.
* `theorems_failed` is computed from it: the theorems of every `Prop*.v` file that imports
  one of those files, directly or not.  It is an upper bound.  A theorem in it was not
  rebuilt, which does not mean that its statement is false for the edited model.
* `noticed` means that the build stops.  The proof that stops may be a lemma on the way, or
  an Example; that the statement itself fails was not proved for each edit.
* The files of the named claim are built first and, if they fail, nothing else is built, so
  failures elsewhere may be missing.
