(** String literals of C++11 (ISO/IEC 14882:2011): what stands between the quotes, and the
    characters it denotes. *)
From Verif Require Import Bytes SpecJson.

(** ** Trigraphs (2.4): replaced from left to right before anything else *)
Definition trigraph_table : list (ascii * ascii) := combine (b "=/'()!<>-") (b "#\^[]|{}~").
Inductive untri : bytes -> bytes -> Prop :=
  | ut_nil : untri [] []
  | ut_tri c d r t : In (c, d) trigraph_table -> untri r t -> untri (b "??" ++ c :: r) (d :: t)
  | ut_char c r t : (forall x d r', c :: r = b "??" ++ x :: r' -> ~ In (x, d) trigraph_table) ->
      untri r t -> untri (c :: r) (c :: t).

(** ** Escape sequences (2.14.3) *)
Definition simple_table : list (ascii * ascii) :=
  combine (b "'""?\abfnrtv") (b "'""?\" ++ ["007"; "008"; "012"; "010"; "013"; "009"; "011"])%char.
Definition octal_table : list (ascii * Z) := combine (b "01234567") [0; 1; 2; 3; 4; 5; 6; 7].
Definition hexa_table : list (ascii * Z) :=
  combine (b "0123456789abcdefABCDEF") [0; 1; 2; 3; 4; 5; 6; 7; 8; 9; 10; 11; 12; 13; 14; 15; 10; 11; 12; 13; 14; 15].

(** A numeral in the digits of a table. *)
Inductive numeral (table : list (ascii * Z)) (base : Z) : bytes -> Z -> Prop :=
  | nm_nil : numeral table base [] 0
  | nm_more ds v c d : numeral table base ds v -> In (c, d) table -> numeral table base (ds ++ [c]) (base * v + d).
Definition starts_with (table : list (ascii * Z)) (s : bytes) : Prop := exists c d r, s = c :: r /\ In (c, d) table.

(** One to three octal digits; any number of hexadecimal digits; universal character names
    (2.3), encoded in UTF-8.  An escape for a value that is no character of one byte, a
    surrogate and other escapes have no meaning here. *)
Inductive chars : bytes -> bytes -> Prop :=
  | ch_nil : chars [] []
  | ch_plain c r v : ~ In c [""""%char; "\"%char; LF] -> chars r v -> chars (c :: r) (c :: v)
  | ch_simple c d r v : In (c, d) simple_table -> chars r v -> chars ("\"%char :: c :: r) (d :: v)
  | ch_octal ds n r v : (1 <= length ds <= 3)%nat -> numeral octal_table 8 ds n -> n < 256 ->
      (length ds = 3%nat \/ ~ starts_with octal_table r) -> chars r v -> chars ("\"%char :: ds ++ r) (chr n :: v)
  | ch_hexa ds n r v : ds <> [] -> numeral hexa_table 16 ds n -> n < 256 -> ~ starts_with hexa_table r ->
      chars r v -> chars (b "\x" ++ ds ++ r) (chr n :: v)
  | ch_ucn k ds n r v : In (k, length ds) [(b "\u", 4%nat); (b "\U", 8%nat)] -> numeral hexa_table 16 ds n -> scalar n ->
      chars r v -> chars (k ++ ds ++ r) (utf8_encode n ++ v).

(** The literal between quotes denotes [v]. *)
Definition denotes (s v : bytes) : Prop := exists t, untri s t /\ chars t v.

(** What a [const char *] to it shows. *)
Inductive to_nul : bytes -> bytes -> Prop :=
  | tn_end : to_nul [] []
  | tn_stop r : to_nul (NUL :: r) []
  | tn_more c r t : c <> NUL -> to_nul r t -> to_nul (c :: r) (c :: t).

(** ** Keywords (2.12, tables 4 and 5) *)
Definition reserved_words : list bytes := map b
  ["alignas"; "continue"; "friend"; "register"; "true"; "alignof"; "decltype"; "goto"; "reinterpret_cast"; "try";
   "asm"; "default"; "if"; "return"; "typedef"; "auto"; "delete"; "inline"; "short"; "typeid";
   "bool"; "do"; "int"; "signed"; "typename"; "break"; "double"; "long"; "sizeof"; "union";
   "case"; "dynamic_cast"; "mutable"; "static"; "unsigned"; "catch"; "else"; "namespace"; "static_assert"; "using";
   "char"; "enum"; "new"; "static_cast"; "virtual"; "char16_t"; "explicit"; "noexcept"; "struct"; "void";
   "char32_t"; "export"; "nullptr"; "switch"; "volatile"; "class"; "extern"; "operator"; "template"; "wchar_t";
   "const"; "false"; "private"; "this"; "while"; "constexpr"; "float"; "protected"; "thread_local";
   "const_cast"; "for"; "public"; "throw";
   "and"; "and_eq"; "bitand"; "bitor"; "compl"; "not"; "not_eq"; "or"; "or_eq"; "xor"; "xor_eq"]%string.
