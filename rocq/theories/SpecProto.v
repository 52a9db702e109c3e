(** Lexical structure of .proto files and abstract syntax of schemas, stated without
    the model of the compiler. *)
From Verif Require Import Bytes.

(** ** Text between tokens *)

Definition blank (c : ascii) : Prop := In (code c) [32; 9; 10; 13].

(** [pat] occurs in [text]. *)
Definition occurs (pat text : bytes) : Prop := exists u v, text = u ++ pat ++ v.

(** White space and comments.  A block comment ends at the first "*/".  With
    [stray], also a '/' that starts no comment together with the byte after it. *)
Inductive sep (stray : bool) : bytes -> Prop :=
  | sep_nil : sep stray []
  | sep_blank c s : blank c -> sep stray s -> sep stray (c :: s)
  | sep_line body s : ~ In LF body -> sep stray s -> sep stray (b "//" ++ body ++ LF :: s)
  | sep_block body s : ~ occurs (b "*/") (body ++ b "*") -> sep stray s ->
      sep stray (b "/*" ++ body ++ b "*/" ++ s)
  | sep_stray c s : stray = true -> code c <> 47 -> code c <> 42 -> sep stray s ->
      sep stray ("/"%char :: c :: s).

(** ** Tokens *)

Definition pletter (c : ascii) : Prop :=
  65 <= code c <= 90 \/ 97 <= code c <= 122 \/ code c = 95.
Definition pdigit (c : ascii) : Prop := 48 <= code c <= 57.

Definition ident (w : bytes) : Prop :=
  match w with
  | [] => False
  | c :: r => pletter c /\ Forall (fun d => pletter d \/ pdigit d) r
  end.

(** Identifiers separated by dots. *)
Inductive dotted : bytes -> Prop :=
  | dot_one w : ident w -> dotted w
  | dot_more w r : ident w -> dotted r -> dotted (w ++ "."%char :: r).

(** Characters of a string literal. *)
Definition lit_char (c : ascii) : Prop := c <> LF /\ c <> NUL /\ code c <> 34.

Inductive piece :=
  | PcWord (w : bytes)        (* identifier, keyword or qualified name *)
  | PcNum (ds : bytes)       (* decimal numeral *)
  | PcStr (s : bytes)        (* string literal, without the quotes *)
  | PcSym (c : ascii).       (* punctuation *)

Definition piece_ok (p : piece) : Prop :=
  match p with
  | PcWord w => dotted w
  | PcNum ds => ds <> [] /\ Forall pdigit ds
  | PcStr s => Forall lit_char s
  | PcSym c => In c (b "={};,<>[]")
  end.

Definition spelling (p : piece) : bytes :=
  match p with
  | PcWord w => w
  | PcNum ds => ds
  | PcStr s => [chr 34] ++ s ++ [chr 34]
  | PcSym c => [c]
  end.

(** What may follow a token immediately. *)
Definition may_follow (p : piece) (next : bytes) : Prop :=
  match p, next with
  | PcWord _, c :: _ => ~ pletter c /\ ~ pdigit c /\ code c <> 46
  | PcNum _, c :: _ => ~ pdigit c
  | _, _ => True
  end.

(** [laid ps text next]: [text], followed by [next], consists of the tokens [ps] with
    anything in between. *)
Inductive laid (stray : bool) : list piece -> bytes -> bytes -> Prop :=
  | laid_nil next : laid stray [] [] next
  | laid_cons p ps s text next :
      sep stray s -> piece_ok p -> may_follow p (text ++ next) -> laid stray ps text next ->
      laid stray (p :: ps) (s ++ spelling p ++ text) next.

(** ** Schemas *)

Inductive svalue :=
  | SBool (x : bool)
  | SIdent (w : bytes)
  | SInt (ds : bytes)
  | SStr (s : bytes).

Definition sopt : Type := bytes * svalue.

Inductive stype :=
  | SDouble | SFloat | SInt32 | SInt64 | SUint32 | SUint64 | SSint32 | SSint64
  | SFixed32 | SFixed64 | SSfixed32 | SSfixed64 | SBoolean | SString | SBytes
  | SMessage (name : bytes).

Inductive smod := SPlain | SRepeated | SOptional.

Record sfield := SField {
  sf_mod : smod; sf_type : stype; sf_name : bytes; sf_number : Z; sf_opts : list sopt
}.

Inductive sitem := SIField (f : sfield) | SIOption (o : sopt).

Inductive sdecl :=
  | SDSyntax
  | SDPackage (name : bytes)
  | SDOption (o : sopt)
  | SDMessage (name : bytes) (items : list sitem).

(** ** Their tokens *)

Definition type_word (t : stype) : bytes :=
  match t with
  | SDouble => b "double" | SFloat => b "float" | SInt32 => b "int32" | SInt64 => b "int64"
  | SUint32 => b "uint32" | SUint64 => b "uint64" | SSint32 => b "sint32" | SSint64 => b "sint64"
  | SFixed32 => b "fixed32" | SFixed64 => b "fixed64" | SSfixed32 => b "sfixed32"
  | SSfixed64 => b "sfixed64" | SBoolean => b "bool" | SString => b "string" | SBytes => b "bytes"
  | SMessage w => w
  end.

Definition value_pieces (v : svalue) : list piece :=
  match v with
  | SBool x => [PcWord (if x then b "true" else b "false")]
  | SIdent w => [PcWord w]
  | SInt ds => [PcNum ds]
  | SStr s => [PcStr s]
  end.

Definition opt_pieces (o : sopt) : list piece := [PcWord (fst o); PcSym "="] ++ value_pieces (snd o).

(** "[a = 1, b = 2]", nothing without options. *)
Fixpoint opts_pieces (l : list sopt) : list piece :=
  match l with
  | [] => []
  | [o] => opt_pieces o
  | o :: l' => opt_pieces o ++ [PcSym ","] ++ opts_pieces l'
  end.

Definition bracket_pieces (l : list sopt) : list piece :=
  match l with [] => [] | _ => [PcSym "["] ++ opts_pieces l ++ [PcSym "]"] end.

Definition mod_pieces (m : smod) : list piece :=
  match m with SPlain => [] | SRepeated => [PcWord (b "repeated")] | SOptional => [PcWord (b "optional")] end.

Definition field_pieces (f : sfield) : list piece :=
  mod_pieces (sf_mod f) ++ [PcWord (type_word (sf_type f)); PcWord (sf_name f); PcSym "="; PcNum (dec (sf_number f))]
  ++ bracket_pieces (sf_opts f) ++ [PcSym ";"].

Definition option_pieces (o : sopt) : list piece := [PcWord (b "option")] ++ opt_pieces o ++ [PcSym ";"].

Definition item_pieces (i : sitem) : list piece :=
  match i with SIField f => field_pieces f | SIOption o => option_pieces o end.

Definition message_head (name : bytes) (items : list sitem) : list piece :=
  [PcWord (b "message"); PcWord name; PcSym "{"] ++ flat_map item_pieces items.

Definition decl_pieces (d : sdecl) : list piece :=
  match d with
  | SDSyntax => [PcWord (b "syntax"); PcSym "="; PcStr (b "proto3"); PcSym ";"]
  | SDPackage w => [PcWord (b "package"); PcWord w; PcSym ";"]
  | SDOption o => option_pieces o
  | SDMessage name items => message_head name items ++ [PcSym "}"]
  end.

Definition schema_pieces (l : list sdecl) : list piece := flat_map decl_pieces l.

(** ** Well-formed schemas *)

Definition reserved_words : list bytes :=
  map b ["message"; "repeated"; "string"; "enum"; "double"; "float"; "bool"; "int32"; "int64";
         "uint32"; "uint64"; "sint32"; "sint64"; "fixed32"; "fixed64"; "sfixed32"; "sfixed64";
         "bytes"; "package"; "syntax"; "map"; "option"; "true"; "false"; "optional"]%string.

(** A name that is no keyword, and a possibly qualified one. *)
Definition plain_name (w : bytes) : Prop := ident w /\ ~ In w reserved_words.
Definition plain_dotted (w : bytes) : Prop := dotted w /\ ~ In w reserved_words.

(** Fields and messages may also be called "message" and "package". *)
Definition member_name (w : bytes) : Prop := plain_name w \/ w = b "message" \/ w = b "package".

Definition value_ok (v : svalue) : Prop :=
  match v with
  | SBool _ => True
  | SIdent w => plain_dotted w
  | SInt ds => ds <> [] /\ Forall pdigit ds
  | SStr s => Forall lit_char s
  end.

Definition opt_ok (o : sopt) : Prop := plain_dotted (fst o) /\ value_ok (snd o).

(** Numbers the compiler takes. *)
Definition number_ok (z : Z) : Prop := 0 < z < 536870911 /\ z <> 19000 /\ z <> 19999.

Definition type_ok (t : stype) : Prop := match t with SMessage w => plain_dotted w | _ => True end.

Definition field_ok (f : sfield) : Prop :=
  type_ok (sf_type f) /\ member_name (sf_name f) /\ number_ok (sf_number f) /\
  Forall opt_ok (sf_opts f).

Definition item_ok (i : sitem) : Prop :=
  match i with SIField f => field_ok f | SIOption o => opt_ok o end.

Definition item_fields (l : list sitem) : list sfield :=
  flat_map (fun i => match i with SIField f => [f] | SIOption _ => [] end) l.
Definition item_opts (l : list sitem) : list sopt :=
  flat_map (fun i => match i with SIOption o => [o] | SIField _ => [] end) l.

Definition decl_ok (d : sdecl) : Prop :=
  match d with
  | SDSyntax => True
  | SDPackage w => plain_dotted w
  | SDOption o => opt_ok o
  | SDMessage name items =>
      member_name name /\ Forall item_ok items /\ NoDup (map sf_number (item_fields items))
  end.

(** ** Their messages and options *)

Definition decl_opts (l : list sdecl) : list sopt :=
  flat_map (fun d => match d with SDOption o => [o] | _ => [] end) l.

(** Messages with the package in force where they are declared. *)
Fixpoint messages_of (pkg : bytes) (l : list sdecl) : list (bytes * bytes * list sitem) :=
  match l with
  | [] => []
  | SDPackage w :: l' => messages_of w l'
  | SDMessage name items :: l' => (pkg, name, items) :: messages_of pkg l'
  | _ :: l' => messages_of pkg l'
  end.

Definition full_name (pkg name : bytes) : bytes :=
  match pkg with [] => name | _ => pkg ++ "."%char :: name end.

(** [k] is the position of the first message called [q]. *)
Definition first_named (l : list (bytes * bytes * list sitem)) (q : bytes) (k : nat) : Prop :=
  (exists p n i, nth_error l k = Some (p, n, i) /\ full_name p n = q) /\
  forall j p n i, (j < k)%nat -> nth_error l j = Some (p, n, i) -> full_name p n <> q.

(** Every message type is declared somewhere in the file. *)
Definition resolved (l : list (bytes * bytes * list sitem)) : Prop :=
  forall pkg name items f w, In (pkg, name, items) l -> In f (item_fields items) ->
    sf_type f = SMessage w -> exists k, first_named l (full_name pkg w) k.

(** The value of the last option called [n]. *)
Fixpoint last_value (l : list sopt) (n : bytes) : option svalue :=
  match l with
  | [] => None
  | (m, v) :: l' =>
      match last_value l' n with
      | Some x => Some x
      | None => if bytes_eqb m n then Some v else None
      end
  end.

Definition same_options (l l' : list sopt) : Prop := forall n, last_value l n = last_value l' n.

Definition schema_ok (l : list sdecl) : Prop :=
  Forall decl_ok l /\ resolved (messages_of [] l).

(** ** Ends of files *)

(** What the compiler takes as the end of the file: white space and comments, a lone '/', a
    block comment without end, and a string literal cut by a line feed or a NUL with whatever
    follows it. *)
Inductive file_rest (next : bytes) : Prop :=
  | fr_sep : sep true next -> file_rest next
  | fr_slash sp : next = sp ++ ["/"%char] -> sep true sp -> file_rest next
  | fr_block sp body : next = sp ++ b "/*" ++ body -> sep true sp -> ~ occurs (b "*/") body -> file_rest next
  | fr_string sp w c rest : next = sp ++ chr 34 :: w ++ c :: rest -> sep true sp -> Forall lit_char w ->
      c = LF \/ c = NUL -> file_rest next.

(** A line comment without line feed, or a string literal without end. *)
Inductive endless (next : bytes) : Prop :=
  | el_line sp body : next = sp ++ b "//" ++ body -> sep true sp -> ~ In LF body -> endless next
  | el_string sp w : next = sp ++ chr 34 :: w -> sep true sp -> Forall lit_char w -> endless next.

(** ** The texts of the errors *)

Definition lexer_error (m : bytes) : Prop := m = b "Invalid symbol" \/ m = b "Invalid identifier".
Definition parser_errors : list bytes :=
  map b ["Invalid option value"; "Expected '='"; "Missing option name"; "Expected ']'"; "Missing field type";
         "Missing field name"; "Invalid field index"; "Expected ';'"; "Missing field index";
         "Missing message body"; "Invalid message"; "Invalid package"; "Invalid syntax";
         "Invalid language version"; "Unexpected token"]%string.
Definition parse_error (m : bytes) : Prop :=
  lexer_error m \/ In m parser_errors \/
  (exists x y, m = b "Field '" ++ x ++ b "' has the same index as '" ++ y ++ b "'") \/
  (exists q, m = b "Unable to find message '" ++ q ++ b "'").

