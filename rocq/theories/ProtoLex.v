(** The lexer of the .proto compiler: [InputStream] and [Tokenizer]
    (source/proto3.cc:180-483). *)
From Verif Require Import Bytes.

(** Outcome of a compiler function.  [PThrow]: a [protogen::exception] with its
    message, line and column (exception.hh, exception.cc:23-30).  [PRuntime]: the
    [std::runtime_error] of [InputStream::unget], which nobody catches.  [PFuel]:
    the fuel of a loop of the model is exhausted. *)
Inductive pres (A : Type) :=
  | POk (a : A)
  | PThrow (msg : bytes) (line col : Z)
  | PRuntime
  | PFuel.
Arguments POk {A}. Arguments PThrow {A}. Arguments PRuntime {A}. Arguments PFuel {A}.

Definition pbind {A B} (m : pres A) (k : A -> pres B) : pres B :=
  match m with
  | POk a => k a
  | PThrow e l c => PThrow e l c
  | PRuntime => PRuntime
  | PFuel => PFuel
  end.

Notation "'let!' p := m 'in' k" := (pbind m (fun p => k))
  (at level 200, p pattern, m at level 100, k at level 200, right associativity).

(** ** [InputStream] (proto3.cc:180-258).  [i_rest]: the characters between [cur_]
    and [end_]. *)
Record istate := IS {
  i_rest : bytes;
  i_last : Z;
  i_line : Z;
  i_col : Z;
  i_ungot : bool
}.

(** Constructor, proto3.cc:188-191. *)
Definition i_start (text : bytes) : istate := IS text (-1) 1 0 false.

(** [get], proto3.cc:198-220. *)
Definition i_get (s : istate) : Z * istate :=
  if i_ungot s then (i_last s, IS (i_rest s) (i_last s) (i_line s) (i_col s) false)
  else
    let ln := if i_last s =? 10 then i_line s + 1 else i_line s in
    let cl := if i_last s =? 10 then 0 else i_col s in
    match i_rest s with
    | [] => (-1, IS [] (-2) ln cl false)
    | c :: r => (code c, IS r (code c) ln (cl + 1) false)
    end.

(** [unget], proto3.cc:222-229. *)
Definition i_unget (s : istate) : pres istate :=
  if 0 <=? i_last s then
    if i_ungot s then PRuntime
    else POk (IS (i_rest s) (i_last s) (i_line s) (i_col s) true)
  else POk s.

(** ' ', '\t', '\n', '\r' (proto3.cc:241). *)
Definition ws_code (ch : Z) : bool := (ch =? 32) || (ch =? 9) || (ch =? 10) || (ch =? 13).

(** [skipws], proto3.cc:237-247. *)
Fixpoint i_skipws (n : nat) (s : istate) : pres istate :=
  match n with
  | O => PFuel
  | S n' =>
      let '(ch, s) := i_get s in
      if ws_code ch then i_skipws n' s else i_unget s
  end.

(** [expect], proto3.cc:249-257. *)
Definition i_expect (e : Z) (s : istate) : pres (bool * istate) :=
  let '(ch, s) := i_get s in
  if ch =? e then POk (true, s)
  else let! s := i_unget s in POk (false, s).

(** ** Tokens *)

(** [FieldType] (proto3.hh:29-47). *)
Inductive ftype :=
  | FDouble | FFloat | FInt32 | FInt64 | FUint32 | FUint64 | FSint32 | FSint64
  | FFixed32 | FFixed64 | FSfixed32 | FSfixed64 | FBool | FString | FBytes | FMessage.

(** Token codes (proto3.cc:30-70).  [KType f] is the code TOKEN_T_x, which has the
    same number as the field type; TOKEN_T_MESSAGE (21) is produced by no rule. *)
Inductive tcode :=
  | KEof | KMessage | KName | KEqual | KRepeated | KType (f : ftype) | KSyntax | KQName
  | KString | KInteger | KComment | KEnum | KScolon | KPackage | KLt | KGt | KMap | KComma
  | KBegin | KEnd | KOption | KTrue | KFalse | KLbracket | KRbracket | KOptional.

(** [Token] (proto3.cc:261-279). *)
Record token := Tok { t_code : tcode; t_value : bytes; t_line : Z; t_col : Z }.

(** [Token()]: the default arguments of the constructor (proto3.cc:267). *)
Definition token0 : token := Tok KEof [] 1 1.

(** KEYWORDS (proto3.cc:142-174), in order. *)
Definition keywords : list (bytes * tcode) :=
  [ (b "message", KMessage); (b "repeated", KRepeated); (b "string", KType FString);
    (b "enum", KEnum); (b "double", KType FDouble); (b "float", KType FFloat);
    (b "bool", KType FBool); (b "int32", KType FInt32); (b "int64", KType FInt64);
    (b "uint32", KType FUint32); (b "uint64", KType FUint64); (b "sint32", KType FSint32);
    (b "sint64", KType FSint64); (b "fixed32", KType FFixed32); (b "fixed64", KType FFixed64);
    (b "sfixed32", KType FSfixed32); (b "sfixed64", KType FSfixed64); (b "bytes", KType FBytes);
    (b "package", KPackage); (b "syntax", KSyntax); (b "map", KMap); (b "option", KOption);
    (b "true", KTrue); (b "false", KFalse); (b "optional", KOptional) ].

(** The loop at proto3.cc:422-429: the code of the first keyword equal to the name,
    TOKEN_NAME if there is none. *)
Fixpoint keyword (l : list (bytes * tcode)) (name : bytes) : tcode :=
  match l with
  | [] => KName
  | (k, c) :: l' => if bytes_eqb name k then c else keyword l' name
  end.

(** IS_LETTER, IS_DIGIT, IS_LETTER_OR_DIGIT (proto3.cc:22-24). *)
Definition letter_code (x : Z) : bool :=
  ((65 <=? x) && (x <=? 90)) || ((97 <=? x) && (x <=? 122)) || (x =? 95).
Definition digit_code (x : Z) : bool := (48 <=? x) && (x <=? 57).
Definition word_code (x : Z) : bool := letter_code x || digit_code x.

(** ** [Tokenizer] rules *)

(** [name], proto3.cc:435-448; [acc] is [temp] in reverse, [first] is true while it
    is empty. *)
Fixpoint t_name (n : nat) (first : bool) (acc : bytes) (s : istate) : pres (bytes * istate) :=
  match n with
  | O => PFuel
  | S n' =>
      let '(cur, s) := i_get s in
      if cur <? 0 then let! s := i_unget s in POk (rev acc, s)
      else if (first && negb (letter_code cur)) || negb (word_code cur)
      then let! s := i_unget s in POk (rev acc, s)
      else t_name n' false (chr cur :: acc) s
  end.

(** The loop of [qname], proto3.cc:408-417: result, whether a '.' was found. *)
Fixpoint t_qname_loop (F n : nat) (line col : Z) (q : bool) (name : bytes) (s : istate)
  : pres (bool * bytes * istate) :=
  match n with
  | O => PFuel
  | S n' =>
      let '(ch, s) := i_get s in
      if ch =? 46 then
        let! (cur, s) := t_name F true [] s in
        match cur with
        | [] => PThrow (b "Invalid identifier") line col
        | _ => t_qname_loop F n' line col true (name ++ "."%char :: cur) s
        end
      else let! s := i_unget s in POk (q, name, s)
  end.

(** [qname], proto3.cc:403-433. *)
Definition t_qname (F : nat) (line col : Z) (s : istate) : pres (token * istate) :=
  let! (name, s) := t_name F true [] s in
  let! (q, name, s) := t_qname_loop F F line col false name s in
  POk (Tok (if q then KQName else keyword keywords name) name line col, s).

(** [integer], proto3.cc:450-467; [acc] is the value in reverse. *)
Fixpoint t_integer (n : nat) (line col : Z) (acc : bytes) (s : istate) : pres (token * istate) :=
  match n with
  | O => PFuel
  | S n' =>
      let '(cur, s) := i_get s in
      if digit_code cur then t_integer n' line col (chr cur :: acc) s
      else let! s := i_unget s in POk (Tok KInteger (rev acc) line col, s)
  end.

(** [literalString], proto3.cc:469-482.  At the end of the file [get] returns -1,
    which is appended as a character, for ever. *)
Fixpoint t_string (n : nat) (line col : Z) (acc : bytes) (s : istate) : pres (token * istate) :=
  match n with
  | O => PFuel
  | S n' =>
      let '(cur, s) := i_get s in
      if (cur =? 10) || (cur =? 0) then POk (token0, s)
      else if cur =? 34 then POk (Tok KString (rev acc) line col, s)
      else t_string n' line col (chr cur :: acc) s
  end.

(** [comment], proto3.cc:378-401.  The token it returns is discarded by the caller
    (proto3.cc:330), so only the stream is kept. *)
Fixpoint t_line_comment (n : nat) (s : istate) : pres istate :=
  match n with
  | O => PFuel
  | S n' => let '(cur, s) := i_get s in if cur =? 10 then POk s else t_line_comment n' s
  end.

Fixpoint t_block_comment (n : nat) (s : istate) : pres istate :=
  match n with
  | O => PFuel
  | S n' =>
      let '(cur, s) := i_get s in
      if cur =? 42 then
        let! (x, s) := i_expect 47 s in
        if x then POk s else t_block_comment n' s
      else if cur <? 0 then POk s
      else t_block_comment n' s
  end.

Definition t_comment (F : nat) (s : istate) : pres istate :=
  let '(cur, s) := i_get s in
  if cur =? 47 then t_line_comment F s
  else if cur =? 42 then t_block_comment F s
  else POk s.

(** Single character tokens (proto3.cc:340-365). *)
Definition punct_code (cur : Z) : option tcode :=
  if cur =? 61 then Some KEqual
  else if cur =? 123 then Some KBegin
  else if cur =? 125 then Some KEnd
  else if cur =? 59 then Some KScolon
  else if cur =? 44 then Some KComma
  else if cur =? 60 then Some KLt
  else if cur =? 62 then Some KGt
  else if cur =? 91 then Some KLbracket
  else if cur =? 93 then Some KRbracket
  else None.

(** [next] without the [ungot] branch (proto3.cc:299-373), which is in
    [ProtoParse.p_next]: [F] is the fuel of the loops inside, [n] the fuel of the
    loop over comments.  The branch for '\n' and '\r' (proto3.cc:334) is dead since
    [skipws] has consumed those characters, but kept. *)
Fixpoint t_next (F n : nat) (s : istate) : pres (token * istate) :=
  match n with
  | O => PFuel
  | S n' =>
      let! s := i_skipws F s in
      let line := i_line s in
      let col := i_col s in
      let '(cur, s) := i_get s in
      if cur <? 0 then POk (Tok KEof [] line col, s)
      else if letter_code cur then
        let! s := i_unget s in t_qname F line col s
      else if digit_code cur then t_integer F line col [chr cur] s
      else if cur =? 47 then let! s := t_comment F s in t_next F n' s
      else if (cur =? 10) || (cur =? 13) then t_next F n' s
      else if cur =? 34 then t_string F line col [] s
      else match punct_code cur with
           | Some k => POk (Tok k [] line col, s)
           | None => PThrow (b "Invalid symbol") line col
           end
  end.
