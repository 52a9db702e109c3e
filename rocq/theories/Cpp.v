(** The part of C++ (ISO/IEC 14882:2011) that gives a meaning to the text produced by the
    compiler and by the template tool: string literals, macros made of string literals, and
    the classes of the generated code. *)
From Verif Require Import Bytes Num Types Read Template.

(** ** String literals *)

(** Trigraphs ([lex.trigraph]); the project compiles with -std=c++11 (CMakeLists.txt:20). *)
Definition trigraph (c : ascii) : option ascii :=
  if Ascii.eqb c "=" then Some "#"%char else if Ascii.eqb c "/" then Some "\"%char
  else if Ascii.eqb c "'" then Some "^"%char else if Ascii.eqb c "(" then Some "["%char
  else if Ascii.eqb c ")" then Some "]"%char else if Ascii.eqb c "!" then Some "|"%char
  else if Ascii.eqb c "<" then Some "{"%char else if Ascii.eqb c ">" then Some "}"%char
  else if Ascii.eqb c "-" then Some "~"%char else None.

(** [q]: the number of question marks just read and not yet printed, at most two. *)
Fixpoint trigraphs (q : nat) (s : bytes) : bytes :=
  match s with
  | [] => repeat "?"%char q
  | c :: r =>
      if Ascii.eqb c "?" then
        match q with
        | 2 => "?"%char :: trigraphs 2 r
        | _ => trigraphs (S q) r
        end%nat
      else match q, trigraph c with
           | 2%nat, Some d => d :: trigraphs 0 r
           | _, _ => repeat "?"%char q ++ c :: trigraphs 0 r
           end
  end.

(** Where the evaluation of a literal is ([lex.ccon], [lex.string]): after a character,
    after a backslash, in an octal escape of [n] digits, in a hexadecimal escape, in a
    universal character name of which [n] digits are missing. *)
Inductive lstate := LText | LEsc | LOct (n : nat) (v : Z) | LHex (some : bool) (v : Z) | LUcn (n : nat) (v : Z).

Definition simple_escape (c : ascii) : option ascii :=
  if Ascii.eqb c "'" then Some c else if Ascii.eqb c """" then Some c
  else if Ascii.eqb c "?" then Some c else if Ascii.eqb c "\" then Some c
  else if Ascii.eqb c "a" then Some "007"%char else if Ascii.eqb c "b" then Some "008"%char
  else if Ascii.eqb c "f" then Some "012"%char else if Ascii.eqb c "n" then Some "010"%char
  else if Ascii.eqb c "r" then Some "013"%char else if Ascii.eqb c "t" then Some "009"%char
  else if Ascii.eqb c "v" then Some "011"%char else None.

Definition hex_digit (c : ascii) : option Z :=
  let z := code c in
  if (48 <=? z) && (z <=? 57) then Some (z - 48)
  else if (65 <=? z) && (z <=? 70) then Some (z - 55)
  else if (97 <=? z) && (z <=? 102) then Some (z - 87)
  else None.
Definition oct_digit (c : ascii) : option Z :=
  let z := code c in if (48 <=? z) && (z <=? 55) then Some (z - 48) else None.

(** The character of a numeric escape; one that does not fit is an error. *)
Definition flush (v : Z) : option bytes := if v <? 256 then Some [chr v] else None.

(** A character that is not part of an escape.  A quote or a line feed cannot be in a literal. *)
Definition text_step (c : ascii) : option (bytes * lstate) :=
  if Ascii.eqb c """" || Ascii.eqb c LF then None
  else if Ascii.eqb c "\" then Some ([], LEsc) else Some ([c], LText).

(** The character of a universal character name ([lex.charset]/2: not a surrogate) in the
    execution character set, taken to be UTF-8. *)
Definition ucn (v : Z) : option bytes :=
  if v <? 128 then Some [chr v]
  else if v <? 2048 then Some [chr (192 + Z.shiftr v 6); chr (128 + Z.land v 63)]
  else if (55296 <=? v) && (v <=? 57343) then None
  else if v <? 65536 then Some [chr (224 + Z.shiftr v 12); chr (128 + Z.land (Z.shiftr v 6) 63); chr (128 + Z.land v 63)]
  else if v <? 1114112 then
    Some [chr (240 + Z.shiftr v 18); chr (128 + Z.land (Z.shiftr v 12) 63); chr (128 + Z.land (Z.shiftr v 6) 63); chr (128 + Z.land v 63)]
  else None.

(** Other escapes are conditionally supported ([lex.ccon]/3) and not evaluated: [None]. *)
Definition lit_step (st : lstate) (c : ascii) : option (bytes * lstate) :=
  let after v := match flush v, text_step c with
                 | Some x, Some (y, st') => Some (x ++ y, st')
                 | _, _ => None
                 end in
  match st with
  | LText => text_step c
  | LEsc =>
      match simple_escape c, oct_digit c with
      | Some d, _ => Some ([d], LText)
      | None, Some d => Some ([], LOct 1 d)
      | None, None => if Ascii.eqb c "x" then Some ([], LHex false 0)
                      else if Ascii.eqb c "u" then Some ([], LUcn 4 0)
                      else if Ascii.eqb c "U" then Some ([], LUcn 8 0) else None
      end
  | LOct n v =>
      match oct_digit c with
      | Some d => if (n <? 3)%nat then Some ([], LOct (S n) (8 * v + d)) else after v
      | None => after v
      end
  | LHex some v =>
      match hex_digit c with
      | Some d => Some ([], LHex true (16 * v + d))
      | None => if some then after v else None
      end
  | LUcn n v =>
      match hex_digit c with
      | Some d => match n with
                  | 1%nat => option_map (fun x => (x, LText)) (ucn (16 * v + d))
                  | _ => Some ([], LUcn (Nat.pred n) (16 * v + d))
                  end
      | None => None
      end
  end.

Definition lit_end (st : lstate) : option bytes :=
  match st with
  | LText => Some []
  | LEsc => None
  | LOct _ v => flush v
  | LHex some v => if some then flush v else None
  | LUcn _ _ => None
  end.

Fixpoint lit_go (st : lstate) (s : bytes) : option bytes :=
  match s with
  | [] => lit_end st
  | c :: r => match lit_step st c with
              | Some (x, st') => option_map (app x) (lit_go st' r)
              | None => None
              end
  end.

(** The characters of the literal ["s"]; [None]: ill-formed or not evaluated. *)
Definition cpp_lit (s : bytes) : option bytes := lit_go LText (trigraphs 0 s).

(** The [std::string] made from that literal through [const char *]. *)
Definition lit_string (s : bytes) : option bytes := option_map cstr (cpp_lit s).

(** ** Macros *)

(** Line splicing ([lex.phases], phase 2): a backslash before a line feed joins two lines. *)
Fixpoint splice (s : bytes) : bytes :=
  match s with
  | [] => []
  | c :: r => match r with
              | d :: r' => if Ascii.eqb c "\" && Ascii.eqb d LF then splice r' else c :: splice r
              | [] => [c]
              end
  end.

(** A sequence of string literals separated by spaces, concatenated (phases 5 and 6).
    [None] state: between literals. *)
Fixpoint literals (st : option lstate) (s : bytes) : option bytes :=
  match s with
  | [] => match st with None => Some [] | Some _ => None end
  | c :: r =>
      match st with
      | None => if Ascii.eqb c " " then literals None r
                else if Ascii.eqb c """" then literals (Some LText) r else None
      | Some l =>
          if Ascii.eqb c """" && match l with LEsc => false | _ => true end then
            match lit_end l, literals None r with
            | Some x, Some y => Some (x ++ y)
            | _, _ => None
            end
          else match lit_step l c with
               | Some (x, l') => option_map (app x) (literals (Some l') r)
               | None => None
               end
      end
  end.

(** [#define NAME literals]: the name and the value of the body as one string literal. *)
Definition define_line (line : bytes) : option (bytes * option bytes) :=
  if prefixb (b "#define ") line then
    let '(name, body) := span (fun c => negb (Ascii.eqb c " ")) (skipn 8 line) in
    Some (name, literals None body)
  else None.

(** The macros of a file. *)
Definition defines (text : bytes) : list (bytes * option bytes) :=
  flat_map (fun l => match define_line l with Some d => [d] | None => [] end)
           (getlines [] (splice (trigraphs 0 text))).

(** ** The generated classes *)

(** Types of the members, as cppgen.cc:122-167 spells them. *)
Inductive celem := EPrim (p : prim) | EStr | EMsg (pkg name : bytes).
Inductive ctype :=
  | CField (p : prim)                     (* protogen_X_Y_Z::field<T> *)
  | CElem (e : celem)                     (* string_field or a message *)
  | CSeq (lists : bool) (e : celem).      (* std::list<T> or std::vector<T> *)

(** The label printed by an item of [write] (cppgen.cc:303-307): the text between the
    quotes of a literal, and whether [reveal] is applied to it. *)
Inductive label := Label (rev : bool) (lit : bytes).

(** The structure [c_name]_type in namespace [c_pkg] (cppgen.cc:190-205) and the functions
    of its specialization of [json] (cppgen.cc:426-449): the members that each one names. *)
Record cls := Cls {
  c_pkg : bytes;
  c_name : bytes;
  c_members : list (ctype * bytes);
  c_cases : list (Z * bytes);             (* read_field: case label and member *)
  c_write : list (bytes * label);         (* write: member and label *)
  c_empty : list bytes;
  c_clear : list bytes;
  c_equal : list bytes;
  c_swap : list bytes;
  c_obf : bool;                           (* index calls reveal *)
  c_index : list (bytes * Z)              (* index: text of the literal and value *)
}.

(** Which serializers the generated header contains (cppgen.cc:565-575). *)
Record headers := Hdr { h_array : bool; h_base64 : bool; h_number : bool; h_string : bool }.

(** ** Their meaning: the types and tables interpreted by the runtime model *)

(** C++11 keywords and alternative tokens. *)
Definition cpp_keywords : list bytes := map b
  ["alignas"; "alignof"; "and"; "and_eq"; "asm"; "auto"; "bitand"; "bitor"; "bool"; "break"; "case"; "catch";
   "char"; "char16_t"; "char32_t"; "class"; "compl"; "const"; "const_cast"; "constexpr"; "continue"; "decltype";
   "default"; "delete"; "do"; "double"; "dynamic_cast"; "else"; "enum"; "explicit"; "export"; "extern"; "false";
   "float"; "for"; "friend"; "goto"; "if"; "inline"; "int"; "long"; "mutable"; "namespace"; "new"; "noexcept";
   "not"; "not_eq"; "nullptr"; "operator"; "or"; "or_eq"; "private"; "protected"; "public"; "register";
   "reinterpret_cast"; "return"; "short"; "signed"; "sizeof"; "static"; "static_assert"; "static_cast"; "struct";
   "switch"; "template"; "this"; "thread_local"; "throw"; "true"; "try"; "typedef"; "typeid"; "typename"; "union";
   "unsigned"; "using"; "virtual"; "void"; "volatile"; "wchar_t"; "while"; "xor"; "xor_eq"]%string.

Definition is_keyword (w : bytes) : bool := existsb (bytes_eqb w) cpp_keywords.

Fixpoint nodupb (l : list bytes) : bool :=
  match l with [] => true | x :: r => negb (existsb (bytes_eqb x) r) && nodupb r end.

(** Classes declared so far. *)
Definition cenv := list (bytes * bytes * ty).

Fixpoint env_find (env : cenv) (pkg name : bytes) : option ty :=
  match env with
  | [] => None
  | (p, n, t) :: r => if bytes_eqb p pkg && bytes_eqb n name then Some t else env_find r pkg name
  end.

(** [json<T>] of an element needs the header that specializes it: json-number.hh:142-189,
    json-string.hh:154, json.hh:106-119. *)
Definition elem_ty (h : headers) (env : cenv) (e : celem) : option ty :=
  match e with
  | EPrim p => if h_number h then Some (TPrim p) else None
  | EStr => if h_string h then Some TStr else None
  | EMsg pkg name => env_find env pkg name
  end.

Definition is_uint8 (e : celem) : bool :=
  match e with EPrim (PInt false 8) => true | _ => false end.

(** [json<std::vector<uint8_t>>] is the Base64 serializer when its header is there
    (json-base64.hh:11-12); otherwise, like any container, the one of json-array.hh:35-36. *)
Definition member_ty (h : headers) (env : cenv) (t : ctype) : option ty :=
  match t with
  | CField p => if h_number h then Some (TField p) else None
  | CElem (EPrim _) => None
  | CElem e => elem_ty h env e
  | CSeq lists e =>
      if is_uint8 e && negb lists && h_base64 h then Some TB64
      else if h_array h then option_map TRep (elem_ty h env e) else None
  end.

Fixpoint all_some {A} (l : list (option A)) : option (list A) :=
  match l with
  | [] => Some []
  | Some x :: r => option_map (cons x) (all_some r)
  | None :: _ => None
  end.

(** Position of a member. *)
Fixpoint member_pos (l : list bytes) (name : bytes) : option nat :=
  match l with
  | [] => None
  | x :: r => if bytes_eqb x name then Some O else option_map S (member_pos r name)
  end.

Definition label_value (l : label) : option bytes :=
  let '(Label rv lit) := l in
  option_map (fun s => if rv then reveal s else s) (lit_string lit).

(** The runtime type of a class.  [None]: does not compile, or not determined here. *)
Definition class_ty (h : headers) (env : cenv) (c : cls) : option ty :=
  let names := map snd (c_members c) in
  if existsb is_keyword names || is_keyword (c_name c) || negb (nodupb names) then None
  else if negb (forallb (fun l => if list_eq_dec (list_eq_dec ascii_dec) l names then true else false)
                        [c_empty c; c_clear c; c_equal c; c_swap c]) then None
  else
    match all_some (map (fun m => member_ty h env (fst m)) (c_members c)),
          all_some (map (fun x => match member_pos names (fst x), label_value (snd x) with
                                  | Some k, Some s => Some (k, s)
                                  | _, _ => None
                                  end) (c_write c)),
          all_some (map (fun x => option_map (fun s => (s, snd x)) (lit_string (fst x))) (c_index c)),
          all_some (map (fun x => option_map (fun k => (fst x, k)) (member_pos names (snd x))) (c_cases c))
    with
    | Some ms, Some w, Some i, Some cs => Some (TMsg ms (GC w (c_obf c) i cs))
    | _, _, _, _ => None
    end.

(** The components of a package (cppgen.cc:173-187). *)
Fixpoint components (acc p : bytes) : list bytes :=
  match p with
  | [] => [rev acc]
  | c :: r => if Ascii.eqb c "." then rev acc :: components [] r else components (c :: acc) r
  end.

(** Names declared by a class: the structures [name]_type and [name], and the namespaces
    around them.  A structure may be declared once, and not be a namespace as well. *)
Definition in_pkg (pkg name : bytes) : bytes := match pkg with [] => name | _ => pkg ++ "."%char :: name end.
Definition struct_names (c : cls) : list bytes :=
  [in_pkg (c_pkg c) (c_name c ++ b "_type"); in_pkg (c_pkg c) (c_name c)].
Fixpoint prefixes (acc p : bytes) : list bytes :=
  match p with
  | [] => [rev acc]
  | c :: r => if Ascii.eqb c "." then rev acc :: prefixes (c :: acc) r else prefixes (c :: acc) r
  end.
Definition namespaces (c : cls) : list bytes := match c_pkg c with [] => [] | p => prefixes [] p end.

Definition names_ok (l : list cls) : bool :=
  let structs := flat_map struct_names l in
  nodupb structs &&
  forallb (fun n => negb (existsb (bytes_eqb n) structs)) (flat_map namespaces l) &&
  forallb (fun c => match c_pkg c with [] => true | p => negb (existsb is_keyword (components [] p)) end) l.

(** The classes in the order of the header: a member of message type needs the class before. *)
Fixpoint classes_ty (h : headers) (env : cenv) (l : list cls) : option cenv :=
  match l with
  | [] => Some env
  | c :: r => match class_ty h env c with
              | Some t => classes_ty h (env ++ [(c_pkg c, c_name c, t)]) r
              | None => None
              end
  end.

Definition program_ty (h : headers) (l : list cls) : option cenv :=
  if names_ok l then classes_ty h [] l else None.
