(** Several generated headers in one translation unit: conditional inclusion on the text, and
    what the classes of one header mean after those of another. *)
From Verif Require Import Bytes Num Types Template Cpp.

(** ** Translation phases 1 to 3 (C++11 2.2): trigraphs, spliced lines, comments *)

Definition logical_lines (text : bytes) : list bytes := getlines [] (splice (trigraphs 0 text)).

(** Where the text is: in the code, after a slash, in a comment to the end of the line, in a
    comment between /* and */ (after a star), in a literal, after a backslash in a literal.
    Raw string literals are not modelled: the generator prints none (code.txt, cppgen.cc). *)
Inductive lex := XText | XSlash | XLine | XBlock | XStar | XQuote (q : ascii) | XEscape (q : ascii).

Definition lex_text (c : ascii) : bytes * lex :=
  if Ascii.eqb c "/" then ([], XSlash)
  else if Ascii.eqb c """" || Ascii.eqb c "'" then ([c], XQuote c)
  else ([c], XText).

(** The characters that remain.  A comment becomes a space. *)
Definition lex_step (st : lex) (c : ascii) : bytes * lex :=
  match st with
  | XText => lex_text c
  | XSlash => if Ascii.eqb c "/" then ([" "%char], XLine)
              else if Ascii.eqb c "*" then ([" "%char], XBlock)
              else let '(o, st') := lex_text c in ("/"%char :: o, st')
  | XLine => ([], XLine)
  | XBlock => ([], if Ascii.eqb c "*" then XStar else XBlock)
  | XStar => ([], if Ascii.eqb c "/" then XText else if Ascii.eqb c "*" then XStar else XBlock)
  | XQuote q => ([c], if Ascii.eqb c "\" then XEscape q else if Ascii.eqb c q then XText else XQuote q)
  | XEscape q => ([c], XQuote q)
  end.

Fixpoint lex_run (st : lex) (s : bytes) : bytes * lex :=
  match s with
  | [] => ([], st)
  | c :: r => let '(o, st1) := lex_step st c in let '(o', st2) := lex_run st1 r in (o ++ o', st2)
  end.

(** The end of a line ends a comment of that kind; a literal must not reach it. *)
Definition lex_line (st : lex) (line : bytes) : option (bytes * lex) :=
  let '(o, st') := lex_run st line in
  match st' with
  | XText | XLine => Some (o, XText)
  | XSlash => Some (o ++ b "/", XText)
  | XBlock | XStar => Some (o, XBlock)
  | XQuote _ | XEscape _ => None
  end.

(** ** Phase 4: conditional inclusion (C++11 16.1) *)

Definition blank (c : ascii) : bool := Ascii.eqb c " " || Ascii.eqb c "009".
Definition past_blanks (s : bytes) : bytes := snd (span blank s).
Definition idchar (c : ascii) : bool :=
  let z := code c in
  (65 <=? z) && (z <=? 90) || (97 <=? z) && (z <=? 122) || (48 <=? z) && (z <=? 57) || (z =? 95).

(** A directive: its name and what follows. *)
Definition directive (line : bytes) : option (bytes * bytes) :=
  match past_blanks line with
  | c :: r => if Ascii.eqb c "#" then let '(w, rest) := span idchar (past_blanks r) in Some (w, past_blanks rest) else None
  | [] => None
  end.
Definition operand (rest : bytes) : bytes := fst (span idchar rest).

(** Macros are only names here; nothing is replaced.  [p_open]: for each conditional that is
    open, innermost first, whether its current group is processed. *)
Record pstate := PS { p_lex : lex; p_macros : list bytes; p_open : list bool }.

Definition processing (s : pstate) : bool := forallb (fun x => x) (p_open s).
Definition is_defined (l : list bytes) (w : bytes) : bool := existsb (bytes_eqb w) l.

(** A line of code or a directive that is none of these is kept, without comments; an empty
    one is not.  [ev]: the value of the condition of an #if, given the macros (16.1
    paragraph 4 is not modelled).  [None]: #else or #endif without #if, a literal that is not
    closed, or #elif, which is not modelled (no header of the project has one).  A comment over
    several lines separates them, and a directive after it on its last line is not one. *)
Definition pp_line (ev : list bytes -> bytes -> bool) (s : pstate) (line : bytes) : option (list bytes * pstate) :=
  match lex_line (p_lex s) line with
  | None => None
  | Some (code, lx) =>
      let keep := if processing s && negb (forallb blank code) then [code] else [] in
      match (match p_lex s with XText => directive code | _ => None end) with
      | None => Some (keep, PS lx (p_macros s) (p_open s))
      | Some (d, rest) =>
          let opened x := Some ([], PS lx (p_macros s) (x :: p_open s)) in
          if bytes_eqb d (b "ifndef") then opened (negb (is_defined (p_macros s) (operand rest)))
          else if bytes_eqb d (b "ifdef") then opened (is_defined (p_macros s) (operand rest))
          else if bytes_eqb d (b "if") then opened (ev (p_macros s) rest)
          else if bytes_eqb d (b "elif") then None
          else if bytes_eqb d (b "else") then
            match p_open s with x :: r => Some ([], PS lx (p_macros s) (negb x :: r)) | [] => None end
          else if bytes_eqb d (b "endif") then
            match p_open s with _ :: r => Some ([], PS lx (p_macros s) r) | [] => None end
          else if bytes_eqb d (b "define") then
            Some ([], PS lx (if processing s then operand rest :: p_macros s else p_macros s) (p_open s))
          else if bytes_eqb d (b "undef") then
            Some ([], PS lx (if processing s then filter (fun w => negb (bytes_eqb w (operand rest))) (p_macros s) else p_macros s) (p_open s))
          else Some (keep, PS lx (p_macros s) (p_open s))
      end
  end.

Fixpoint pp_lines (ev : list bytes -> bytes -> bool) (s : pstate) (l : list bytes) : option (list bytes * pstate) :=
  match l with
  | [] => Some ([], s)
  | x :: r => match pp_line ev s x with
              | Some (o, s') => option_map (fun r => (o ++ fst r, snd r)) (pp_lines ev s' r)
              | None => None
              end
  end.

(** The lines that remain of a text and the macros after it; [None] also if a comment or a
    conditional is not closed.  A text that is included is inserted (16.2): several headers
    are the text of one after the text of the other. *)
Definition preprocess (ev : list bytes -> bytes -> bool) (macros : list bytes) (text : bytes) : option (list bytes * list bytes) :=
  match pp_lines ev (PS XText macros []) (logical_lines text) with
  | Some (out, PS XText m []) => Some (out, m)
  | _ => None
  end.

(** ** The classes *)

(** A header as Gen.v describes it: the guard around its classes (cppgen.cc:578-590), the
    serializers, each with a guard of its own (cppgen.cc:565-575), and the classes. *)
Record gheader := GH { gh_guard : bytes; gh_headers : headers; gh_classes : list cls }.

Definition either (h k : headers) : headers :=
  Hdr (h_array h || h_array k) (h_base64 h || h_base64 k) (h_number h || h_number k) (h_string h || h_string k).

(** The functions of a class name json<std::vector<uint8_t>> and so instantiate it (C++11
    14.7.1), from json-array.hh:35-36 if there is nothing better. *)
Definition bytes_member (m : ctype * bytes) : bool :=
  match fst m with CSeq false e => is_uint8 e | _ => false end.
Definition instantiates (h : headers) (l : list cls) : bool :=
  negb (h_base64 h) && existsb (fun c => existsb bytes_member (c_members c)) l.

(** So far: guards, serializers, whether json<std::vector<uint8_t>> is the one of
    json-array.hh, classes and their types. *)
Record ustate := US { u_guards : list bytes; u_headers : headers; u_array : bool; u_classes : list cls; u_env : cenv }.

(** A further header.  json-base64.hh:11-12 specializes json<std::vector<uint8_t>>, which is
    an error after it was instantiated (14.7.3 paragraph 6).  If the guard is defined the
    classes are not there. *)
Definition include_header (s : ustate) (g : gheader) : option ustate :=
  let h := either (u_headers s) (gh_headers g) in
  if u_array s && h_base64 h then None
  else if is_defined (u_guards s) (gh_guard g) then Some (US (u_guards s) h (u_array s) (u_classes s) (u_env s))
  else match classes_ty h (u_env s) (gh_classes g) with
       | Some env => Some (US (gh_guard g :: u_guards s) h (u_array s || instantiates h (gh_classes g)) (u_classes s ++ gh_classes g) env)
       | None => None
       end.

Fixpoint include_all (s : ustate) (l : list gheader) : option ustate :=
  match l with
  | [] => Some s
  | g :: r => match include_header s g with Some s' => include_all s' r | None => None end
  end.

(** The classes of a translation unit.  [None]: does not compile, or not determined here. *)
Definition unit_ty (l : list gheader) : option cenv :=
  match include_all (US [] (Hdr false false false false) false [] []) l with
  | Some s => if names_ok (u_classes s) then Some (u_env s) else None
  | None => None
  end.
