(** The tool that embeds the runtime headers and the templates in the compiler
    (source/template.cc). *)
From Verif Require Import Bytes.

(** ** Lines *)

(** The lines that [std::getline] returns with a good stream (template.cc:10-14, 49-52):
    those that end with a line feed.  The text after the last line feed sets eofbit, so
    [input.good()] is false and the loop is left: it is dropped. *)
Fixpoint getlines (acc text : bytes) : list bytes :=
  match text with
  | [] => []
  | c :: r => if Ascii.eqb c LF then rev acc :: getlines [] r else getlines (c :: acc) r
  end.

(** A file made of lines. *)
Definition text_of (l : list bytes) : bytes := concat (map (fun x => x ++ [LF]) l).

(** ** Searching *)

Fixpoint prefixb (p s : bytes) : bool :=
  match p, s with
  | [], _ => true
  | x :: p', y :: s' => Ascii.eqb x y && prefixb p' s'
  | _, [] => false
  end.

(** [s.find(p)]: the text before the first occurrence and the text after it. *)
Fixpoint find_split (p s : bytes) : option (bytes * bytes) :=
  if prefixb p s then Some ([], skipn (length p) s)
  else match s with
       | [] => None
       | c :: r => match find_split p r with
                   | Some (u, v) => Some (c :: u, v)
                   | None => None
                   end
       end.

(** ** [copy] (template.cc:6-39) *)

(** The loop of lines 19-23 replaces the first occurrence of "_X_Y_Z" until there is none.
    [None]: not finished after [n] replacements. *)
Fixpoint replace_all (n : nat) (naming line : bytes) : option bytes :=
  match find_split (b "_X_Y_Z") line with
  | None => Some line
  | Some (u, v) => match n with
                   | O => None
                   | S n' => replace_all n' naming (u ++ naming ++ v)
                   end
  end.

(** Lines 26-35 and 70-79. *)
Definition escape_char (c : ascii) : bytes :=
  if Ascii.eqb c """" then b "\""" else if Ascii.eqb c "\" then b "\\" else [c].
Definition escape (line : bytes) : bytes := concat (map escape_char line).

(** Lines 25, 36 and 69, 80: the text of one line of a macro. *)
Definition literal_line (line : bytes) : bytes := b "    """ ++ escape line ++ b "\n"" \" ++ [LF].

(** Line 16. *)
Definition removed (line : bytes) : bool :=
  match line with
  | c :: _ => Ascii.eqb c "#" && match find_split (b "AUTO-REMOVE") line with Some _ => true | None => false end
  | [] => false
  end.

Fixpoint copy_lines (n : nat) (naming : bytes) (l : list bytes) : option bytes :=
  match l with
  | [] => Some []
  | line :: r =>
      if removed line then copy_lines n naming r
      else match replace_all n naming line, copy_lines n naming r with
           | Some x, Some t => Some (literal_line x ++ t)
           | _, _ => None
           end
  end.

(** [copy], with at most [n] replacements in a line. *)
Definition copy (n : nat) (naming input name : bytes) : option bytes :=
  option_map (fun t => b "#define " ++ name ++ b " \" ++ [LF] ++ t ++ b "    ""\n""" ++ [LF])
             (copy_lines n naming (getlines [] input)).

(** ** [process] (template.cc:41-85) *)

(** [content] is the flag of line 44. *)
Fixpoint process_lines (content : bool) (l : list bytes) : bytes :=
  match l with
  | [] => []
  | line :: r =>
      if content then
        if prefixb (b "------") line then LF :: process_lines false r
        else literal_line line ++ process_lines true r
      else if prefixb (b "--- ") line
           then b "#define " ++ skipn 4 line ++ b " \" ++ [LF] ++ process_lines true r
           else process_lines false r
  end.

Definition process (input guard : bytes) : bytes :=
  b "#ifndef " ++ guard ++ [LF] ++ b "#define " ++ guard ++ [LF] ++
  process_lines false (getlines [] input) ++ b "#endif // " ++ guard ++ [LF].

(** ** [main] (template.cc:93-124) *)

(** C [isalpha] in the "C" locale. *)
Definition is_alpha (c : ascii) : bool :=
  ((65 <=? code c) && (code c <=? 90)) || ((97 <=? code c) && (code c <=? 122)).

(** The name of the macro (lines 104-115; '/' separates directories). *)
Fixpoint base_name (path acc : bytes) : bytes :=
  match path with
  | [] => rev acc
  | c :: r => if Ascii.eqb c "/" then base_name r [] else base_name r (c :: acc)
  end.
Definition template_guard (path : bytes) : bytes :=
  map (fun c => if is_alpha c then c else "_"%char) (b "GENERATED__" ++ base_name path []).

(** [ends_with(argv[1], ".hh")], lines 87-91: the last occurrence of ".hh" is at the end. *)
Definition is_hh (path : bytes) : bool := prefixb (rev (b ".hh")) (rev path).

(** The output file (both files are readable and writable). *)
Definition template (n : nat) (naming path input : bytes) : option bytes :=
  if is_hh path then copy n naming input (template_guard path)
  else Some (process input (template_guard path)).
