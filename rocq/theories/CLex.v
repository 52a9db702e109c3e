(** The tokens of C++ text (ISO/IEC 14882:2011 [lex]) and its brackets, for the part of the
    generated header that the compiler writes itself (source/cpp/code.txt:56-249 through
    cppgen.cc:169-532).  Text outside this part of C++ is refused, never given another meaning. *)
From Verif Require Import Bytes Cpp.

(** Equality of texts. *)
Fixpoint same (x y : bytes) : bool :=
  match x, y with
  | [], [] => true
  | c :: x', d :: y' => if Ascii.eqb c d then same x' y' else false
  | _, _ => false
  end.

(** ** Tokens ([lex.token]): identifiers, keywords, numbers, the text between the quotes of
    string and character literals, operators and punctuators. *)
Inductive ctok :=
  | KId (s : bytes) | KKw (s : bytes) | KNum (s : bytes) | KStr (s : bytes) | KChr (s : bytes) | KOp (s : bytes).

(** Where the lexer is: between tokens, just after a literal, in a word, a number, a string
    or character literal (the second of each: after a backslash), an operator, a comment to
    the end of the line, a comment to "*/" (the second: after an asterisk), lost. *)
Inductive cstate :=
  | QNone | QEnd | QWord (a : bytes) | QNum (a : bytes)
  | QStr (a : bytes) | QStrE (a : bytes) | QChr (a : bytes) | QChrE (a : bytes)
  | QOp (a : bytes) | QLine | QBlock | QStar | QBad.

Definition is_alpha_c (c : ascii) : bool :=
  let z := code c in ((65 <=? z) && (z <=? 90)) || ((97 <=? z) && (z <=? 122)) || (z =? 95).
Definition is_digit_c (c : ascii) : bool := let z := code c in (48 <=? z) && (z <=? 57).
Definition is_word_c (c : ascii) : bool := is_alpha_c c || is_digit_c c.
Definition is_blank_c (c : ascii) : bool := let z := code c in (z =? 32) || ((9 <=? z) && (z <=? 13)).

Definition one_of (l : list string) (s : bytes) : bool := existsb (fun x => same (b x) s) l.

(** [lex.operators].  Not here: ">>" (two tokens, as in [temp.names]/3) and the alternative
    spellings with "%" and ":" ([lex.digraph]), which are refused.  ".." is no operator, only
    the beginning of "...". *)
Definition op_chars : bytes := b "{}[]()<>;:,.?!~+-*/%^&|=#".
Definition longer_ops : list string :=
  ["::"; "<<"; "&&"; "||"; "=="; "->"; "<="; ">="; "!="; "+="; "-="; "*="; "/="; "%="; "^="; "|="; "&="; "++"; "--";
   "<<="; "->*"; ".*"; "##"; ".."; "..."]%string.
Definition refused_ops : list string := ["<:"; "<%"; ":>"; "%>"; "%:"]%string.

Definition word (a : bytes) : ctok := if existsb (same a) cpp_keywords then KKw a else KId a.

(** A character where a token may begin.  [lit]: just after a literal, where a word would be
    its suffix ([lex.ext]): refused. *)
Definition begin (lit : bool) (c : ascii) : cstate :=
  if is_blank_c c then QNone
  else if is_alpha_c c then (if lit then QBad else QWord [c])
  else if is_digit_c c then (if lit then QBad else QNum [c])
  else if Ascii.eqb c """" then QStr []
  else if Ascii.eqb c "'" then QChr []
  else if existsb (Ascii.eqb c) op_chars then QOp [c]
  else QBad.

(** One character.  Refused besides: prefixes of literals (a word just before a quote),
    numbers with points. *)
Definition lex_step (st : cstate) (c : ascii) : list ctok * cstate :=
  match st with
  | QNone => ([], begin false c)
  | QEnd => ([], begin true c)
  | QWord a => if is_word_c c then ([], QWord (a ++ [c]))
               else if Ascii.eqb c """" || Ascii.eqb c "'" then ([], QBad)
               else ([word a], begin false c)
  | QNum a => if is_word_c c then ([], QNum (a ++ [c]))
              else if Ascii.eqb c "." || Ascii.eqb c "'" then ([], QBad)
              else ([KNum a], begin false c)
  | QStr a => if Ascii.eqb c """" then ([KStr a], QEnd)
              else if Ascii.eqb c LF then ([], QBad)
              else if Ascii.eqb c "\" then ([], QStrE a) else ([], QStr (a ++ [c]))
  | QStrE a => if Ascii.eqb c LF then ([], QBad) else ([], QStr (a ++ ["\"%char; c]))
  | QChr a => if Ascii.eqb c "'" then ([KChr a], QEnd)
              else if Ascii.eqb c LF then ([], QBad)
              else if Ascii.eqb c "\" then ([], QChrE a) else ([], QChr (a ++ [c]))
  | QChrE a => if Ascii.eqb c LF then ([], QBad) else ([], QChr (a ++ ["\"%char; c]))
  | QOp a =>
      if same (a ++ [c]) (b "//") then ([], QLine)
      else if same (a ++ [c]) (b "/*") then ([], QBlock)
      else if one_of longer_ops (a ++ [c]) then ([], QOp (a ++ [c]))
      else if one_of refused_ops (a ++ [c]) || (same a (b ".") && is_digit_c c) then ([], QBad)
      else ([KOp a], begin false c)
  | QLine => ([], if Ascii.eqb c LF then QNone else QLine)
  | QBlock => ([], if Ascii.eqb c "*" then QStar else QBlock)
  | QStar => ([], if Ascii.eqb c "/" then QNone else if Ascii.eqb c "*" then QStar else QBlock)
  | QBad => ([], QBad)
  end.

Fixpoint lex_run (st : cstate) (s : bytes) : list ctok * cstate :=
  match s with
  | [] => ([], st)
  | c :: r => let '(k, st1) := lex_step st c in
              let '(ks, st2) := lex_run st1 r in (k ++ ks, st2)
  end.

(** The tokens of a text that ends between tokens; before, phases 1 and 2 ([lex.phases]). *)
Definition tokens (text : bytes) : option (list ctok) :=
  match lex_run QNone (splice (trigraphs 0 text)) with
  | (ks, QNone) => Some ks
  | _ => None
  end.

(** ** Brackets *)

Inductive bracket := Paren | Brace | Square.
Inductive tree := Lf (k : ctok) | Gr (k : bracket) (l : list tree).

Definition opens (k : ctok) : option bracket :=
  match k with
  | KOp s => if same s (b "(") then Some Paren else if same s (b "{") then Some Brace
             else if same s (b "[") then Some Square else None
  | _ => None
  end.
Definition closes (k : ctok) : option bracket :=
  match k with
  | KOp s => if same s (b ")") then Some Paren else if same s (b "}") then Some Brace
             else if same s (b "]") then Some Square else None
  | _ => None
  end.
Definition bracket_eqb (x y : bracket) : bool :=
  match x, y with Paren, Paren | Brace, Brace | Square, Square => true | _, _ => false end.

(** [cur]: what the innermost open bracket contains so far, last first; [up]: the brackets
    around it. *)
Fixpoint group (cur : list tree) (up : list (bracket * list tree)) (ks : list ctok)
  : option (list tree * list (bracket * list tree)) :=
  match ks with
  | [] => Some (cur, up)
  | k :: r =>
      match opens k, closes k with
      | Some x, _ => group [] ((x, cur) :: up) r
      | None, Some x =>
          match up with
          | (y, l) :: up' => if bracket_eqb x y then group (Gr x (rev cur) :: l) up' r else None
          | [] => None
          end
      | None, None => group (Lf k :: cur) up r
      end
  end.

Definition trees (ks : list ctok) : option (list tree) :=
  match group [] [] ks with Some (cur, []) => Some (rev cur) | _ => None end.
