(** The runtime headers (source/cpp/*.hh) as text: preprocessing with macros, and the
    declarations of the text by their first words.  Text outside this part of C++ is refused. *)
From Verif Require Import Bytes Template Cpp CLex CParse Unit.

(** ** Macros with parameters (C++11 16.3), as in protogen.hh:302 and json.hh:62-117 *)

Record fmacro := FMac { fm_name : bytes; fm_params : list bytes; fm_body : list ctok }.

(** The tokens of a logical line without comments. *)
Definition line_tokens (line : bytes) : option (list ctok) :=
  match CLex.lex_run QNone (line ++ [LF]) with
  | (ks, QNone) => Some ks
  | _ => None
  end.

Definition tok_op (op : string) (k : ctok) : bool := match k with KOp s => same s (b op) | _ => false end.

(** The parts of "( a , b )" after the first bracket, and what follows; [n]: brackets open
    inside a part. *)
Fixpoint macro_parts (n : nat) (cur : list ctok) (ks : list ctok) : option (list (list ctok) * list ctok) :=
  match ks with
  | [] => None
  | k :: r =>
      if tok_op ")" k then
        match n with
        | O => Some ([rev cur], r)
        | S n' => macro_parts n' (k :: cur) r
        end
      else if tok_op "(" k then macro_parts (S n) (k :: cur) r
      else if tok_op "," k && Nat.eqb n 0 then
        match macro_parts 0 [] r with Some (ps, q) => Some (rev cur :: ps, q) | None => None end
      else macro_parts n (k :: cur) r
  end.

Definition one_id (l : list ctok) : option bytes := match l with [KId s] => Some s | _ => None end.

(** "#define rest": a macro with parameters, or a name defined as nothing. *)
Definition define (rest : bytes) : option (bytes * option fmacro) :=
  let w := operand rest in
  match skipn (length w) rest with
  | [] => Some (w, None)
  | c :: _ =>
      if Ascii.eqb c "(" then
        match line_tokens (skipn (length w) rest) with
        | Some (_ :: ks) =>
            match macro_parts 0 [] ks with
            | Some (ps, body) => option_map (fun ps' => (w, Some (FMac w ps' body))) (all_some (map one_id ps))
            | None => None
            end
        | _ => None
        end
      else None
  end.

Definition find_macro (ms : list fmacro) (w : bytes) : option fmacro := find (fun m => same (fm_name m) w) ms.

Fixpoint param_pos (ps : list bytes) (w : bytes) (args : list (list ctok)) : option (list ctok) :=
  match ps, args with
  | p :: ps', a :: args' => if same p w then Some a else param_pos ps' w args'
  | _, _ => None
  end.
Definition replaced (m : fmacro) (args : list (list ctok)) : list ctok :=
  flat_map (fun k => match k with
                     | KId w => match param_pos (fm_params m) w args with Some a => a | None => [k] end
                     | _ => [k]
                     end) (fm_body m).
(** "#" and "##" in the body, and macros in the result, are refused. *)
Definition plain_result (ms : list fmacro) (ks : list ctok) : bool :=
  forallb (fun k => match k with
                    | KId w => match find_macro ms w with Some _ => false | None => true end
                    | KOp s => negb (same s (b "#") || same s (b "##"))
                    | _ => true
                    end) ks.

(** The tokens of a line with the uses of macros replaced; [n]: at least their number. *)
Fixpoint expand (n : nat) (ms : list fmacro) (ks : list ctok) : option (list ctok) :=
  match n with
  | O => None
  | S n' =>
      match ks with
      | [] => Some []
      | k :: r =>
          match k with
          | KId w =>
              match find_macro ms w, r with
              | Some m, p :: r' =>
                  if tok_op "(" p then
                    match macro_parts 0 [] r' with
                    | Some (args, q) =>
                        let res := replaced m args in
                        if Nat.eqb (length args) (length (fm_params m)) && plain_result ms res then
                          option_map (app res) (expand n' ms q)
                        else None
                    | None => None
                    end
                  else option_map (cons k) (expand n' ms r)
              | _, _ => option_map (cons k) (expand n' ms r)
              end
          | _ => option_map (cons k) (expand n' ms r)
          end
      end
  end.

(** ** Directives *)

(** "[!] defined ( x ) || …" (C++11 16.1). *)
Fixpoint condition (n : nat) (macros : list bytes) (ks : list ctok) : option bool :=
  match n with
  | O => None
  | S n' =>
      let rest x r := match r with
                      | [] => Some x
                      | o :: r' => if tok_op "||" o then option_map (orb x) (condition n' macros r') else None
                      end in
      match ks with
      | KId d :: p :: KId w :: q :: r =>
          if same d (b "defined") && tok_op "(" p && tok_op ")" q then rest (is_defined macros w) r else None
      | o :: KId d :: p :: KId w :: q :: r =>
          if tok_op "!" o && same d (b "defined") && tok_op "(" p && tok_op ")" q then rest (negb (is_defined macros w)) r else None
      | _ => None
      end
  end.

(** As in Unit.v; besides the names of macros, the macros with parameters. *)
Record hstate := HP { hp_lex : lex; hp_names : list bytes; hp_macros : list fmacro; hp_open : list bool }.
Definition hp_on (s : hstate) : bool := forallb (fun x => x) (hp_open s).

Definition hp_line (s : hstate) (line : bytes) : option (list ctok * hstate) :=
  match lex_line (hp_lex s) line with
  | None => None
  | Some (code, lx) =>
      let same_state := HP lx (hp_names s) (hp_macros s) (hp_open s) in
      let opened x := Some ([], HP lx (hp_names s) (hp_macros s) (x :: hp_open s)) in
      match (match hp_lex s with XText => directive code | _ => None end) with
      | None =>
          if hp_on s then
            match line_tokens code with
            | Some ks => option_map (fun r => (r, same_state)) (expand (S (length ks)) (hp_macros s) ks)
            | None => None
            end
          else Some ([], same_state)
      | Some (d, rest) =>
          if bytes_eqb d (b "ifndef") then opened (negb (is_defined (hp_names s) (operand rest)))
          else if bytes_eqb d (b "ifdef") then opened (is_defined (hp_names s) (operand rest))
          else if bytes_eqb d (b "if") then
            match line_tokens rest with
            | Some ks => match condition (S (length ks)) (hp_names s) ks with Some x => opened x | None => None end
            | None => None
            end
          else if bytes_eqb d (b "else") then
            match hp_open s with x :: r => Some ([], HP lx (hp_names s) (hp_macros s) (negb x :: r)) | [] => None end
          else if bytes_eqb d (b "endif") then
            match hp_open s with _ :: r => Some ([], HP lx (hp_names s) (hp_macros s) r) | [] => None end
          else if bytes_eqb d (b "include") then Some ([], same_state)
          else if bytes_eqb d (b "define") then
            if hp_on s then
              match define rest with
              | Some (w, None) => Some ([], HP lx (w :: hp_names s) (hp_macros s) (hp_open s))
              | Some (w, Some m) => Some ([], HP lx (w :: hp_names s) (m :: hp_macros s) (hp_open s))
              | None => None
              end
            else Some ([], same_state)
          else if bytes_eqb d (b "undef") then
            if hp_on s then
              Some ([], HP lx (filter (fun w => negb (bytes_eqb w (operand rest))) (hp_names s))
                           (filter (fun m => negb (bytes_eqb (fm_name m) (operand rest))) (hp_macros s)) (hp_open s))
            else Some ([], same_state)
          else None
      end
  end.

Fixpoint hp_lines (s : hstate) (l : list bytes) : option (list ctok * hstate) :=
  match l with
  | [] => Some ([], s)
  | x :: r => match hp_line s x with
              | Some (o, s1) => match hp_lines s1 r with Some (o', s2) => Some (o ++ o', s2) | None => None end
              | None => None
              end
  end.

(** What is left of a header for the compiler, and its macros; [names]: the macros defined by
    the implementation, "_WIN32" and "__USE_GNU" for example.  What #include names is not
    inserted: the headers of the standard library are not modelled as text, and the headers of
    the project are taken one by one. *)
Definition preprocessed (names : list bytes) (text : bytes) : option (list tree * list fmacro) :=
  match hp_lines (HP XText names [] []) (logical_lines text) with
  | Some (ks, HP XText _ ms []) => option_map (fun l => (l, ms)) (trees ks)
  | _ => None
  end.

(** ** Declarations *)

(** What comes before a semicolon or a block, and the block. *)
Record item := Item { it_head : list tree; it_body : option (list tree) }.

Fixpoint items (acc l : list tree) : list item :=
  match l with
  | [] => match acc with [] => [] | _ => [Item (rev acc) None] end
  | t :: r =>
      if is_op ";" t then match acc with [] => items [] r | _ => Item (rev acc) None :: items [] r end
      else match t with
           | Gr Brace g => Item (rev acc) (Some g) :: items [] r
           | _ => items (t :: acc) r
           end
  end.

(** "public:" and the others say nothing about what a function does. *)
Fixpoint no_access (l : list tree) : list tree :=
  match l with
  | k :: c :: r => if (is_kw "public" k || is_kw "protected" k || is_kw "private" k) && is_op ":" c then no_access r else l
  | _ => l
  end.

(** Equality of bracketed tokens, by their spelling. *)
Fixpoint tree_words (t : tree) : list bytes :=
  match t with
  | Lf k => [spelling k]
  | Gr k l => let inner := flat_map tree_words l in
              match k with
              | Paren => b "(" :: inner ++ [b ")"]
              | Brace => b "{" :: inner ++ [b "}"]
              | Square => b "[" :: inner ++ [b "]"]
              end
  end.
Definition trees_words (l : list tree) : list bytes := flat_map tree_words l.

(** The words of a text. *)
Definition words_of (s : string) : list bytes :=
  match line_tokens (b s) with Some ks => map spelling ks | None => [] end.

(** The blocks, one after the other, of the declarations that begin with these words. *)
Definition blocks (l : list tree) (head : string) : list tree :=
  flat_map (fun i => match it_body i with
                     | Some g => if words_eqb (trees_words (no_access (it_head i))) (words_of head) then g else []
                     | None => []
                     end) (items [] l).
Fixpoint inner_block (l : list tree) (path : list string) : list tree :=
  match path with
  | [] => l
  | h :: r => inner_block (blocks l h) r
  end.
