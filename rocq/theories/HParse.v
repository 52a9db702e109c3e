(** Expressions, statements and functions of the runtime headers (source/cpp/*.hh), from the
    bracketed tokens (C++11 5, 6, 8.4).  Other constructions are refused. *)
From Verif Require Import Bytes Cpp CLex CParse Unit HText.

(** ** Expressions *)

(** Names are kept as their words: "error_code :: PGERR_OK", "json < T > :: read". *)
Inductive hexpr :=
  | EName (ws : list bytes)
  | EThis | ENull | EBool (x : bool)
  | ENum (unsigned : bool) (z : Z) | EStr (s : bytes) | EChr (s : bytes)
  | EDot (e : hexpr) (m : bytes) | EArrow (e : hexpr) (m : bytes)
  | EIndex (e i : hexpr) | ECall (f : hexpr) (args : list hexpr)
  | EPre (op : bytes) (e : hexpr) | EPost (op : bytes) (e : hexpr)
  | ECast (t : list bytes) (e : hexpr) | ESizeof (t : list bytes)
  | EBin (op : bytes) (x y : hexpr)
  | ECond (c x y : hexpr) | ESet (op : bytes) (x y : hexpr)
  | EList (l : list hexpr).

(** Hexadecimal and decimal literals, with or without the suffix "U" (2.14.2). *)
Definition hex_digit_val (c : ascii) : option Z :=
  let z := code c in
  if (48 <=? z) && (z <=? 57) then Some (z - 48)
  else if (65 <=? z) && (z <=? 70) then Some (z - 55)
  else if (97 <=? z) && (z <=? 102) then Some (z - 87) else None.
Fixpoint hex_go (acc : Z) (s : bytes) : option Z :=
  match s with
  | [] => Some acc
  | c :: r => match hex_digit_val c with Some d => hex_go (16 * acc + d) r | None => None end
  end.
Definition unsuffixed (s : bytes) : bytes * bool :=
  match rev s with
  | c :: r => if Ascii.eqb c "U" then (rev r, true) else (s, false)
  | [] => (s, false)
  end.
Definition number (s : bytes) : option hexpr :=
  let '(d, u) := unsuffixed s in
  option_map (ENum u)
    (match d with
     | "0"%char :: "x"%char :: (_ :: _) as h => hex_go 0 (skipn 2 d)
     | _ => decimal d
     end).

(** Names of templates: "<" after one begins its arguments (14.2). *)
Definition template_names : list string := ["json"; "rol"; "string_to_number"; "static_cast"]%string.
(** The types that a cast names. *)
Definition cast_types : list (list bytes) := map words_of ["char"; "int"; "uint8_t"; "int32_t"; "uint32_t"; "T"; "const char*"]%string.

(** The words of "< … >", and what follows; [n]: how many are open. *)
Fixpoint angle (n : nat) (acc : list bytes) (l : list tree) : option (list bytes * list tree) :=
  match l with
  | [] => None
  | t :: r =>
      if is_op "<" t then angle (S n) (b "<" :: acc) r
      else if is_op ">" t then
        match n with
        | O => None
        | S O => Some (rev (b ">" :: acc), r)
        | S n' => angle n' (b ">" :: acc) r
        end
      else match t with
           | Lf k => angle n (spelling k :: acc) r
           | Gr _ _ => None
           end
  end.

(** A name after its first word. *)
Fixpoint name_rest (n : nat) (acc : list bytes) (w : bytes) (l : list tree) : option (list bytes * list tree) :=
  match n with
  | O => None
  | S n' =>
      let acc := acc ++ [w] in
      let '(acc, l) := match l with
                       | t :: _ => if is_op "<" t && one_of template_names w then
                                     match angle 0 [] l with Some (ws, r) => (acc ++ ws, r) | None => (acc, l) end
                                   else (acc, l)
                       | [] => (acc, l)
                       end in
      match l with
      | q :: Lf (KId w') :: r => if is_op "::" q then name_rest n' (acc ++ [b "::"]) w' r else Some (acc, l)
      | _ => Some (acc, l)
      end
  end.

(** Binary operators and how strongly they bind; ">>" is two tokens. *)
Definition binary_ops : list (string * nat) :=
  [("*", 10); ("/", 10); ("%", 10); ("+", 9); ("-", 9); ("<<", 8); ("<", 7); (">", 7); ("<=", 7); (">=", 7);
   ("==", 6); ("!=", 6); ("&", 5); ("^", 4); ("|", 3); ("&&", 2); ("||", 1)]%string%nat.
Definition binary_op (l : list tree) : option (bytes * nat * list tree) :=
  match l with
  | t :: r =>
      match r with
      | t' :: r' => if is_op ">" t && is_op ">" t' then Some (b ">>", 8%nat, r') else
                    option_map (fun x => (b (fst x), snd x, r)) (find (fun x => is_op (fst x) t) binary_ops)
      | [] => None
      end
  | [] => None
  end.
Definition set_ops : list string := ["="; "+="; "-="; "|="; "&="]%string.

Section Expr.
  (** A whole expression inside brackets. *)
  Context (rec : list tree -> option hexpr).

  Definition parts (l : list tree) : option (list hexpr) :=
    match l with [] => Some [] | _ => all_some (map rec (pieces (is_op ",") l)) end.

  (** What follows a primary expression (5.2). *)
  Fixpoint h_postfix (e : hexpr) (l : list tree) : option (hexpr * list tree) :=
    match l with
    | Gr Paren g :: r => match parts g with Some args => h_postfix (ECall e args) r | None => None end
    | Gr Square g :: r => match rec g with Some i => h_postfix (EIndex e i) r | None => None end
    | Lf (KOp s) :: r =>
        if same s (b "++") || same s (b "--") then h_postfix (EPost s e) r
        else match r with
             | Lf (KId m) :: r' =>
                 if same s (b ".") then h_postfix (EDot e m) r'
                 else if same s (b "->") then h_postfix (EArrow e m) r' else Some (e, l)
             | _ => Some (e, l)
             end
    | _ => Some (e, l)
    end.

  Definition h_primary (l : list tree) : option (hexpr * list tree) :=
    match l with
    | Lf (KId w) :: r =>
        match name_rest (S (length l)) [] w r with Some (ws, r') => h_postfix (EName ws) r' | None => None end
    | Lf (KKw w) :: r =>
        if same w (b "true") then h_postfix (EBool true) r
        else if same w (b "false") then h_postfix (EBool false) r
        else if same w (b "this") then h_postfix EThis r
        else if same w (b "nullptr") then h_postfix ENull r
        else if same w (b "static_cast") then
          match angle 0 [] r with
          | Some (ws, Gr Paren g :: r') =>
              match rec g with Some e => h_postfix (ECast (removelast (tl ws)) e) r' | None => None end
          | _ => None
          end
        else if same w (b "sizeof") then
          match r with
          | Gr Paren g :: r' => match spellings g with Some ws => Some (ESizeof ws, r') | None => None end
          | _ => None
          end
        else None
    | Lf (KNum s) :: r => match number s with Some e => h_postfix e r | None => None end
    | Lf (KStr s) :: r => h_postfix (EStr s) r
    | Lf (KChr s) :: r => h_postfix (EChr s) r
    | Gr Paren g :: r => match rec g with Some e => h_postfix e r | None => None end
    | Gr Brace g :: r => match parts g with Some es => Some (EList es, r) | None => None end
    | _ => None
    end.

  (** 5.3, 5.4 *)
  Definition cast_of (l : list tree) : option (list bytes) :=
    match spellings l with
    | Some ws => if existsb (words_eqb ws) cast_types then Some ws else None
    | None => None
    end.
  Fixpoint h_unary (n : nat) (l : list tree) : option (hexpr * list tree) :=
    match n with
    | O => None
    | S n' =>
        match l with
        | Lf (KOp s) :: r =>
            if one_of ["*"; "&"; "!"; "-"; "++"; "--"]%string s then
              match h_unary n' r with Some (e, r') => Some (EPre s e, r') | None => None end
            else None
        | Gr Paren g :: r =>
            match cast_of g with
            | Some t => match h_unary n' r with Some (e, r') => Some (ECast t e, r') | None => None end
            | None => h_primary l
            end
        | _ => h_primary l
        end
    end.

  (** 5.6 to 5.15: operators that bind at least as strongly as [p]. *)
  Fixpoint h_binary (n : nat) (p : nat) (l : list tree) : option (hexpr * list tree) :=
    match n with
    | O => None
    | S n' =>
        match h_unary (S (length l)) l with
        | None => None
        | Some (e, r) =>
            (fix more (k : nat) (e : hexpr) (l : list tree) : option (hexpr * list tree) :=
               match k with
               | O => None
               | S k' =>
                   match binary_op l with
                   | Some (op, q, r) =>
                       if Nat.leb p q then
                         match h_binary n' (S q) r with
                         | Some (y, r') => more k' (EBin op e y) r'
                         | None => None
                         end
                       else Some (e, l)
                   | None => Some (e, l)
                   end
               end) (S (length r)) e r
        end
    end.

  (** 5.16, 5.17: both group from the right. *)
  Fixpoint h_assign (n : nat) (l : list tree) : option (hexpr * list tree) :=
    match n with
    | O => None
    | S n' =>
        match h_binary 12 1 l with
        | None => None
        | Some (x, r) =>
            match r with
            | Lf (KOp s) :: r' =>
                if same s (b "?") then
                  match h_assign n' r' with
                  | Some (y, q :: r2) =>
                      if is_op ":" q then
                        match h_assign n' r2 with Some (z, r3) => Some (ECond x y z, r3) | None => None end
                      else None
                  | _ => None
                  end
                else if one_of set_ops s then
                  match h_assign n' r' with Some (y, r2) => Some (ESet s x y, r2) | None => None end
                else Some (x, r)
            | _ => Some (x, r)
            end
        end
    end.
  Definition h_whole (l : list tree) : option hexpr :=
    match h_assign (S (length l)) l with Some (e, []) => Some e | _ => None end.
End Expr.

(** [n]: how deep brackets may be nested. *)
Fixpoint h_expression (n : nat) (l : list tree) : option hexpr :=
  match n with O => None | S n' => h_whole (h_expression n') l end.
Definition hexpr_of (l : list tree) : option hexpr := h_expression deep l.
Definition hexprs_of (l : list tree) : option (list hexpr) := parts hexpr_of l.

(** ** Statements *)

Inductive hstmt :=
  | TExpr (l : list hexpr)                                   (* several: the comma operator *)
  | TVar (t : list bytes) (x : bytes) (dim init : option hexpr)   (* t x = init; t x[dim] = init *)
  | TObj (t : list bytes) (x : bytes) (args : list hexpr)    (* t x(args) *)
  | TReturn (e : option hexpr)
  | TIf (c : hexpr) (s : hstmt) (e : option hstmt)
  | TWhile (c : hexpr) (s : hstmt)
  | TDo (s : hstmt) (c : hexpr)
  | TFor (init : hstmt) (c : hexpr) (step : list hexpr) (s : hstmt)
  | TEach (t : list bytes) (x : bytes) (e : hexpr) (s : hstmt)
  | TBlock (l : list hstmt)
  | TSeq (l : list hstmt)                                    (* several declarators *)
  | TSwitch (e : hexpr) (l : list hstmt)
  | TCase (e : hexpr) | TDefault | TLabel (x : bytes)        (* before the statement they belong to *)
  | TBreak | TContinue | TGoto (x : bytes).

(** The types of local variables; a typedef is kept as a variable of a type that begins with "typedef". *)
Definition var_types : list (list bytes) :=
  map words_of
    ["int"; "bool"; "size_t"; "auto"; "auto &"; "char"; "const char *"; "static const char *"; "std::string"; "double";
     "uint8_t"; "uint32_t"; "int32_t"; "static const int32_t"; "static const uint32_t"; "T"; "typename T::value_type";
     "locale_t"; "static locale_t"; "protogen_X_Y_Z::json_context"; "protogen_X_Y_Z::tokenizer";
     "iterator_istream<std::string::const_iterator>"; "iterator_istream<std::vector<char>::const_iterator>";
     "typedef std::back_insert_iterator<std::string>"; "typedef std::back_insert_iterator<std::vector<char>>";
     "typedef std::ostream_iterator<char>"; "ittype"; "iterator_ostream<ittype>"]%string.

(** The type at the beginning, if the name of a variable follows it. *)
Fixpoint prefix_words (ws : list bytes) (l : list tree) : option (list tree) :=
  match ws, l with
  | [], _ => Some l
  | w :: ws', Lf k :: l' => if same w (spelling k) then prefix_words ws' l' else None
  | _, _ => None
  end.
Fixpoint var_type (ts : list (list bytes)) (l : list tree) : option (list bytes * list tree) :=
  match ts with
  | [] => None
  | t :: r => match prefix_words t l with
              | Some (Lf (KId x) :: q) => Some (t, Lf (KId x) :: q)
              | _ => var_type r l
              end
  end.

(** x, x = e, x[n], x[n] = { … }, x(args) *)
Definition declarator (t : list bytes) (l : list tree) : option hstmt :=
  match l with
  | [Lf (KId x)] => Some (TVar t x None None)
  | [Lf (KId x); Gr Square d] => option_map (fun d' => TVar t x (Some d') None) (hexpr_of d)
  | [Lf (KId x); Gr Paren g] => option_map (TObj t x) (hexprs_of g)
  | Lf (KId x) :: Gr Square d :: q :: r =>
      if is_op "=" q then
        match hexpr_of d, hexpr_of r with Some d', Some e => Some (TVar t x (Some d') (Some e)) | _, _ => None end
      else None
  | Lf (KId x) :: q :: r => if is_op "=" q then option_map (fun e => TVar t x None (Some e)) (hexpr_of r) else None
  | _ => None
  end.

(** A declaration or an expression, without the semicolon. *)
Definition h_simple (l : list tree) : option hstmt :=
  match var_type var_types l with
  | Some (t, r) =>
      match declarator t r with
      | Some d => Some d
      | None => option_map TSeq (all_some (map (declarator t) (pieces (is_op ",") r)))
      end
  | None => option_map TExpr (hexprs_of l)
  end.

(** What comes before and after the first semicolon. *)
Definition to_semi (l : list tree) : option (list tree * list tree) := halves (is_op ";") l.

Fixpoint h_stmt (n : nat) (l : list tree) : option (hstmt * list tree) :=
  let stmts := fix stmts (k : nat) (l : list tree) : option (list hstmt) :=
    match k with
    | O => None
    | S k' => match l with
              | [] => Some []
              | _ => match n with
                     | O => None
                     | S n' => match h_stmt n' l with
                               | Some (s, r) => option_map (cons s) (stmts k' r)
                               | None => None
                               end
                     end
              end
    end in
  match n with
  | O => None
  | S n' =>
      let semi r x := match r with q :: r' => if is_op ";" q then Some (x, r') else None | [] => None end in
      match l with
      | [] => None
      | Gr Brace g :: r => option_map (fun ss => (TBlock ss, r)) (stmts (S (length g)) g)
      | k :: r =>
          if is_op ";" k then Some (TExpr [], r)
          else if is_kw "if" k then
            match r with
            | Gr Paren c :: r1 =>
                match hexpr_of c, h_stmt n' r1 with
                | Some c', Some (s, r2) =>
                    match r2 with
                    | e :: r3 => if is_kw "else" e then
                                   match h_stmt n' r3 with Some (s', r4) => Some (TIf c' s (Some s'), r4) | None => None end
                                 else Some (TIf c' s None, r2)
                    | [] => Some (TIf c' s None, r2)
                    end
                | _, _ => None
                end
            | _ => None
            end
          else if is_kw "while" k then
            match r with
            | Gr Paren c :: r1 =>
                match hexpr_of c, h_stmt n' r1 with Some c', Some (s, r2) => Some (TWhile c' s, r2) | _, _ => None end
            | _ => None
            end
          else if is_kw "do" k then
            match h_stmt n' r with
            | Some (s, w :: Gr Paren c :: r1) =>
                if is_kw "while" w then match hexpr_of c with Some c' => semi r1 (TDo s c') | None => None end else None
            | _ => None
            end
          else if is_kw "for" k then
            match r with
            | Gr Paren g :: r1 =>
                match h_stmt n' r1 with
                | None => None
                | Some (s, r2) =>
                    match pieces (is_op ";") g with
                    | [i; c; p] =>
                        match h_simple i, hexpr_of c, hexprs_of p with
                        | Some i', Some c', Some p' => Some (TFor i' c' p' s, r2)
                        | _, _, _ => None
                        end
                    | [_] =>
                        match halves (is_op ":") g with
                        | Some (d, e) =>
                            match var_type var_types d, hexpr_of e with
                            | Some (t, [Lf (KId x)]), Some e' => Some (TEach t x e' s, r2)
                            | _, _ => None
                            end
                        | None => None
                        end
                    | _ => None
                    end
                end
            | _ => None
            end
          else if is_kw "switch" k then
            match r with
            | Gr Paren c :: Gr Brace g :: r1 =>
                match hexpr_of c, stmts (S (length g)) g with Some c', Some ss => Some (TSwitch c' ss, r1) | _, _ => None end
            | _ => None
            end
          else if is_kw "case" k then
            match halves (is_op ":") r with
            | Some (c, r1) => option_map (fun c' => (TCase c', r1)) (hexpr_of c)
            | None => None
            end
          else if is_kw "default" k then
            match r with q :: r1 => if is_op ":" q then Some (TDefault, r1) else None | [] => None end
          else if is_kw "break" k then semi r TBreak
          else if is_kw "continue" k then semi r TContinue
          else if is_kw "goto" k then match r with Lf (KId x) :: r1 => semi r1 (TGoto x) | _ => None end
          else if is_kw "return" k then
            match to_semi r with
            | Some ([], r1) => Some (TReturn None, r1)
            | Some (e, r1) => option_map (fun e' => (TReturn (Some e'), r1)) (hexpr_of e)
            | None => None
            end
          else
            let simple_stmt := match to_semi l with Some (e, r1) => option_map (fun s => (s, r1)) (h_simple e) | None => None end in
            match l with
            | Lf (KId x) :: q :: r1 => if is_op ":" q then Some (TLabel x, r1) else simple_stmt
            | _ => simple_stmt
            end
      end
  end.

(** The statements of a body; statements nested deeper than this are refused. *)
Fixpoint h_stmts (k : nat) (l : list tree) : option (list hstmt) :=
  match k with
  | O => None
  | S k' => match l with
            | [] => Some []
            | _ => match h_stmt 24 l with
                   | Some (s, r) => option_map (cons s) (h_stmts k' r)
                   | None => None
                   end
            end
  end.
Definition hbody_of (l : list tree) : option (list hstmt) := h_stmts (S (length l)) l.

(** ** Functions *)

Record hfun := HFun {
  hf_ret : list bytes;                          (* the words before the name *)
  hf_name : bytes;
  hf_params : list (list bytes * bytes);        (* type and name; default values are dropped *)
  hf_body : list hstmt
}.

(** Words that do not change what a function does. *)
Definition idle_words : list string := ["static"; "virtual"; "inline"; "const"; "override"]%string.
Definition is_idle (t : tree) : bool := match t with Lf k => one_of idle_words (spelling k) | Gr _ _ => false end.
Fixpoint drop_idle (l : list tree) : list tree :=
  match l with t :: r => if is_idle t then drop_idle r else l | [] => [] end.

Definition h_param (l : list tree) : option (list bytes * bytes) :=
  declared (match halves (is_op "=") l with Some (d, _) => d | None => l end).
Definition h_params (l : list tree) : option (list (list bytes * bytes)) :=
  match l with [] => Some [] | _ => all_some (map h_param (pieces (is_op ",") l)) end.

(** "template < … >" before a function. *)
Definition no_template (l : list tree) : list tree :=
  match l with
  | k :: r => if is_kw "template" k then match angle 0 [] r with Some (_, r') => r' | None => l end else l
  | [] => []
  end.

Definition hfunction (i : item) : option hfun :=
  match it_body i with
  | None => None
  | Some body =>
      match drop_idle (rev (no_access (it_head i))) with
      | Gr Paren ps :: Lf (KId f) :: r =>
          match spellings (drop_idle (no_template (rev r))), h_params ps, hbody_of body with
          | Some t, Some ps', Some ss => Some (HFun t f ps' ss)
          | _, _, _ => None
          end
      | _ => None
      end
  end.

(** The functions of a block. *)
Definition hfunctions (l : list tree) : list hfun :=
  flat_map (fun i => match hfunction i with Some f => [f] | None => [] end) (items [] l).

(** The one function with this name. *)
Definition hfind (fs : list hfun) (f : bytes) : option hfun :=
  match filter (fun x => same (hf_name x) f) fs with [x] => Some x | _ => None end.

(** ** Enumerations: the names and their values (7.2) *)
Fixpoint enumerators (z : Z) (l : list (list tree)) : option (list (bytes * Z)) :=
  match l with
  | [] => Some []
  | [] :: r => match r with [] => Some [] | _ => None end           (* a comma after the last *)
  | [Lf (KId x)] :: r => option_map (cons (x, z)) (enumerators (z + 1) r)
  | [Lf (KId x); q; Lf (KNum d)] :: r =>
      match decimal d with
      | Some z' => if is_op "=" q then option_map (cons (x, z')) (enumerators (z' + 1) r) else None
      | None => None
      end
  | _ => None
  end.
Definition enum_of (l : list tree) : option (list (bytes * Z)) := enumerators 0 (pieces (is_op ",") l).
