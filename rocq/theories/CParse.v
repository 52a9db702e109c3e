(** Expressions, statements and declarations of the generated code (source/cpp/code.txt:56-249,
    cppgen.cc:169-532), from the bracketed tokens.  Other constructions are refused. *)
From Verif Require Import Bytes Num Cpp CLex.

(** ** Expressions ([expr]) *)

Inductive expr :=
  | XName (s : bytes)
  | XBool (x : bool) | XNum (z : Z) | XStr (s : bytes) | XChr (s : bytes)
  | XDot (e : expr) (m : bytes) | XArrow (e : expr) (m : bytes)
  | XCall (e : expr) (args : list expr)
  | XJson (e : expr) (f : bytes)                    (* json<decltype(e)>::f *)
  | XList (l : list expr)                           (* { a, b } *)
  | XStar (e : expr) | XNot (e : expr) | XMinus (e : expr) | XVoid (e : expr)
  | XOp (op : bytes) (x y : expr)
  | XIf (c x y : expr)                              (* c ? x : y *)
  | XSet (x y : expr).                              (* x = y *)

Definition is_op (op : string) (t : tree) : bool :=
  match t with Lf (KOp s) => same s (b op) | _ => false end.
Definition is_kw (w : string) (t : tree) : bool :=
  match t with Lf (KKw s) => same s (b w) | _ => false end.
Definition is_id (w : string) (t : tree) : bool :=
  match t with Lf (KId s) => same s (b w) | _ => false end.

(** The bracketed tokens with the names of members of [json<decltype(…)>] as one:
    "json" is the name of a template, so "<" after it begins its arguments ([temp.names]/3). *)
Inductive atom := At (t : tree) | AJson (l : list tree) (f : bytes).

Fixpoint atoms (l : list tree) : list atom :=
  match l with
  | [] => []
  | n :: r0 =>
      match n with
      | Lf (KId w) =>
          match r0 with
          | lt :: r1 =>
              if is_op "<" lt && same w (b "json") then
                match r1 with
                | d :: Gr Paren g :: gt :: q :: Lf (KId f) :: r =>
                    if is_kw "decltype" d && is_op ">" gt && is_op "::" q then AJson g f :: atoms r else At n :: atoms r0
                | _ => At n :: atoms r0
                end
              else At n :: atoms r0
          | [] => [At n]
          end
      | _ => At n :: atoms r0
      end
  end.

Definition at_op (op : string) (x : atom) : bool := match x with At t => is_op op t | AJson _ _ => false end.

(** The pieces between the occurrences of an operator outside brackets. *)
Fixpoint pieces {A} (p : A -> bool) (l : list A) : list (list A) :=
  match l with
  | [] => [[]]
  | x :: r => if p x then [] :: pieces p r
              else match pieces p r with
                   | q :: qs => (x :: q) :: qs
                   | [] => [[x]]                     (* does not occur *)
                   end
  end.
(** What is before and after the first occurrence. *)
Fixpoint halves {A} (p : A -> bool) (l : list A) : option (list A * list A) :=
  match l with
  | [] => None
  | x :: r => if p x then Some ([], r) else option_map (fun '(u, w) => (x :: u, w)) (halves p r)
  end.

Fixpoint decimal_go (acc : Z) (s : bytes) : Z :=
  match s with [] => acc | c :: r => decimal_go (10 * acc + (code c - 48)) r end.
(** A decimal literal; one that begins with 0 is octal and refused, "0" itself excepted, and
    so is one with letters. *)
Definition decimal (s : bytes) : option Z :=
  if forallb is_digit_c s then
    match s with
    | [] => None
    | [c] => Some (code c - 48)
    | c :: _ => if Ascii.eqb c "0" then None else Some (decimal_go 0 s)
    end
  else None.

Section Expr.
  (** The expression inside a bracket. *)
  Context (rec : list atom -> option expr).

  (** Parts separated by commas; [end_ok]: a comma may follow the last. *)
  Definition listed (end_ok : bool) (l : list tree) : option (list expr) :=
    match l with
    | [] => Some []
    | _ =>
        let ps := pieces (is_op ",") l in
        let ps := if end_ok then match rev ps with [] :: r => rev r | _ => ps end else ps in
        all_some (map (fun p => rec (atoms p)) ps)
    end.

  (** [expr.post]: what follows a primary expression. *)
  Fixpoint postfix (e : expr) (l : list atom) : option expr :=
    match l with
    | [] => Some e
    | At (Gr Paren g) :: r =>
        match listed false g with Some args => postfix (XCall e args) r | None => None end
    | At (Lf (KOp s)) :: At (Lf (KId m)) :: r =>
        if same s (b ".") then postfix (XDot e m) r
        else if same s (b "->") then postfix (XArrow e m) r else None
    | _ => None
    end.

  Definition primary (l : list atom) : option expr :=
    match l with
    | At (Lf (KId s)) :: r => postfix (XName s) r
    | At (Lf (KKw s)) :: r =>
        if same s (b "true") then postfix (XBool true) r
        else if same s (b "false") then postfix (XBool false) r else None
    | At (Lf (KNum s)) :: r => match decimal s with Some z => postfix (XNum z) r | None => None end
    | At (Lf (KStr s)) :: r => postfix (XStr s) r
    | At (Lf (KChr s)) :: r => postfix (XChr s) r
    | At (Gr Paren g) :: r => match rec (atoms g) with Some e => postfix e r | None => None end
    | [At (Gr Brace g)] => option_map XList (listed true g)
    | AJson g f :: r => match rec (atoms g) with Some e => postfix (XJson e f) r | None => None end
    | _ => None
    end.

  (** [expr.unary], and the cast to void. *)
  Fixpoint unary (l : list atom) : option expr :=
    match l with
    | At (Lf (KOp s)) :: r =>
        if same s (b "*") then option_map XStar (unary r)
        else if same s (b "!") then option_map XNot (unary r)
        else if same s (b "-") then option_map XMinus (unary r) else None
    | At (Gr Paren [Lf (KKw w)]) :: r =>
        if same w (b "void") then option_map XVoid (unary r) else primary l
    | _ => primary l
    end.

  (** Binary operators group from the left ([expr.shift] to [expr.log.or]). *)
  Definition binary (op : string) (sub : list atom -> option expr) (l : list atom) : option expr :=
    match all_some (map sub (pieces (at_op op) l)) with
    | Some (e :: es) => Some (fold_left (XOp (b op)) es e)
    | _ => None
    end.
  Definition level : list atom -> option expr :=
    binary "||" (binary "&&" (binary "==" (binary "<" (binary "<<" unary)))).

  (** [expr.cond], [expr.ass]; one of each, without nesting outside brackets. *)
  Definition conditional (l : list atom) : option expr :=
    match halves (at_op "?") l with
    | None => level l
    | Some (c, r) =>
        match halves (at_op ":") r with
        | Some (x, y) =>
            match level c, level x, level y with
            | Some c', Some x', Some y' => Some (XIf c' x' y')
            | _, _, _ => None
            end
        | None => None
        end
    end.
  Definition assignment (l : list atom) : option expr :=
    match halves (at_op "=") l with
    | None => conditional l
    | Some (x, y) =>
        match level x, conditional y with
        | Some x', Some y' => Some (XSet x' y')
        | _, _ => None
        end
    end.
End Expr.

(** [n]: how deep brackets may be nested. *)
Fixpoint expression (n : nat) (l : list atom) : option expr :=
  match n with
  | O => None
  | S n' => assignment (expression n') l
  end.

(** Brackets nested deeper than this are refused. *)
Definition deep : nat := 8.
Definition expr_of (l : list tree) : option expr := expression deep (atoms l).

(** ** Statements ([stmt.stmt]) *)

(** Types of local variables: the ones that occur. *)
Inductive ltype := LInt | LBool | LAuto | LString | LStringRef | LMap.

Inductive stmt :=
  | SExpr (e : expr)
  | SReturn (e : expr)
  | SIf (c : expr) (s : stmt)
  | SBlock (l : list stmt)
  | SSwitch (e : expr) (l : list stmt)
  | SCase (z : Z) (s : stmt)
  | SDefault (s : stmt)
  | SLocal (t : ltype) (x : bytes) (e : expr).

Definition spelling (k : ctok) : bytes :=
  match k with
  | KId s | KKw s | KNum s | KOp s => s
  | KStr s => b """" ++ s ++ b """"
  | KChr s => b "'" ++ s ++ b "'"
  end.
Fixpoint spellings (l : list tree) : option (list bytes) :=
  match l with
  | [] => Some []
  | Lf k :: r => option_map (cons (spelling k)) (spellings r)
  | Gr _ _ :: _ => None
  end.
Fixpoint words_eqb (x y : list bytes) : bool :=
  match x, y with
  | [], [] => true
  | u :: x', v :: y' => same u v && words_eqb x' y'
  | _, _ => false
  end.

Definition ltypes : list (list string * ltype) :=
  [(["int"], LInt); (["bool"], LBool); (["auto"], LAuto); (["std"; "::"; "string"], LString);
   (["const"; "std"; "::"; "string"; "&"], LStringRef);
   (["static"; "const"; "std"; "::"; "unordered_map"; "<"; "std"; "::"; "string"; ","; "int"; ">"], LMap)]%string.
Definition ltype_of (l : list tree) : option ltype :=
  match spellings l with
  | None => None
  | Some ws => option_map snd (find (fun x => words_eqb ws (map b (fst x))) ltypes)
  end.

(** [type x = e] *)
Definition local (l : list tree) : option stmt :=
  match halves (is_op "=") l with
  | None => None
  | Some (d, i) =>
      match rev d with
      | Lf (KId x) :: t =>
          match ltype_of (rev t), expr_of i with
          | Some t', Some e => Some (SLocal t' x e)
          | _, _ => None
          end
      | _ => None
      end
  end.

(** A statement that ends with a semicolon, without it. *)
Fixpoint simple (l : list tree) : option stmt :=
  match l with
  | k :: r =>
      if is_kw "return" k then option_map SReturn (expr_of r)
      else if is_kw "case" k then
        match r with
        | Lf (KNum n) :: q :: r' =>
            if is_op ":" q then
              match decimal n, simple r' with Some z, Some s => Some (SCase z s) | _, _ => None end
            else None
        | _ => None
        end
      else if is_kw "default" k then
        match r with q :: r' => if is_op ":" q then option_map SDefault (simple r') else None | [] => None end
      else if is_kw "if" k then
        match r with
        | Gr Paren c :: r' => match expr_of c, simple r' with Some c', Some s => Some (SIf c' s) | _, _ => None end
        | _ => None
        end
      else match local l with
           | Some s => Some s
           | None => option_map SExpr (expr_of l)
           end
  | [] => None
  end.

(** What a statement with braces begins with: nothing, "if (c)", "switch (e)". *)
Definition with_block (before : list tree) (l : list stmt) : option stmt :=
  match before with
  | [] => Some (SBlock l)
  | [k; Gr Paren c] =>
      if is_kw "if" k then option_map (fun c' => SIf c' (SBlock l)) (expr_of c)
      else if is_kw "switch" k then option_map (fun c' => SSwitch c' l) (expr_of c) else None
  | _ => None
  end.
Definition block_next (before : list tree) : bool :=
  match before with
  | [] => true
  | [k; Gr Paren _] => is_kw "if" k || is_kw "switch" k
  | _ => false
  end.

(** [acc]: the tokens of the statement so far, last first. *)
Fixpoint statements (n : nat) : list tree -> list tree -> option (list stmt) :=
  match n with
  | O => fun _ _ => None
  | S n' => fix go (acc l : list tree) : option (list stmt) :=
      match l with
      | [] => match acc with [] => Some [] | _ => None end
      | t :: r =>
          if is_op ";" t then
            match simple (rev acc), go [] r with Some s, Some ss => Some (s :: ss) | _, _ => None end
          else match t with
               | Gr Brace g =>
                   if block_next (rev acc) then
                     match statements n' [] g with
                     | Some body =>
                         match with_block (rev acc) body, go [] r with Some s, Some ss => Some (s :: ss) | _, _ => None end
                     | None => None
                     end
                   else go (t :: acc) r
               | _ => go (t :: acc) r
               end
      end
  end.

Definition body_of (l : list tree) : option (list stmt) := statements deep [] l.

(** ** Declarations *)

(** A static member function: the type it returns, its name, the types and names of its
    parameters, its body. *)
Record func := Func { fn_ret : list bytes; fn_name : bytes; fn_params : list (list bytes * bytes); fn_body : list stmt }.

(** A namespace, a structure with its members, a full specialization of [json] with its
    functions, the use of a macro with its arguments. *)
Inductive decl :=
  | DSpace (name : bytes) (l : list decl)
  | DStruct (name : bytes) (members : list (list bytes * bytes))
  | DJson (t : list bytes) (fns : list func)
  | DMacro (name : bytes) (args : list (list bytes)).

(** A type and the name declared. *)
Definition declared (l : list tree) : option (list bytes * bytes) :=
  match rev l with
  | Lf (KId x) :: u :: t => option_map (fun ws => (ws, x)) (spellings (rev (u :: t)))
  | _ => None
  end.

(** Members, each ended by a semicolon. *)
Fixpoint members (acc l : list tree) : option (list (list bytes * bytes)) :=
  match l with
  | [] => match acc with [] => Some [] | _ => None end
  | t :: r =>
      if is_op ";" t then
        match declared (rev acc), members [] r with Some m, Some ms => Some (m :: ms) | _, _ => None end
      else members (t :: acc) r
  end.

Definition parameters (l : list tree) : option (list (list bytes * bytes)) :=
  match l with [] => Some [] | _ => all_some (map declared (pieces (is_op ",") l)) end.

(** "static type name ( parameters ) { body }" *)
Definition function_of (l : list tree) : option func :=
  match rev l with
  | Gr Brace body :: Gr Paren ps :: r =>
      match rev r with
      | k :: d =>
          if is_kw "static" k then
            match declared d, parameters ps, body_of body with
            | Some (t, name), Some ps', Some body' => Some (Func t name ps' body')
            | _, _, _ => None
            end
          else None
      | [] => None
      end
  | _ => None
  end.

(** Functions, each ended by its body. *)
Fixpoint functions (acc l : list tree) : option (list func) :=
  match l with
  | [] => match acc with [] => Some [] | _ => None end
  | t :: r =>
      match t with
      | Gr Brace _ =>
          match function_of (rev (t :: acc)), functions [] r with Some f, Some fs => Some (f :: fs) | _, _ => None end
      | _ => functions (t :: acc) r
      end
  end.

(** "struct name { … }", "template<> struct json<…> { … }". *)
Definition structure (l : list tree) : option decl :=
  match rev l with
  | Gr Brace body :: r =>
      match rev r with
      | [k; Lf (KId x)] => if is_kw "struct" k then option_map (DStruct x) (members [] body) else None
      | k :: lt :: gt :: s :: j :: lt' :: t =>
          if is_kw "template" k && is_op "<" lt && is_op ">" gt && is_kw "struct" s && is_id "json" j && is_op "<" lt' then
            match rev t with
            | gt' :: t' =>
                if is_op ">" gt' then
                  match spellings (rev t'), functions [] body with Some ws, Some fs => Some (DJson ws fs) | _, _ => None end
                else None
            | [] => None
            end
          else None
      | _ => None
      end
  | _ => None
  end.

Definition macro_args (l : list tree) : option (list (list bytes)) :=
  all_some (map spellings (pieces (is_op ",") l)).

(** [n]: how deep namespaces may be nested. *)
Fixpoint declarations (n : nat) : list tree -> list tree -> option (list decl) :=
  match n with
  | O => fun _ _ => None
  | S n' => fix go (acc l : list tree) : option (list decl) :=
      match l with
      | [] => match acc with [] => Some [] | _ => None end
      | t :: r =>
          if is_op ";" t then
            match structure (rev acc), go [] r with Some d, Some ds => Some (d :: ds) | _, _ => None end
          else match t, acc with
               | Gr Brace g, [Lf (KId x); k] =>
                   if is_kw "namespace" k then
                     match declarations n' [] g, go [] r with Some l', Some ds => Some (DSpace x l' :: ds) | _, _ => None end
                   else go (t :: acc) r
               | Gr Paren g, [Lf (KId x)] =>
                   match macro_args g, go [] r with Some a, Some ds => Some (DMacro x a :: ds) | _, _ => None end
               | _, _ => go (t :: acc) r
               end
      end
  end.

(** The declarations of a text. *)
Definition unit_of (text : bytes) : option (list decl) :=
  match tokens text with
  | None => None
  | Some ks => match trees ks with
               | None => None
               | Some l => declarations (S (length text)) [] l
               end
  end.
