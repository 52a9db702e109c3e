(** The lexer of the compiler (source/proto3.cc:1-483) as text: macros, the classes InputStream, Token and Tokenizer, the table
    KEYWORDS.  Text outside this part of C++ is refused. *)
From Verif Require Import Bytes Template Cpp CLex CParse CExec Unit HText HParse HExec.

(** ** Macros (C++11 16.3), as in proto3.cc:22-70 *)

(** [om_params]: [None] for a name without parameters. *)
Record omacro := OMac { om_name : bytes; om_params : option (list bytes); om_body : list ctok }.
Definition find_omacro (ms : list omacro) (w : bytes) : option omacro := find (fun m => same (om_name m) w) ms.
Definition without (ms : list omacro) (w : bytes) : list omacro := filter (fun m => negb (same (om_name m) w)) ms.

(** "#define rest" *)
Definition odefine (rest : bytes) : option omacro :=
  let w := operand rest in
  match skipn (length w) rest with
  | [] => Some (OMac w None [])
  | c :: _ =>
      match line_tokens (skipn (length w) rest) with
      | None => None
      | Some ks =>
          if Ascii.eqb c "(" then
            match macro_parts 0 [] (tl ks) with
            | Some (ps, body) => option_map (fun ps' => OMac w (Some ps') body) (all_some (map one_id ps))
            | None => None
            end
          else Some (OMac w None ks)
      end
  end.

(** "#" and "##" are refused. *)
Definition no_hash (ks : list ctok) : bool := forallb (fun k => negb (tok_op "#" k || tok_op "##" k)) ks.

(** The tokens of a line with the macros replaced, also in what replaces them, where the macro itself is not replaced again
    (16.3.4).  A macro whose brackets follow only after what replaces another is not in this text.  [n]: how deep. *)
Fixpoint oexpand (n : nat) (ms : list omacro) (ks : list ctok) : option (list ctok) :=
  match n with
  | O => None
  | S n' =>
      match ks with
      | [] => Some []
      | KId w :: r =>
          match find_omacro ms w with
          | None => option_map (cons (KId w)) (oexpand n' ms r)
          | Some m =>
              match om_params m, r with
              | None, _ =>
                  match oexpand n' (without ms w) (om_body m), oexpand n' ms r with
                  | Some x, Some y => if no_hash (om_body m) then Some (x ++ y) else None
                  | _, _ => None
                  end
              | Some ps, p :: r' =>
                  if tok_op "(" p then
                    match macro_parts 0 [] r' with
                    | Some (args, q) =>
                        match all_some (map (oexpand n' ms) args) with
                        | Some args' =>
                            if Nat.eqb (length args) (length ps) && no_hash (om_body m) then
                              match oexpand n' (without ms w) (replaced (FMac w ps (om_body m)) args'), oexpand n' ms q with
                              | Some x, Some y => Some (x ++ y)
                              | _, _ => None
                              end
                            else None
                        | None => None
                        end
                    | None => None
                    end
                  else option_map (cons (KId w)) (oexpand n' ms r)
              | Some _, [] => Some [KId w]
              end
          end
      | k :: r => option_map (cons k) (oexpand n' ms r)
      end
  end.

(** Lines one by one, as in HText.v. *)
Record ostate := OP { op_lex : lex; op_macros : list omacro; op_open : list bool }.
Definition op_on (s : ostate) : bool := forallb (fun x => x) (op_open s).
Definition op_line (s : ostate) (line : bytes) : option (list ctok * ostate) :=
  match lex_line (op_lex s) line with
  | None => None
  | Some (code, lx) =>
      let same_state := OP lx (op_macros s) (op_open s) in
      match (match op_lex s with XText => directive code | _ => None end) with
      | None =>
          if op_on s then
            match line_tokens code with
            | Some ks => option_map (fun r => (r, same_state)) (oexpand (64 + length ks) (op_macros s) ks)
            | None => None
            end
          else Some ([], same_state)
      | Some (d, rest) =>
          if bytes_eqb d (b "ifdef") then
            Some ([], OP lx (op_macros s) (match find_omacro (op_macros s) (operand rest) with Some _ => true | None => false end :: op_open s))
          else if bytes_eqb d (b "endif") then
            match op_open s with _ :: r => Some ([], OP lx (op_macros s) r) | [] => None end
          else if bytes_eqb d (b "include") then Some ([], same_state)
          else if bytes_eqb d (b "define") then
            if op_on s then option_map (fun m => ([], OP lx (m :: op_macros s) (op_open s))) (odefine rest) else Some ([], same_state)
          else None
      end
  end.
Fixpoint op_lines (s : ostate) (l : list bytes) : option (list ctok * ostate) :=
  match l with
  | [] => Some ([], s)
  | x :: r => match op_line s x with
              | Some (o, s1) => match op_lines s1 r with Some (o', s2) => Some (o ++ o', s2) | None => None end
              | None => None
              end
  end.
(** What is left for the compiler; what #include names is not inserted, and BUILD_DEBUG is not defined. *)
Definition source (text : bytes) : list tree :=
  match op_lines (OP XText [] []) (logical_lines text) with
  | Some (ks, OP XText _ []) => match trees ks with Some l => l | None => [] end
  | _ => []
  end.

(** ** Statements that HParse.v does not know *)

(** "throw e ;" is read as a call "throw(e)", "Token x(args);" as "auto x = Token(args);".  [seg]: what comes before the next
    semicolon. *)
Definition reread (t : tree) (acc : list tree * list tree) : list tree * list tree :=
  let '(seg, rest) := acc in
  if is_op ";" t then ([], t :: seg ++ rest)
  else if is_kw "throw" t then ([Lf (KId (b "throw")); Gr Paren seg], rest)
  else match t, seg with
       | Lf (KId w), [Lf (KId x); Gr Paren g] =>
           if same w (b "Token") then ([Lf (KKw (b "auto")); Lf (KId x); Lf (KOp (b "=")); Lf (KId w); Gr Paren g], rest)
           else (t :: seg, rest)
       | _, _ => (t :: seg, rest)
       end.
Fixpoint plain_tree (t : tree) : tree :=
  match t with
  | Lf k => Lf k
  | Gr k l => Gr k (let '(seg, rest) := fold_right (fun x acc => reread (plain_tree x) acc) ([], []) l in seg ++ rest)
  end.
Definition plain (l : list tree) : list tree := map plain_tree l.

(** ** Classes *)

(** A constructor "C ( parameters ) : member(value), … { body }"; a parameter has a type, a name, a default value. *)
Record lctor := LCtor { c_params : list (list bytes * bytes * option hexpr); c_inits : list (bytes * hexpr); c_body : list hstmt }.
Definition l_param (l : list tree) : option (list bytes * bytes * option hexpr) :=
  match halves (is_op "=") l with
  | Some (d, e) => match declared d, hexpr_of e with Some (t, x), Some e' => Some (t, x, Some e') | _, _ => None end
  | None => option_map (fun d => (d, None)) (declared l)
  end.
Definition l_init (l : list tree) : option (bytes * hexpr) :=
  match l with [Lf (KId m); Gr Paren g] => option_map (fun e => (m, e)) (hexpr_of g) | _ => None end.
Definition l_ctor (c : string) (i : item) : list lctor :=
  match it_body i, no_access (it_head i) with
  | Some body, Lf (KId c') :: Gr Paren ps :: q :: r =>
      if same (b c) c' && is_op ":" q then
        match all_some (map l_param (pieces (is_op ",") ps)), all_some (map l_init (pieces (is_op ",") r)), hbody_of body with
        | Some ps', Some is, Some ss => [LCtor ps' is ss]
        | _, _, _ => []
        end
      else []
  | _, _ => []
  end.
(** The constructor with that many parameters; "template<…>" before another is not its beginning. *)
Definition the_ctor (c : string) (n : nat) (l : list tree) : option lctor :=
  match filter (fun x => Nat.eqb (length (c_params x)) n) (flat_map (l_ctor c) (items [] l)) with [x] => Some x | _ => None end.

(** ** KEYWORDS (proto3.cc:138-174): an array of structures with the members code and keyword *)
Definition table_entry (ms : list bytes) (e : hexpr) : option hval :=
  match e, ms with
  | EList [ENum false z; EStr s], [c; k] => option_map (fun x => HObj [(c, HI IInt z); (k, HPtr x)]) (lit_go LText s)
  | EList [ENum false z; ENull], [c; k] => Some (HObj [(c, HI IInt z); (k, HNull)])
  | _, _ => None
  end.
Fixpoint drop_last_empty (l : list (list tree)) : list (list tree) :=
  match l with [] => [] | [[]] => [] | x :: r => x :: drop_last_empty r end.
Definition table (l : list tree) : list hval :=
  let ms := match members [] (inner_block l ["static const struct"]%string) with
            | Some [(t, c); (u, k)] => if words_eqb t [b "int"] && words_eqb u (words_of "const char *") then [c; k] else []
            | _ => []
            end in
  match all_some (map (fun p => match hexpr_of p with Some e => table_entry ms e | None => None end)
                      (drop_last_empty (pieces (is_op ",") (inner_block l ["KEYWORDS[] ="]%string)))) with
  | Some vs => vs
  | None => []
  end.

(** proto3.cc:138-174, 180-258, 261-279, 282-483. *)
Record ltext := LTx {
  l_words : list hval;
  l_stream : list hfun; l_start : option lctor;         (* InputStream(first, last) *)
  l_token : option lctor;                               (* Token(code, value, line, column) *)
  l_lexer : list hfun; l_make : option lctor            (* Tokenizer(is) *)
}.
Definition ltext_of (text : bytes) : ltext :=
  let s := plain (source text) in
  let p := inner_block s ["namespace protogen"]%string in
  let i := inner_block p ["template<typename I> class InputStream"]%string in
  let k := inner_block p ["template<typename I> class Tokenizer"]%string in
  LTx (table s) (hfunctions i) (the_ctor "InputStream" 2 i)
      (the_ctor "Token" 4 (inner_block p ["struct Token"]%string)) (hfunctions k) (the_ctor "Tokenizer" 1 k).
