(** The functions of a message that are left - deserialize for a std::istream and for characters in memory, serialize into a buffer
    (protogen.hh:637-661, 685-690), deserialize_array for characters in memory (json-array.hh:107-114), and the short functions of
    PG_X_Y_Z_ENTITY, struct message and PG_X_Y_Z_ENTITY_SERIALIZER (json.hh:101-104, 112-118, protogen.hh:700-704) - from the text of the
    headers, and their execution.  [None]: undefined, ill-formed or not in this part of C++. *)
From Verif Require Import Bytes Num Dbl Types Stream Tokenizer Write Read GenRead StdIn Sinks Cpp CLex CParse CExec Unit HdrText HText HParse HExec HTok HJson HApi HIter.

(** ** The texts *)

(** "mem_iterator < char >" and "mem_const_iterator < char >" as one name. *)
Definition mem_name : bytes := b "mem_iterator<char>".
Definition const_name : bytes := b "mem_const_iterator<char>".
Fixpoint join_mem (l : list tree) : list tree :=
  match l with
  | [] => []
  | x :: r =>
      match prefix_words (words_of "mem_iterator<char>") l, prefix_words (words_of "mem_const_iterator<char>") l with
      | Some _, _ => Lf (KId mem_name) :: skipn 3 (join_mem r)
      | _, Some _ => Lf (KId const_name) :: skipn 3 (join_mem r)
      | None, None => x :: join_mem r
      end
  end.

(** Statements: declarations with these types, expressions, "if ( c ) expression", "return e". *)
Definition w_sii : list bytes := Eval vm_compute in words_of "std::istream_iterator<char>".
Definition w_in_std : list bytes := Eval vm_compute in words_of "iterator_istream<std::istream_iterator<char>>".
Definition w_in_const : list bytes := [b "iterator_istream"; b "<"; const_name; b ">"].
Definition w_in_mem : list bytes := [b "iterator_istream"; b "<"; mem_name; b ">"].
Definition w_out_mem : list bytes := [b "iterator_ostream"; b "<"; mem_name; b ">"].
Definition s_types : list (list bytes) := [w_sii; w_in_std; w_in_const; w_in_mem; w_out_mem; [b "bool"]; [b "auto"]].
Definition s_stmt (l : list tree) : option hstmt :=
  match l with
  | k :: Gr Paren c :: r =>
      if is_kw "if" k then match hexpr_of c, hexpr_of r with Some c', Some e => Some (TIf c' (TExpr [e]) None) | _, _ => None end
      else option_map (fun e => TExpr [e]) (hexpr_of l)
  | k :: r => if is_kw "return" k then option_map (fun e => TReturn (Some e)) (hexpr_of r)
              else match var_type s_types l with
                   | Some (t, r') => declarator t r'
                   | None => option_map (fun e => TExpr [e]) (hexpr_of l)
                   end
  | [] => None
  end.
(** The last semicolon ends the body. *)
Definition s_body (l : list tree) : option (list hstmt) :=
  match rev (pieces (is_op ";") (join_mem l)) with
  | [] :: r => all_some (map s_stmt (rev r))
  | _ => None
  end.
Definition s_function (i : item) : list hfun :=
  match it_body i with
  | None => []
  | Some body =>
      match drop_idle (rev (no_access (it_head i))) with
      | Gr Paren ps :: Lf (KId f) :: r =>
          match spellings (drop_idle (no_template (rev r))), h_params ps, s_body body with
          | Some t, Some ps', Some ss => [HFun t f ps' ss]
          | _, _, _ => []
          end
      | _ => []
      end
  end.
Definition s_functions (l : list tree) : list hfun := flat_map s_function (items [] l).

(** [s_message]: struct message; [s_array]: json-array.hh; [s_iters]: mem_iterator and mem_const_iterator; [s_entity]: the functions of N
    and, since N derives from message, the operators of message; [s_json]: those of json<N>. *)
Record stext := STx { s_message : list hfun; s_array : list hfun; s_iters : itext; s_entity : list hfun; s_json : list hfun }.
Definition json_path : list string := ["namespace protogen_X_Y_Z"; "template<> struct json<N>"]%string.
Definition as_fun (f : ofun) : hfun := HFun [b "bool"] (o_op f) (o_params f) (o_body f).
Definition stext_of (protogen json arr : bytes) : stext :=
  let l := inner_block (header protogen) message_path in
  STx (s_functions l) (s_functions (inner_block (header arr) [ns])) (itext_of protogen)
      (hfunctions (inner_block (macro_body json "PG_X_Y_Z_ENTITY") entity_path) ++ map as_fun (flat_map ofunction (items [] l)))
      (hfunctions (inner_block (macro_body json "PG_X_Y_Z_ENTITY_SERIALIZER") json_path)).

(** ** The longer functions *)

(** [WIn]: the std::istream; [WFlags x]: its flags, of which only skipws counts; [WPtr w n]: a pointer to the character [n], of type char *
    if [w], otherwise const char *; [WPar]: the pointer to the parameters; [WT]: the container; [WIt c]: a std::istream_iterator<char> with
    that character, none at the end; [WConst], [WMem]: the cursor and the end of a mem_const_iterator or mem_iterator; the others: the streams (over either of these,
    [WMemStream]). *)
Inductive wval :=
  | WB (x : bool) | WIn | WFlags (x : bool) | WSkip | WPtr (w : bool) (n : nat) | WSize (z : Z) | WPar | WT | WIt (c : option ascii)
  | WConst (i : mem_citer) | WMem (cur last : nat)
  | WStdStream (i : iter_istream (option ascii * std_in)) | WMemStream (i : iter_istream mem_citer) | WOut (cur last : nat)
  | WVoid.
(** Variables; the std::istream; the characters in memory; the value read or written; the parameters. *)
Record wst := WSt { w_vars : list (bytes * wval); w_in : std_in; w_mem : bytes; w_val : val; w_par : option params }.
Definition w_with (s : wst) (i : std_in) : wst := WSt (w_vars s) i (w_mem s) (w_val s) (w_par s).

(** deserialize( is, params ) of json.hh:74-87 for an iterator_istream over istream_iterators: as [GenRead.g_deserialize], with the stream. *)
Definition entity_std (fuel n : nat) (ty0 : ty) (v : val) (i : iter_istream (option ascii * std_in)) (po : option params)
  : option (bool * val * option params * std_in) :=
  let po1 := clear_params po in
  let? t := g_make (ii_ops schar si_iops fuel) n i (p_err (ctx_params po)) in
  match g_read schar (ii_ops schar si_iops fuel) n ty0 t v with
  | None => None
  | Some (PGR_OK, v', t') => Some (true, v', po1, snd (ii_beg (gk_in t')))
  | Some (_, v', t') => Some (false, v', params_set_err po1 (gk_err t'), snd (ii_beg (gk_in t')))
  end.

Section Exec.
  (** Loops of streams and the reader, the type of the value; the characters from [lo] to [hi] may be read. *)
  Context (I : itext) (fuel n : nat) (ty0 : ty) (lo hi : nat).

  (** A constructor of an iterator over characters in memory: a const char * is no char *. *)
  Definition takes_ptr (k : iclass) (w : bool) : bool :=
    match i_ctor k with
    | Some c => match hc_params c with
                | (t, _) :: _ => words_eqb t (words_of "const T *") || (w && words_eqb t (words_of "T *"))
                | [] => false
                end
    | None => false
    end.
  Definition ends (k : iclass) (w : bool) (p : nat) (z : Z) (m : bytes) : option (nat * nat) :=
    if takes_ptr k w then
      match iter_new k [XPtr p; XNum z] m with
      | Some l => match assoc l (b "cursor"), assoc l (b "end") with Some (XPtr c), Some (XPtr e) => Some (c, e) | _, _ => None end
      | None => None
      end
    else None.

  Definition call_std (f : bytes) (args : list wval) (s : wst) : option (wval * wst) :=
    match args with
    | [WStdStream i; WPar] =>
        if same f (b "deserialize") then
          match entity_std fuel n ty0 (w_val s) i (w_par s) with
          | Some (x, v, po, s') => Some (WB x, WSt (w_vars s) s' (w_mem s) v po)
          | None => None
          end
        else None
    | [WMemStream i; WPar] | [WT; WMemStream i; WPar] =>
        if same f (match args with [_; _] => b "deserialize" | _ => b "deserialize_array" end) then
          match g_deserialize schar (ii_ops schar (mem_iops lo hi (w_mem s)) fuel) n ty0 (w_val s) i (w_par s) with
          | Some (x, v, po) => Some (WB x, WSt (w_vars s) (w_in s) (w_mem s) v po)
          | None => None
          end
        else None
    | [WOut c e; WPar] =>
        if same f (b "serialize") then
          let '(x, o, po) := serialize ty0 (w_val s) (w_par s) in
          match sink_mem_all (MI (w_mem s) c e) o with
          | Some k => Some (WB x, WSt (w_vars s) (w_in s) (mi_mem k) (w_val s) po)
          | None => None
          end
        else None
    | [WPtr w p; WSize z] =>
        if same f const_name then option_map (fun x => (WConst (MCI (fst x) (snd x)), s)) (ends (t_const I) w p z (w_mem s))
        else if same f mem_name then option_map (fun x => (WMem (fst x) (snd x), s)) (ends (t_mem I) w p z (w_mem s))
        else None
    | _ => None
    end.
  Definition call_manip (ws : list bytes) (s : wst) : option wst :=
    if words_eqb ws (words_of "std::noskipws") then Some (w_with s (si_set_skipws false (w_in s)))
    else if words_eqb ws (words_of "std::skipws") then Some (w_with s (si_set_skipws true (w_in s))) else None.

  (** Operands; then expressions. *)
  Definition satom (e : hexpr) (s : wst) : option wval :=
    match e with
    | EName [x] => assoc (w_vars s) x
    | EName ws => if words_eqb ws (words_of "std::ios_base::skipws") then Some WSkip else None
    | ENum false z => Some (WSize z)
    | ECall (EDot (EName [x]) f) [] =>
        match assoc (w_vars s) x with Some WIn => if same f (b "flags") then Some (WFlags (si_skipws (w_in s))) else None | _ => None end
    | EBin op (EName [x]) (EName [y]) =>
        match assoc (w_vars s) x, assoc (w_vars s) y with
        | Some (WPtr w p), Some (WSize z) =>
            if same op (b "+") && (0 <=? z) && (Z.of_nat p + z <=? Z.of_nat (length (w_mem s))) then Some (WPtr w (p + Z.to_nat z)) else None
        | _, _ => None
        end
    | _ => None
    end.
  Fixpoint satoms (l : list hexpr) (s : wst) : option (list wval) :=
    match l with
    | [] => Some []
    | e :: r => match satom e s, satoms r s with Some x, Some xs => Some (x :: xs) | _, _ => None end
    end.
  Definition seval (e : hexpr) (s : wst) : option (wval * wst) :=
    match e with
    | EBin op x y =>
        match satom x s, satom y s with
        | Some (WFlags f), Some WSkip => if same op (b "&") then Some (WB f, s) else None
        | _, _ => option_map (fun v => (v, s)) (satom e s)
        end
    | ECall (EName ws) args =>
        match satoms args s with
        | Some [WIn] => option_map (fun s1 => (WVoid, s1)) (call_manip ws s)
        | Some xs => match ws with [f] => call_std f xs s | _ => None end
        | None => None
        end
    | _ => option_map (fun v => (v, s)) (satom e s)
    end.

  (** A variable; "auto" is the type of the initializer. *)
  Definition sadd (x : bytes) (v : wval) (s : wst) : option wst :=
    match assoc (w_vars s) x with
    | Some _ => None
    | None => Some (WSt ((x, v) :: w_vars s) (w_in s) (w_mem s) (w_val s) (w_par s))
    end.
  (** Constructors; of two istream_iterators over one stream, one must be at the end. *)
  Definition sobject (t : list bytes) (args : list wval) (s : wst) : option (wval * wst) :=
    match args with
    | [] => if words_eqb t w_sii then Some (WIt None, s) else None
    | [WIn] => if words_eqb t w_sii then let '(c, i) := si_extract (w_in s) in Some (WIt c, w_with s i) else None
    | [WIt c; WIt None] =>
        if words_eqb t w_in_std then
          match ii_make si_iops fuel (c, w_in s) (None, SIn [] true false) with
          | Some i => Some (WStdStream i, w_with s (snd (ii_beg i)))
          | None => None
          end
        else None
    | [WConst x; WConst y] =>
        if words_eqb t w_in_const then option_map (fun i => (WMemStream i, s)) (ii_make (mem_iops lo hi (w_mem s)) fuel x y) else None
    | [WMem c e] => if words_eqb t w_out_mem then Some (WOut c e, s) else None
    | [WMem x x'; WMem y y'] =>
        if words_eqb t w_in_mem then option_map (fun i => (WMemStream i, s)) (ii_make (mem_iops lo hi (w_mem s)) fuel (MCI x x') (MCI y y')) else None
    | _ => None
    end.
  Fixpoint sexec (l : list hstmt) (s : wst) : option (wval * wst) :=
    match l with
    | [] => None
    | st :: r =>
        match st with
        | TReturn (Some e) => seval e s
        | TExpr [e] => match seval e s with Some (_, s1) => sexec r s1 | None => None end
        | TIf c (TExpr [e]) None =>
            match seval c s with
            | Some (WB true, s1) => match seval e s1 with Some (_, s2) => sexec r s2 | None => None end
            | Some (WB false, s1) => sexec r s1
            | _ => None
            end
        | TVar t x None None => match sobject t [] s with
                                | Some (v, s1) => match sadd x v s1 with Some s2 => sexec r s2 | None => None end
                                | None => None
                                end
        | TVar t x None (Some e) =>
            match seval e s with
            | Some (v, s1) =>
                if words_eqb t [b "auto"] || (words_eqb t [b "bool"] && match v with WB _ => true | _ => false end)
                then match sadd x v s1 with Some s2 => sexec r s2 | None => None end else None
            | None => None
            end
        | TObj t x es =>
            match satoms es s with
            | Some xs => match sobject t xs s with
                         | Some (v, s1) => match sadd x v s1 with Some s2 => sexec r s2 | None => None end
                         | None => None
                         end
            | None => None
            end
        | _ => None
        end
    end.
  (** The one function with this name for these arguments; it returns a bool. *)
  Definition s_accepts (t : list bytes) (v : wval) : bool :=
    match v with
    | WIn => words_eqb t (words_of "std::istream &")
    | WPtr w _ => words_eqb t (words_of "const char *") || (w && words_eqb t (words_of "char *"))
    | WSize _ => words_eqb t (words_of "size_t")
    | WPar => words_eqb t (words_of "Parameters *")
    | WT => words_eqb t (words_of "T &")
    | _ => false
    end.
  Definition s_takes (f : hfun) (args : list wval) : bool :=
    Nat.eqb (length (hf_params f)) (length args) && forallb (fun x => s_accepts (fst (fst x)) (snd x)) (combine (hf_params f) args).
  (** A pointer gets the type of the parameter. *)
  Definition s_bound (t : list bytes) (v : wval) : wval :=
    match v with WPtr _ n => WPtr (words_eqb t (words_of "char *")) n | _ => v end.
  Definition scall (fs : list hfun) (f : bytes) (args : list wval) (i : std_in) (m : bytes) (v : val) (po : option params)
    : option (bool * val * option params * std_in * bytes) :=
    match filter (fun x => same (hf_name x) f && s_takes x args) fs with
    | [x] =>
        if words_eqb (hf_ret x) [b "bool"] then
          match sexec (hf_body x) (WSt (map (fun a => (snd (fst a), s_bound (fst (fst a)) (snd a))) (combine (hf_params x) args)) i m v po) with
          | Some (WB r, s) => Some (r, w_val s, w_par s, w_in s, w_mem s)
          | _ => None
          end
        else None
    | _ => None
    end.
End Exec.

(** ** The short functions *)

(** [MObj n]: a message; [MCtx]: the context; [MName s]: a std::string; [MCode r]: an int. *)
Inductive mval := MObj (n : nat) | MCtx | MName (s : bytes) | MB (x : bool) | MCode (r : Z) | MVoid.
Section Short.
  (** [ser]: the functions of S; [own]: the functions of *this. *)
  Context {M : Type} (ser : bytes -> list mval -> M -> option (mval * M)).
  Section Eval.
    Context (own : bytes -> list mval -> M -> option (mval * M)) (this : option nat) (vars : list (bytes * mval)).
    Definition matom (e : hexpr) : option mval :=
      match e with
      | EName [x] => assoc vars x
      | EPre op EThis => if same op (b "*") then option_map MObj this else None
      | _ => None
      end.
    Fixpoint matoms (l : list hexpr) : option (list mval) :=
      match l with [] => Some [] | e :: r => match matom e, matoms r with Some x, Some xs => Some (x :: xs) | _, _ => None end end.
    Fixpoint meval (e : hexpr) (m : M) : option (mval * M) :=
      match e with
      | EPre op e' => if same op (b "!") then match meval e' m with Some (MB x, m1) => Some (MB (negb x), m1) | _ => None end else None
      | ECall (EName ws) args =>
          match matoms args with
          | Some xs => match after_words (words_of "S::") ws, ws with
                       | Some [f], _ => ser f xs m
                       | _, [f] => own f xs m
                       | _, _ => None
                       end
          | None => None
          end
      | _ => None
      end.
  End Eval.
  Definition m_accepts (t : list bytes) (v : mval) : bool :=
    match v with
    | MObj _ => existsb (words_eqb t) (map words_of ["O &"; "const O &"; "const T &"]%string)
    | MCtx => words_eqb t (words_of "json_context &")
    | MName _ => words_eqb t (words_of "const std::string &")
    | _ => false
    end.
  Definition m_takes (f : hfun) (args : list mval) : bool :=
    Nat.eqb (length (hf_params f)) (length args) && forallb (fun x => m_accepts (fst (fst x)) (snd x)) (combine (hf_params f) args).
  Definition m_result (t : list bytes) (x : mval) : option mval :=
    match x with
    | MB _ => if words_eqb t [b "bool"] then Some x else None
    | MCode _ => if words_eqb t [b "int"] then Some x else None
    | MVoid => if words_eqb t [b "void"] then Some x else None
    | _ => None
    end.
  (** [k]: how many calls may be open. *)
  Fixpoint mcall (k : nat) (fs : list hfun) (this : option nat) (f : bytes) (args : list mval) (m : M) : option (mval * M) :=
    match k with
    | O => None
    | S k' =>
        match filter (fun x => same (hf_name x) f && m_takes x args) fs with
        | [x] =>
            let run e := meval (mcall k' fs this) this (combine (map snd (hf_params x)) args) e m in
            match hf_body x with
            | [TReturn (Some e)] => match run e with Some (v, m1) => option_map (fun w => (w, m1)) (m_result (hf_ret x) v) | None => None end
            | [TExpr [e]] => match run e with Some (_, m1) => option_map (fun w => (w, m1)) (m_result (hf_ret x) MVoid) | None => None end
            | _ => None
            end
        | _ => None
        end
    end.
End Short.

Definition the_std : stext := Eval vm_compute in stext_of protogen_hh json_hh json_array_hh.
