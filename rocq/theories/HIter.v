(** The iterators and the output stream of protogen.hh - iterator_ostream, mem_iterator, mem_const_iterator - from their text, and
    the execution of their operators.  [None]: undefined, ill-formed, not in this part of C++, or more iterations than allowed. *)
From Verif Require Import Bytes Stream Cpp CLex CParse CExec Unit HdrText HText HParse HExec HTok HApi.

(** ** The texts *)

(** "operator ++ ( parameters ) { body }" *)
Record ofun := OFun { o_op : bytes; o_params : list (list bytes * bytes); o_body : list hstmt }.
Definition ofunction (i : item) : list ofun :=
  match it_body i, drop_idle (rev (no_access (it_head i))) with
  | Some body, Gr Paren ps :: Lf (KOp op) :: k :: _ =>
      if is_kw "operator" k then
        match h_params ps, hbody_of body with Some ps', Some ss => [OFun op ps' ss] | _, _ => [] end
      else []
  | _, _ => []
  end.

(** Members with these types; none has an initializer. *)
Definition cell_types : list (list bytes) := map words_of ["I"; "const T *"; "T *"; "T"]%string.
Definition cell (i : item) : list (list bytes * bytes) :=
  match it_body i with
  | Some _ => []
  | None => match var_type cell_types (no_access (it_head i)) with Some (t, [Lf (KId x)]) => [(t, x)] | _ => [] end
  end.

Record iclass := IClass { i_cells : list (list bytes * bytes); i_ctor : option hctor; i_ops : list ofun }.
Definition iclass_of (l : list tree) (c : string) (n : nat) : iclass :=
  IClass (flat_map cell (items [] l)) (hconstructor c n l) (flat_map ofunction (items [] l)).

(** protogen.hh:117-143, 198-222, 224-248. *)
Record itext := ITx { t_out : iclass; t_mem : iclass; t_const : iclass }.
Definition itext_of (protogen : bytes) : itext :=
  let p := header protogen in
  ITx (iclass_of (inner_block p [ns; "template<typename I> class iterator_ostream : public ostream"]%string) "iterator_ostream" 1)
      (iclass_of (inner_block p [ns; "template<class T> class mem_iterator"]%string) "mem_iterator" 2)
      (iclass_of (inner_block p [ns; "template<class T> class mem_const_iterator"]%string) "mem_const_iterator" 2).

(** ** Values *)

(** [XPtr]: a place in the array of the caller, or its end; [XArr]: a pointer to these characters, the rest of an array;
    [XIt]: an iterator of a string with these characters before its end; [XObj]: an object of the iterator class; [XBack]: a
    std::back_insert_iterator or std::ostream_iterator<char> for the characters of the caller. *)
Inductive ival :=
  | XNum (z : Z) | XChr (z : Z) | XBool (x : bool) | XPtr (n : nat) | XArr (s : bytes) | XString (s : bytes) | XIt (s : bytes)
  | XObj (l : list (bytes * ival)) | XBack.
(** A value, or an object: a variable, a member of *this, a member of the member, a character of the caller, *this, what a
    back inserter gives with "*". *)
Inductive ires := JVal (v : ival) | JVar (x : bytes) | JMember (x : bytes) | JIn (x y : bytes) | JMem (n : nat) | JThis | JBack.
(** The members of *this, parameters and variables, the characters of the caller. *)
Record ist := ISt { j_this : list (bytes * ival); j_vars : list (bytes * ival); j_mem : bytes }.

Definition iload (s : ist) (r : ires) : option ival :=
  match r with
  | JVal v => Some v
  | JVar x => assoc (j_vars s) x
  | JMember x => assoc (j_this s) x
  | JIn x y => match assoc (j_this s) x with Some (XObj l) => assoc l y | _ => None end
  | JMem n => option_map (fun c => XChr (schar c)) (nth_error (j_mem s) n)
  | JThis | JBack => None
  end.
Definition istore (s : ist) (r : ires) (v : ival) : option ist :=
  match r, v with
  | JVar x, _ => Some (ISt (j_this s) (update (j_vars s) x v) (j_mem s))
  | JMember x, _ => Some (ISt (update (j_this s) x v) (j_vars s) (j_mem s))
  | JIn x y, XChr _ =>
      match assoc (j_this s) x with Some (XObj l) => Some (ISt (update (j_this s) x (XObj (update l y v))) (j_vars s) (j_mem s)) | _ => None end
  | JMem n, XChr z =>
      if Nat.ltb n (length (j_mem s)) then Some (ISt (j_this s) (j_vars s) (set_nth n (chr z) (j_mem s))) else None
  | JBack, XChr z => Some (ISt (j_this s) (j_vars s) (sink_append (j_mem s) (chr z)))
  | _, _ => None
  end.

(** ** Execution *)
Definition has {A} (l : list (bytes * A)) (x : bytes) : bool := match assoc l x with Some _ => true | None => false end.
Section Exec.
  (** [inner op l m]: the operator [op] of the iterator class for an object with the members [l]; [own t v s]: *this << v for v of
      type [t]; [loops]: iterations of a loop. *)
  Context (loops : nat) (inner : bytes -> list (bytes * ival) -> bytes -> option (ires * list (bytes * ival) * bytes))
          (own : list bytes -> ival -> ist -> option (ires * ist)).

  (** ++x *)
  Definition i_next (r : ires) (s : ist) : option (ires * ist) :=
    match iload s r with
    | Some (XIt (_ :: t)) => option_map (fun s' => (r, s')) (istore s r (XIt t))
    | Some (XObj l) =>
        match inner (b "++") l (j_mem s) with
        | Some (JThis, l', m) => option_map (fun s' => (r, s')) (istore (ISt (j_this s) (j_vars s) m) r (XObj l'))
        | _ => None
        end
    | Some XBack => Some (r, s)
    | _ => None
    end.
  (** *x *)
  Definition i_deref (r : ires) (s : ist) : option (ires * ist) :=
    match iload s r with
    | Some (XPtr n) => if Nat.ltb n (length (j_mem s)) then Some (JMem n, s) else None
    | Some (XIt (c :: _)) | Some (XArr (c :: _)) => Some (JVal (XChr (schar c)), s)
    | Some (XObj l) =>
        match inner (b "*") l (j_mem s), r with
        | Some (JMem n, l', m), _ => option_map (fun s' => (JMem n, s')) (istore (ISt (j_this s) (j_vars s) m) r (XObj l'))
        | Some (JMember y, l', m), JMember x => option_map (fun s' => (JIn x y, s')) (istore (ISt (j_this s) (j_vars s) m) r (XObj l'))
        | _, _ => None
        end
    | Some XBack => Some (JBack, s)
    | _ => None
    end.
  (** x++ *)
  Definition i_post (r : ires) (s : ist) : option (ires * ist) :=
    match iload s r with
    | Some (XPtr n) => if Nat.ltb n (length (j_mem s)) then option_map (fun s' => (JVal (XPtr n), s')) (istore s r (XPtr (S n))) else None
    | Some (XArr (c :: t)) => option_map (fun s' => (JVal (XArr (c :: t)), s')) (istore s r (XArr t))
    | _ => None
    end.
  (** Pointers into one array compare as their places; "p + n" stays within it. *)
  Definition i_binary (m : bytes) (op : bytes) (x y : ival) : option ival :=
    match x, y with
    | XPtr p, XPtr q =>
        if same op (b "<") then Some (XBool (Nat.ltb p q)) else if same op (b ">=") then Some (XBool (Nat.leb q p))
        else if same op (b "==") then Some (XBool (Nat.eqb p q)) else None
    | XPtr p, XNum z =>
        if same op (b "+") && (0 <=? z) && (Z.of_nat p + z <=? Z.of_nat (length m)) then Some (XPtr (p + Z.to_nat z)) else None
    | XIt p, XIt q => if same op (b "!=") then Some (XBool (negb (Nat.eqb (length p) (length q)))) else None
    | XChr z, XNum z' => if same op (b "!=") then Some (XBool (negb (z =? z'))) else None
    | _, _ => None
    end.

  (** The right side of an assignment first; in the functions here neither side sees an effect of the other. *)
  Fixpoint ieval (e : hexpr) (s : ist) : option (ires * ist) :=
    let value e s := match ieval e s with Some (r, s1) => match iload s1 r with Some v => Some (v, s1) | None => None end | None => None end in
    match e with
    | EThis => None
    | ENum false z => Some (JVal (XNum z), s)
    | EName [x] => if has (j_vars s) x then Some (JVar x, s) else if has (j_this s) x then Some (JMember x, s) else None
    | EDot e m => match value e s with Some (XObj l, s1) => match assoc l m with Some v => Some (JVal v, s1) | None => None end | _ => None end
    | ECall (EDot e f) [] =>
        match value e s with
        | Some (XString t, s1) =>
            if same f (b "begin") then Some (JVal (XIt t), s1) else if same f (b "end") then Some (JVal (XIt []), s1) else None
        | _ => None
        end
    | EPre op e =>
        if same op (b "++") then match ieval e s with Some (r, s1) => i_next r s1 | None => None end
        else if same op (b "*") then
          match e with
          | EThis => Some (JThis, s)
          | _ => match ieval e s with Some (r, s1) => i_deref r s1 | None => None end
          end
        else None
    | EPost op e => if same op (b "++") then match ieval e s with Some (r, s1) => i_post r s1 | None => None end else None
    | EBin op x y =>
        match x, y with
        | EPre d EThis, ECast t y' =>
            if same op (b "<<") && same d (b "*") then match value y' s with Some (v, s1) => own t v s1 | None => None end else None
        | _, _ =>
            match value x s with
            | Some (u, s1) => match value y s1 with
                              | Some (v, s2) => match i_binary (j_mem s2) op u v with Some w => Some (JVal w, s2) | None => None end
                              | None => None
                              end
            | None => None
            end
        end
    | ESet op x y =>
        if same op (b "=") then
          match value y s with
          | Some (v, s1) => match ieval x s1 with
                            | Some (r, s2) => option_map (fun s3 => (r, s3)) (istore s2 r v)
                            | None => None
                            end
          | None => None
          end
        else None
    | _ => None
    end.
  Definition ivalue (e : hexpr) (s : ist) : option (ival * ist) :=
    match ieval e s with Some (r, s1) => match iload s1 r with Some v => Some (v, s1) | None => None end | None => None end.

  Fixpoint i_while (n : nat) (c : hexpr) (body : ist -> option ist) (s : ist) : option ist :=
    match n with
    | O => None
    | S n' =>
        match ivalue c s with
        | Some (XBool false, s1) => Some s1
        | Some (XBool true, s1) => match body s1 with Some s2 => i_while n' c body s2 | None => None end
        | _ => None
        end
    end.
  Definition i_expr (e : hexpr) (s : ist) : option ist := option_map snd (ieval e s).
  (** A statement that does not return. *)
  Definition i_step (t : hstmt) (s : ist) : option ist :=
    match t with
    | TExpr [e] => i_expr e s
    | TWhile c (TExpr [e]) => i_while loops c (i_expr e) s
    | TFor (TVar ty x None (Some i)) c [p] (TExpr [e]) =>
        if words_eqb ty [b "auto"] then
          match ivalue i s with
          | Some (v, s1) =>
              match i_while loops c (fun s => match i_expr e s with Some s' => i_expr p s' | None => None end)
                            (ISt (j_this s1) ((x, v) :: j_vars s1) (j_mem s1)) with
              | Some s2 => Some (ISt (j_this s2) (tl (j_vars s2)) (j_mem s2))
              | None => None
              end
          | None => None
          end
        else None
    | _ => None
    end.
  (** A body: its statements, until one returns; "if (c) return e;" and "if (c) e;". *)
  Fixpoint i_body (l : list hstmt) (s : ist) : option (ires * ist) :=
    match l with
    | [] => None
    | TReturn (Some e) :: _ => ieval e s
    | TIf c t None :: r =>
        match ivalue c s with
        | Some (XBool true, s1) =>
            match t with
            | TReturn (Some e) => ieval e s1
            | _ => match i_step t s1 with Some s2 => i_body r s2 | None => None end
            end
        | Some (XBool false, s1) => i_body r s1
        | _ => None
        end
    | t :: r => match i_step t s with Some s1 => i_body r s1 | None => None end
    end.
End Exec.

(** *** Calls *)

(** The one operator with this name and types of parameters. *)
Definition ofind (fs : list ofun) (op : bytes) (ts : list (list bytes)) : option ofun :=
  match filter (fun f => same (o_op f) op && Nat.eqb (length (o_params f)) (length ts)
                         && forallb (fun x => words_eqb (fst x) (snd x)) (combine (map fst (o_params f)) ts)) fs with
  | [f] => Some f
  | _ => None
  end.
Definition obind (f : ofun) (vs : list ival) : list (bytes * ival) := combine (map snd (o_params f)) vs.
Definition no_inner (op : bytes) (l : list (bytes * ival)) (m : bytes) : option (ires * list (bytes * ival) * bytes) := None.
Definition no_own (t : list bytes) (v : ival) (s : ist) : option (ires * ist) := None.

(** An operator of an iterator: what it gives (the object, a member, a character of the caller or a value), the members of the iterator
    and the characters of the caller afterwards. *)
Definition iter_op (k : iclass) (op : bytes) (args : list (list bytes * ival)) (l : list (bytes * ival)) (m : bytes)
  : option (ires * list (bytes * ival) * bytes) :=
  match ofind (i_ops k) op (map fst args) with
  | Some f =>
      match i_body 0 no_inner no_own (o_body f) (ISt l (obind f (map snd args)) m) with
      | Some (JVar _, _) | Some (JIn _ _, _) | Some (JBack, _) => None
      | Some (r, s) => Some (r, j_this s, j_mem s)
      | None => None
      end
  | None => None
  end.
(** Its constructor, with T = char; the body is empty. *)
Definition cell_conv (t : list bytes) (v : ival) : option ival :=
  match v with
  | XPtr n => if words_eqb t (words_of "const T *") || words_eqb t (words_of "T *") then Some v else None
  | XNum 0 => if words_eqb t (words_of "T") then Some (XChr 0) else None
  | XObj _ | XBack => if words_eqb t (words_of "I") then Some v else None
  | _ => None
  end.
Definition iter_new (k : iclass) (args : list ival) (m : bytes) : option (list (bytes * ival)) :=
  match i_ctor k with
  | Some (HCtor ps inits []) =>
      if Nat.eqb (length ps) (length args) then
        all_some (map (fun c : list bytes * bytes =>
                         match assoc inits (snd c) with
                         | Some [e] => match ivalue no_inner no_own e (ISt [] (combine (map snd ps) args) m) with
                                       | Some (v, _) => option_map (fun w => (snd c, w)) (cell_conv (fst c) v)
                                       | None => None
                                       end
                         | _ => None
                         end) (i_cells k))
      else None
  | _ => None
  end.

(** out << v for v of type [t], where the iterators of [out] are of the class [k]; an operator may call another one of the same
    stream ([n]: how often). *)
Fixpoint out_op (loops : nat) (o k : iclass) (n : nat) (t : list bytes) (v : ival) (s : ist) : option (ires * ist) :=
  match n with
  | O => None
  | S n' =>
      match ofind (i_ops o) (b "<<") [t] with
      | Some f =>
          match i_body loops (fun op => iter_op k op []) (out_op loops o k n') (o_body f) (ISt (j_this s) (obind f [v]) (j_mem s)) with
          | Some (r, s1) => Some (r, ISt (j_this s1) (j_vars s) (j_mem s1))
          | None => None
          end
      | None => None
      end
  end.

Definition the_iters : itext := Eval vm_compute in itext_of protogen_hh.
