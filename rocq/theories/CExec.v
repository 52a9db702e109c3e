(** Execution of the functions of the generated classes (ISO/IEC 14882:2011 [expr], [stmt.stmt]),
    as CParse.v reads them.  [None]: undefined, ill-formed, not in this part of C++, or a callee
    gave no result (its fuel). *)
From Verif Require Import Bytes Num Types Stream Tokenizer Read Write Cpp CLex CParse.

(** The functions of [json<T>] for the type of a member. *)
Record mfun := MFun {
  f_read : tokenizer -> val -> rres val;
  f_write : val -> errinfo -> wres;
  f_empty : val -> bool;
  f_clear : val -> val;
  f_equal : val -> val -> bool;
  f_swap : val -> val -> val * val
}.

(** Values of expressions.  [WObj], [WMember]: the object bound to a reference and one of its
    members; [ro]: through a reference to const. *)
Inductive cval :=
  | WVoid | WBool (x : bool) | WInt (z : Z) | WText (s : bytes) | WResult (r : pgr)
  | WCtx | WParams | WStreamPtr | WStream                        (* json_context, .params, .os, *os *)
  | WObj (ro : bool) (o : bytes) | WMember (ro : bool) (o : bytes) (k : nat)
  | WPairs (l : list (bytes * Z)) | WIter (i : option Z)         (* unordered_map, its iterator *)
  | WList (l : list cval).                                       (* a braced list *)

(** [x_objs]: the objects bound to references, by the name of the parameter;
    [x_vars]: parameters and local variables, the last declared first. *)
Record cexec := X {
  x_objs : list (bytes * list val);
  x_vars : list (bytes * cval);
  x_out : bytes;
  x_err : errinfo;
  x_tok : tokenizer
}.
Definition with_objs (s : cexec) l := X l (x_vars s) (x_out s) (x_err s) (x_tok s).
Definition with_vars (s : cexec) l := X (x_objs s) l (x_out s) (x_err s) (x_tok s).
Definition with_out (s : cexec) o e := X (x_objs s) (x_vars s) o e (x_tok s).
Definition with_tok (s : cexec) t := X (x_objs s) (x_vars s) (x_out s) (x_err s) t.

Fixpoint assoc {A} (l : list (bytes * A)) (k : bytes) : option A :=
  match l with [] => None | (x, a) :: r => if same x k then Some a else assoc r k end.
(** The first entry with that key gets another value. *)
Fixpoint update {A} (l : list (bytes * A)) (k : bytes) (a : A) : list (bytes * A) :=
  match l with [] => [] | (x, a') :: r => if same x k then (x, a) :: r else (x, a') :: update r k a end.

Definition get_member (s : cexec) (o : bytes) (k : nat) : option val :=
  match assoc (x_objs s) o with Some vs => nth_error vs k | None => None end.
Definition set_member (s : cexec) (o : bytes) (k : nat) (v : val) : cexec :=
  match assoc (x_objs s) o with
  | Some vs => with_objs s (update (x_objs s) o (set_nth k v vs))
  | None => s
  end.

(** [unordered_map(initializer_list)] ([unord.map.cnstr], [unord.req]): a pair whose key is there
    already is not inserted. *)
Definition put (l : list (bytes * Z)) (x : bytes * Z) : list (bytes * Z) :=
  match assoc l (fst x) with Some _ => l | None => l ++ [x] end.
Definition pair_of (x : cval) : option (bytes * Z) :=
  match x with WList [WText s; WInt z] => Some (s, z) | _ => None end.

(** A character literal without escapes. *)
Definition chr_lit (s : bytes) : option bytes :=
  match s with [c] => if Ascii.eqb c "\" then None else Some [c] | _ => None end.

(** The value given to a variable of type [t]. *)
Definition convert (t : ltype) (x : cval) : option cval :=
  match t, x with
  | LInt, WInt _ | LBool, WBool _ | LString, WText _ | LStringRef, WText _ | LAuto, WIter _ => Some x
  | LMap, WList l => option_map (fun ps => WPairs (fold_left put ps [])) (all_some (map pair_of l))
  | _, _ => None
  end.

Section Exec.
  (** [serialize_null] of the parameters of the context; names of the members of the class
      and the functions for their types. *)
  Context (sn : bool) (names : list bytes) (fns : list mfun).
  (** Functions called by an unqualified name. *)
  Context (call : bytes -> list cval -> cexec -> option (cval * cexec)).

  (** [json<decltype(x.m)>::f(args)], [k] the position of [m]. *)
  Definition member_call (k : nat) (f : bytes) (args : list cval) (s : cexec) : option (cval * cexec) :=
    match nth_error fns k with
    | None => None
    | Some mf =>
        match args with
        | [WMember ro o i] =>
            match get_member s o i with
            | None => None
            | Some v =>
                if same f (b "empty") then Some (WBool (f_empty mf v), s)
                else if same f (b "clear") && negb ro then Some (WVoid, set_member s o i (f_clear mf v))
                else None
            end
        | [WCtx; WMember ro o i] =>
            match get_member s o i with
            | None => None
            | Some v =>
                if same f (b "read") && negb ro then
                  match f_read mf (x_tok s) v with
                  | Some (r, v', t) => Some (WResult r, with_tok (set_member s o i v') t)
                  | None => None
                  end
                else if same f (b "write") then
                  let '(r, w, e) := f_write mf v (x_err s) in Some (WResult r, with_out s (x_out s ++ w) e)
                else None
            end
        | [WMember ro o i; WMember ro' o' i'] =>
            match get_member s o i, get_member s o' i' with
            | Some v, Some v' =>
                if same f (b "equal") then Some (WBool (f_equal mf v v'), s)
                else if same f (b "swap") && negb ro && negb ro' && negb (same o o') then
                  let '(w, w') := f_swap mf v v' in Some (WVoid, set_member (set_member s o i w) o' i' w')
                else None
            | _, _ => None
            end
        | _ => None
        end
    end.

  (** [x.m], [x->m] *)
  Definition dot (x : cval) (m : bytes) : option cval :=
    match x with
    | WObj ro o => option_map (WMember ro o) (member_pos names m)
    | WCtx => if same m (b "os") then Some WStreamPtr
              else if same m (b "params") then Some WParams else None
    | WParams => if same m (b "serialize_null") then Some (WBool sn) else None
    | _ => None
    end.
  (** An iterator that is the end of the table has no element. *)
  Definition arrow (x : cval) (m : bytes) : option cval :=
    match x with
    | WIter (Some z) => if same m (b "second") then Some (WInt z) else None
    | _ => None
    end.

  (** [PGR_OK] and the others (protogen.hh:47-52). *)
  Definition constant (x : bytes) : option cval :=
    if same x (b "PGR_OK") then Some (WResult PGR_OK)
    else if same x (b "PGR_ERROR") then Some (WResult PGR_ERROR)
    else if same x (b "PGR_NIL") then Some (WResult PGR_NIL) else None.

  (** A member function of an object that is not of a generated class. *)
  Definition method (x : cval) (m : bytes) (args : list cval) : option cval :=
    match x, args with
    | WPairs l, [WText s] => if same m (b "find") then Some (WIter (assoc l s)) else None
    | WPairs l, [] => if same m (b "end") then Some (WIter None) else None
    | _, _ => None
    end.

  Definition operate (op : bytes) (x y : cval) (s : cexec) : option (cval * cexec) :=
    match x, y with
    | WStream, WText t => if same op (b "<<") then Some (WStream, with_out s (x_out s ++ t) (x_err s)) else None
    | WInt u, WInt v => if same op (b "<") then Some (WBool (u <? v), s)
                        else if same op (b "==") then Some (WBool (u =? v), s) else None
    | WIter i, WIter None =>                          (* comparison with the end *)
        if same op (b "==") then Some (WBool (match i with None => true | Some _ => false end), s) else None
    | _, _ => None
    end.

  Fixpoint eval (e : expr) (s : cexec) {struct e} : option (cval * cexec) :=
    let evals := fix evals (l : list expr) (s : cexec) {struct l} : option (list cval * cexec) :=
      match l with
      | [] => Some ([], s)
      | e :: r => match eval e s with
                  | Some (x, s1) => match evals r s1 with Some (xs, s2) => Some (x :: xs, s2) | None => None end
                  | None => None
                  end
      end in
    match e with
    | XName x => match assoc (x_vars s) x with
                 | Some v => Some (v, s)
                 | None => option_map (fun v => (v, s)) (constant x)
                 end
    | XBool x => Some (WBool x, s)
    | XNum z => Some (WInt z, s)
    | XStr t => option_map (fun x => (WText (cstr x), s)) (lit_go LText t)
    | XChr t => option_map (fun x => (WText x, s)) (chr_lit t)
    | XDot e m => match eval e s with
                  | Some (x, s1) => option_map (fun v => (v, s1)) (dot x m)
                  | None => None
                  end
    | XArrow e m => match eval e s with
                    | Some (x, s1) => option_map (fun v => (v, s1)) (arrow x m)
                    | None => None
                    end
    | XCall f args =>
        match f with
        | XJson (XDot (XName o) m) g =>               (* the operand of decltype is not evaluated *)
            match assoc (x_vars s) o, member_pos names m, evals args s with
            | Some (WObj _ _), Some k, Some (xs, s1) => member_call k g xs s1
            | _, _, _ => None
            end
        | XName g =>
            match assoc (x_vars s) g, evals args s with
            | None, Some (xs, s1) => call g xs s1
            | _, _ => None
            end
        | XDot o m =>
            match eval o s with
            | Some (x, s1) => match evals args s1 with
                              | Some (xs, s2) => option_map (fun v => (v, s2)) (method x m xs)
                              | None => None
                              end
            | None => None
            end
        | _ => None
        end
    | XJson _ _ => None
    | XList l => match evals l s with Some (xs, s1) => Some (WList xs, s1) | None => None end
    | XStar e => match eval e s with Some (WStreamPtr, s1) => Some (WStream, s1) | _ => None end
    | XNot e => match eval e s with Some (WBool x, s1) => Some (WBool (negb x), s1) | _ => None end
    | XMinus e => match eval e s with Some (WInt z, s1) => Some (WInt (- z), s1) | _ => None end
    | XVoid e => match eval e s with Some (_, s1) => Some (WVoid, s1) | None => None end
    | XOp op x y =>
        match eval x s with
        | Some (WBool u, s1) =>                        (* the second operand only if needed *)
            if same op (b "&&") then
              if u then match eval y s1 with Some (WBool v, s2) => Some (WBool v, s2) | _ => None end else Some (WBool false, s1)
            else if same op (b "||") then
              if u then Some (WBool true, s1) else match eval y s1 with Some (WBool v, s2) => Some (WBool v, s2) | _ => None end
            else None
        | Some (u, s1) => match eval y s1 with Some (v, s2) => operate op u v s2 | None => None end
        | None => None
        end
    | XIf c x y => match eval c s with
                   | Some (WBool u, s1) => if u then eval x s1 else eval y s1
                   | _ => None
                   end
    | XSet (XName x) e =>                              (* of boolean variables *)
        match eval e s with
        | Some (WBool u, s1) =>
            match assoc (x_vars s1) x with
            | Some (WBool _) => Some (WBool u, with_vars s1 (update (x_vars s1) x (WBool u)))
            | _ => None
            end
        | _ => None
        end
    | XSet _ _ => None
    end.

  (** How a statement ends: with the next one, or with a return. *)
  Inductive flow := FNext | FReturn (x : cval).

  Definition is_case (z : Z) (s : stmt) : bool := match s with SCase z' _ => z' =? z | _ => false end.
  Definition is_default (s : stmt) : bool := match s with SDefault _ => true | _ => false end.
  Definition case_labels (l : list stmt) : list Z := flat_map (fun s => match s with SCase z _ => [z] | _ => [] end) l.
  Fixpoint distinct (l : list Z) : bool :=
    match l with [] => true | z :: r => negb (existsb (Z.eqb z) r) && distinct r end.

  (** At the end of a block its variables are gone. *)
  Definition leave (s s' : cexec) : cexec :=
    with_vars s' (skipn (length (x_vars s') - length (x_vars s)) (x_vars s')).

  Fixpoint exec (st : stmt) (s : cexec) {struct st} : option (flow * cexec) :=
    (* from the first statement that [from] accepts to the end *)
    let execs := fix execs (from : stmt -> bool) (l : list stmt) (s : cexec) {struct l} : option (flow * cexec) :=
      match l with
      | [] => Some (FNext, s)
      | st :: r => if from st then
                     match exec st s with
                     | Some (FNext, s1) => execs (fun _ => true) r s1
                     | x => x
                     end
                   else execs from r s
      end in
    match st with
    | SExpr e => match eval e s with Some (_, s1) => Some (FNext, s1) | None => None end
    | SReturn e => match eval e s with Some (x, s1) => Some (FReturn x, s1) | None => None end
    | SIf c st' => match eval c s with
                   | Some (WBool u, s1) => if u then exec st' s1 else Some (FNext, s1)
                   | _ => None
                   end
    | SBlock l => match execs (fun _ => true) l s with
                  | Some (f, s1) => Some (f, leave s s1)
                  | None => None
                  end
    | SSwitch e l =>
        match eval e s with
        | Some (WInt z, s1) =>
            if distinct (case_labels l) then              (* [stmt.switch]/2 *)
              match execs (if existsb (is_case z) l then is_case z else is_default) l s1 with
              | Some (f, s2) => Some (f, leave s1 s2)
              | None => None
              end
            else None
        | _ => None
        end
    | SCase _ st' => exec st' s
    | SDefault st' => exec st' s
    | SLocal t x e =>
        match eval e s with
        | Some (u, s1) => option_map (fun v => (FNext, with_vars s1 ((x, v) :: x_vars s1))) (convert t u)
        | None => None
        end
    end.

  (** A body.  Reaching the end of a function that returns a value is undefined. *)
  Fixpoint run (l : list stmt) (s : cexec) : option (flow * cexec) :=
    match l with
    | [] => Some (FNext, s)
    | st :: r => match exec st s with
                 | Some (FNext, s1) => run r s1
                 | x => x
                 end
    end.
End Exec.

(** Conversion of the result to the declared type. *)
Definition returned (ret : list bytes) (f : flow) : option cval :=
  match f with
  | FNext => if words_eqb ret [b "void"] then Some WVoid else None
  | FReturn (WBool x) => if words_eqb ret [b "bool"] then Some (WBool x) else None
  | FReturn (WInt z) => if words_eqb ret [b "int"] then Some (WInt z) else None
  | FReturn (WResult r) => if words_eqb ret [b "int"] then Some (WResult r) else None
  | FReturn _ => None
  end.

(** The argument of a parameter: the type of the parameter against what is given. *)
Definition bind (t : list bytes) (p : list bytes * bytes) (a : cval) : option (bytes * cval) :=
  let '(ty, x) := p in
  match a with
  | WCtx => if words_eqb ty [b "json_context"; b "&"] then Some (x, WCtx) else None
  | WText s => if words_eqb ty [b "const"; b "std"; b "::"; b "string"; b "&"] then Some (x, WText s) else None
  | WObj false o => if words_eqb ty (t ++ [b "&"]) then Some (x, WObj false o)
                    else if words_eqb ty (b "const" :: t ++ [b "&"]) then Some (x, WObj true o) else None
  | _ => None
  end.
Fixpoint binds (t : list bytes) (ps : list (list bytes * bytes)) (args : list cval) : option (list (bytes * cval)) :=
  match ps, args with
  | [], [] => Some []
  | p :: ps', a :: args' =>
      match bind t p a, binds t ps' args' with Some x, Some xs => Some (x :: xs) | _, _ => None end
  | _, _ => None
  end.

Section Class.
  (** The specialization [json<t>] with its functions; the members of the structure [t]. *)
  Context (sn : bool) (names : list bytes) (mfs : list mfun) (t : list bytes) (fns : list func).

  Definition find_func (f : bytes) : option func := find (fun x => same (fn_name x) f) fns.

  (** A call of one of its functions. *)
  Definition invoke (call : bytes -> list cval -> cexec -> option (cval * cexec))
             (f : bytes) (args : list cval) (s : cexec) : option (cval * cexec) :=
    match find_func f with
    | None => None
    | Some fn =>
        match binds t (fn_params fn) args with
        | None => None
        | Some vars =>
            match run sn names mfs call (fn_body fn) (with_vars s vars) with
            | Some (fl, s1) => option_map (fun v => (v, with_vars s1 (x_vars s))) (returned (fn_ret fn) fl)
            | None => None
            end
        end
    end.

  (** Nothing else: [reveal] (protogen.hh:617-625). *)
  Definition calls0 (f : bytes) (args : list cval) (s : cexec) : option (cval * cexec) :=
    match args with
    | [WText x] => if same f (b "reveal") then Some (WText (reveal x), s) else None
    | _ => None
    end.
  (** And [index]. *)
  Definition calls1 (f : bytes) (args : list cval) (s : cexec) : option (cval * cexec) :=
    if same f (b "index") then invoke calls0 f args s else calls0 f args s.

  (** [json<t>::read_field(ctx, name, value)], on the object with the values [vs]. *)
  Definition text_read_field (name : bytes) (tk : tokenizer) (vs : list val) : rres (list val) :=
    match invoke calls1 (b "read_field") [WCtx; WText name; WObj false (b "value")] (X [(b "value", vs)] [] [] err_clear tk) with
    | Some (WResult r, s) => match x_objs s with [(_, vs')] => Some (r, vs', x_tok s) | _ => None end
    | _ => None
    end.

  (** And [read_object(ctx, value)] (json.hh:33-61), [n] its fuel. *)
  Definition calls2 (n : nat) (f : bytes) (args : list cval) (s : cexec) : option (cval * cexec) :=
    if same f (b "read_object") then
      match args with
      | [WCtx; WObj false o] =>
          match assoc (x_objs s) o with
          | None => None
          | Some vs => match read_object n text_read_field (x_tok s) vs with
                       | Some (r, vs', tk) => Some (WResult r, with_tok (with_objs s (update (x_objs s) o vs')) tk)
                       | None => None
                       end
          end
      | _ => None
      end
    else calls1 f args s.

  Definition text_read (n : nat) (tk : tokenizer) (vs : list val) : rres (list val) :=
    match invoke (calls2 n) (b "read") [WCtx; WObj false (b "value")] (X [(b "value", vs)] [] [] err_clear tk) with
    | Some (WResult r, s) => match x_objs s with [(_, vs')] => Some (r, vs', x_tok s) | _ => None end
    | _ => None
    end.

  (** [json<t>::write(ctx, value)], and the others. *)
  Definition idle : tokenizer := TK (Tok T_NONE [] 0 0) (mk_istream []) err_clear.
  Definition on_value (vs : list val) (e : errinfo) : cexec := X [(b "value", vs)] [] [] e idle.
  Definition on_pair (x y : list val) : cexec := X [(b "a", x); (b "b", y)] [] [] err_clear idle.

  Definition text_write (vs : list val) (e : errinfo) : option wres :=
    match invoke calls0 (b "write") [WCtx; WObj false (b "value")] (on_value vs e) with
    | Some (WResult r, s) => Some (r, x_out s, x_err s)
    | _ => None
    end.
  Definition text_empty (vs : list val) : option bool :=
    match invoke calls0 (b "empty") [WObj false (b "value")] (on_value vs err_clear) with
    | Some (WBool x, _) => Some x
    | _ => None
    end.
  Definition text_clear (vs : list val) : option (list val) :=
    match invoke calls0 (b "clear") [WObj false (b "value")] (on_value vs err_clear) with
    | Some (WVoid, s) => assoc (x_objs s) (b "value")
    | _ => None
    end.
  Definition text_equal (x y : list val) : option bool :=
    match invoke calls0 (b "equal") [WObj false (b "a"); WObj false (b "b")] (on_pair x y) with
    | Some (WBool r, _) => Some r
    | _ => None
    end.
  Definition text_swap (x y : list val) : option (list val * list val) :=
    match invoke calls0 (b "swap") [WObj false (b "a"); WObj false (b "b")] (on_pair x y) with
    | Some (WVoid, s) => match x_objs s with [(_, x'); (_, y')] => Some (x', y') | _ => None end
    | _ => None
    end.
  Definition text_index (name : bytes) : option Z :=
    match invoke calls0 (b "index") [WText name] (on_value [] err_clear) with
    | Some (WInt z, _) => Some z
    | _ => None
    end.
End Class.

(** ** The classes of a unit *)

(** What is declared within namespaces that hold nothing else. *)
Fixpoint inside (d : decl) : list bytes * option decl :=
  match d with
  | DSpace x [d'] => let '(sp, r) := inside d' in (x :: sp, r)
  | DSpace _ _ => ([], None)
  | d => ([], Some d)
  end.

(** [::a::b::name] *)
Definition qual (space : list bytes) (name : bytes) : list bytes := concat (map (fun c => [b "::"; c]) space) ++ [b "::"; name].

(** A structure [name]_type with its members, the specialization of [json] for it with its
    functions, and the class [name] made of both by the macros. *)
Record tclass := TClass {
  tc_space : list bytes;
  tc_name : bytes;
  tc_members : list (list bytes * bytes);
  tc_funcs : list func
}.
Definition tc_type (c : tclass) : list bytes := qual (tc_space c) (tc_name c ++ b "_type").

Section Unit.
  (** The version, as in "_3_0_0". *)
  Context (v : bytes).
  Let lib := b "protogen" ++ v.

  (** The four declarations of a class.  The macros (json.hh:62-121) are known by their names:
      [ENTITY] declares the class within the namespaces of the structure, [ENTITY_SERIALIZER]
      its specialization of [json]; both take the structure and the specialization. *)
  Definition class_in (d1 d2 d3 d4 : decl) : option tclass :=
    match inside d1, inside d2, inside d3, inside d4 with
    | (sp, Some (DStruct x ms)), (sp2, Some (DJson t fs)), (sp3, Some (DMacro e [[name]; o1; s1])), ([], Some (DMacro s [q; o2; s2])) =>
        let c := TClass sp name ms fs in
        if same x (name ++ b "_type") && words_eqb sp2 [lib] && words_eqb t (tc_type c) && words_eqb sp3 sp &&
           same e (b "PG" ++ v ++ b "_ENTITY") && same s (b "PG" ++ v ++ b "_ENTITY_SERIALIZER") &&
           words_eqb q (qual sp name) && words_eqb o1 t && words_eqb o2 t &&
           words_eqb s1 ([lib; b "::"; b "json"; b "<"] ++ t ++ [b ">"]) && words_eqb s2 s1
        then Some c else None
    | _, _, _, _ => None
    end.
  Fixpoint classes_in (ds : list decl) : option (list tclass) :=
    match ds with
    | [] => Some []
    | d1 :: d2 :: d3 :: d4 :: r =>
        match class_in d1 d2 d3 d4, classes_in r with Some c, Some cs => Some (c :: cs) | _, _ => None end
    | _ => None
    end.

  (** ** The types of members *)
  Context (h : headers) (env : cenv).

  Definition prim_words : list (bytes * prim) :=
    [(b "int32_t", PInt true 32); (b "int64_t", PInt true 64); (b "uint8_t", PInt false 8); (b "uint32_t", PInt false 32);
     (b "uint64_t", PInt false 64); (b "double", PDouble); (b "float", PFloat); (b "bool", PBool)].

  (** The components of [::a::b::name]. *)
  Fixpoint path_of (ws : list bytes) : option (list bytes) :=
    match ws with
    | [] => Some []
    | s :: c :: r => if same s (b "::") then option_map (cons c) (path_of r) else None
    | _ => None
    end.
  Definition space_of (pkg : bytes) : list bytes := match pkg with [] => [] | _ => components [] pkg end.
  Fixpoint class_at (env : cenv) (path : list bytes) : option ty :=
    match env with
    | [] => None
    | (p, n, t) :: r => if words_eqb (space_of p ++ [n]) path then Some t else class_at r path
    end.

  (** [pre e >] *)
  Definition between (pre ws : list bytes) : option (list bytes) :=
    if words_eqb (firstn (length pre) ws) pre then
      match rev (skipn (length pre) ws) with
      | k :: e => if same k (b ">") then Some (rev e) else None
      | [] => None
      end
    else None.

  (** The serializer of a type, as for [elem_ty] and [member_ty] (Cpp.v). *)
  Definition resolve_elem (ws : list bytes) : option ty :=
    match ws with
    | [w] => match assoc prim_words w with
             | Some p => if h_number h then Some (TPrim p) else None
             | None => None
             end
    | _ => if words_eqb ws [lib; b "::"; b "string_field"] then if h_string h then Some TStr else None
           else match path_of ws with Some path => class_at env path | None => None end
    end.
  Definition resolve_seq (lists : bool) (e : list bytes) : option ty :=
    if words_eqb e [b "uint8_t"] && negb lists && h_base64 h then Some TB64
    else if h_array h then option_map TRep (resolve_elem e) else None.
  Definition resolve (ws : list bytes) : option ty :=
    match between [lib; b "::"; b "field"; b "<"] ws, between [b "std"; b "::"; b "list"; b "<"] ws, between [b "std"; b "::"; b "vector"; b "<"] ws with
    | Some [w], _, _ => match assoc prim_words w with
                        | Some p => if h_number h then Some (TField p) else None
                        | None => None
                        end
    | Some _, _, _ => None
    | _, Some e, _ => resolve_seq true e
    | _, _, Some e => resolve_seq false e
    | _, _, _ => match ws with [_] => None | _ => resolve_elem ws end
    end.
End Unit.
