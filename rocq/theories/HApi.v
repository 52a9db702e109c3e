(** The functions that a program calls - deserialize, serialize, deserialize_array, serialize_array - from the
    text of json.hh, json-array.hh and protogen.hh, and their execution.  [None]: as in HExec.v. *)
From Verif Require Import Bytes Types Stream Tokenizer Read Write Template Cpp CLex CParse CExec Unit HdrText HText HParse HExec HTok SpecHTok HJson.

(** ** The texts *)

(** Members of a class with their initializers; "x, y" declares both. *)
Definition member_types : list (list bytes) :=
  map words_of ["error_code"; "token_id"; "int"; "bool"; "std::string"; "ErrorInfo"; "Parameters"; "tokenizer *"; "ostream *"; "I"; "token"; "istream &"; "ErrorInfo &"]%string.
Definition member_decl (i : item) : list hstmt :=
  match it_body i with
  | Some _ => []
  | None => match var_type member_types (no_access (it_head i)) with
            | Some (t, r) => match all_some (map (declarator t) (pieces (is_op ",") r)) with Some l => l | None => [] end
            | None => []
            end
  end.
Definition hmembers (l : list tree) : list (list bytes * bytes * option hexpr) :=
  flat_map (fun i => flat_map (fun s => match s with TVar t x None e => [(t, x, e)] | _ => [] end) (member_decl i)) (items [] l).

(** "C ( parameters ) : m ( e ) , … { body }" *)
Record hctor := HCtor { hc_params : list (list bytes * bytes); hc_inits : list (bytes * list hexpr); hc_body : list hstmt }.
Definition ctor_init (l : list tree) : option (bytes * list hexpr) :=
  match l with
  | [Lf (KId m); Gr Paren g] => option_map (fun es => (m, es)) (hexprs_of g)
  | _ => None
  end.
Definition ctor_of (c : bytes) (i : item) : list hctor :=
  match it_body i, no_access (it_head i) with
  | Some body, Lf (KId c') :: Gr Paren ps :: q :: r =>
      if same c c' && is_op ":" q then
        match h_params ps, all_some (map ctor_init (pieces (is_op ",") r)), hbody_of body with
        | Some ps', Some is, Some ss => [HCtor ps' is ss]
        | _, _, _ => []
        end
      else []
  | _, _ => []
  end.
(** The constructor with that many parameters. *)
Definition hconstructor (c : string) (n : nat) (l : list tree) : option hctor :=
  match filter (fun x => Nat.eqb (length (hc_params x)) n) (flat_map (ctor_of (b c)) (items [] l)) with [x] => Some x | _ => None end.

(** A class: its members, a constructor, its functions. *)
Record hclass := HClass { k_members : list (list bytes * bytes * option hexpr); k_ctor : option hctor; k_funs : list hfun }.
Definition hclass_of (l : list tree) (c : string) (n : nat) : hclass := HClass (hmembers l) (hconstructor c n l) (hfunctions l).

(** [a_entity]: the functions of the macro PG_X_Y_Z_ENTITY (json.hh:63-105) with N, O and S as they are, and
    those of struct message (protogen.hh:627-705), which "using" makes members of the same class (json.hh:72-73);
    [a_array]: json-array.hh:80-158. *)
Record atext := ATx {
  a_entity : list hfun;
  a_array : list hfun;
  a_error : hclass;        (* ErrorInfo() *)
  a_params : hclass;       (* Parameters *)
  a_context : hclass;      (* json_context *)
  a_token : hclass;        (* token() *)
  a_tok : hclass;          (* tokenizer(input, params) *)
  a_in : hclass;           (* iterator_istream(first, last) *)
  a_out : hclass           (* iterator_ostream(first) *)
}.

Definition macro_body (text : bytes) (m : string) : list tree :=
  match preprocessed [b "__USE_GNU"] text with
  | Some (_, ms) => match find_macro ms (b m) with
                    | Some f => match trees (fm_body f) with Some l => l | None => [] end
                    | None => []
                    end
  | None => []
  end.
Definition entity_path : list string := ["struct N : public O, public protogen_X_Y_Z::message< O, S >"]%string.
Definition message_path : list string := [ns; "template<typename T, typename J> struct message"]%string.
Definition api_of (protogen json arr : bytes) : atext :=
  let p := header protogen in
  ATx (hfunctions (inner_block (macro_body json "PG_X_Y_Z_ENTITY") entity_path) ++ hfunctions (inner_block p message_path))
      (hfunctions (inner_block (header arr) [ns]))
      (hclass_of (inner_block p [ns; "struct ErrorInfo"]%string) "ErrorInfo" 0)
      (hclass_of (inner_block p [ns; "struct Parameters"]%string) "Parameters" 0)
      (hclass_of (inner_block (header json) [ns; "struct json_context"]%string) "json_context" 0)
      (hclass_of (inner_block p [ns; "namespace internal"; "struct token"]%string) "token" 0)
      (hclass_of (inner_block p tok_path) "tokenizer" 2)
      (hclass_of (inner_block p stream_path) "iterator_istream" 2)
      (hclass_of (inner_block p [ns; "template<typename I> class iterator_ostream : public ostream"]%string) "iterator_ostream" 1).

(** ** Objects *)

(** The memory is a list of objects; a place is one of them, or a member within it. *)
Definition place := (nat * list bytes)%type.

(** [AV v]: a value of HExec.v, a whole iterator_istream, token or ErrorInfo as [HObj].  [AO l]: an object with
    members.  [AP p]: a pointer; [AR p]: a reference that is a member.  [AType t]: the name of a type.
    Output: [AChars s] a std::vector<char>, [AStd s] a std::ostream that was given s, [AGot s] an ostream that
    was given s, [ABack p] an iterator whose assignments append to p. *)
Inductive aval :=
  | AV (v : hval) | AO (l : list (bytes * aval)) | AP (p : option place) | AR (p : place) | AType (t : list bytes)
  | AChars (s : bytes) | AStd (s : bytes) | AGot (s : bytes) | ABack (p : place).
Inductive ares := RV (v : aval) | RP (p : place).

Definition amem := list aval.
Record ast := ASt { t_env : list (bytes * place); t_mem : amem }.

Fixpoint aget (v : aval) (p : list bytes) : option aval :=
  match p with
  | [] => Some v
  | f :: p' => match v with AO l => match assoc l f with Some w => aget w p' | None => None end | _ => None end
  end.
Fixpoint aput (v : aval) (p : list bytes) (w : aval) : option aval :=
  match p with
  | [] => Some w
  | f :: p' => match v with
               | AO l => match assoc l f with
                         | Some u => option_map (fun x => AO (update l f x)) (aput u p' w)
                         | None => None
                         end
               | _ => None
               end
  end.
Definition at_place (m : amem) (p : place) : option aval := match nth_error m (fst p) with Some v => aget v (snd p) | None => None end.
Definition put_place (m : amem) (p : place) (w : aval) : option amem :=
  match nth_error m (fst p) with
  | Some v => option_map (fun x => set_nth (fst p) x m) (aput v (snd p) w)
  | None => None
  end.
Definition sub_place (p : place) (f : bytes) : place := (fst p, snd p ++ [f]).
Definition place_eqb (p q : place) : bool := Nat.eqb (fst p) (fst q) && words_eqb (snd p) (snd q).

Definition aload (m : amem) (r : ares) : option aval := match r with RV v => Some v | RP p => at_place m p end.

Definition aobj (v : aval) : option (list (bytes * hval)) := match v with AV (HObj l) => Some l | _ => None end.

(** What is given to an output goes behind what it has. *)
Fixpoint append (n : nat) (m : amem) (p : place) (s : bytes) : option amem :=
  match n with
  | O => None
  | S n' =>
      match at_place m p with
      | Some (AV (HS x)) => put_place m p (AV (HS (cat x s)))
      | Some (AChars x) => put_place m p (AChars (cat x s))
      | Some (AStd x) => put_place m p (AStd (cat x s))
      | Some (AGot x) => put_place m p (AGot (cat x s))
      | Some (ABack q) => append n' m q s
      | Some (AO [(_, ABack q)]) => append n' m q s         (* an iterator_ostream: protogen.hh:112-141 *)
      | _ => None
      end
  end.

(** The kinds of arguments that the overloads distinguish. *)
Definition ws_istream : list bytes := Eval vm_compute in words_of "protogen_X_Y_Z::istream &".
Definition ws_ostream : list bytes := Eval vm_compute in words_of "protogen_X_Y_Z::ostream &".
Definition ws_string_in : list bytes := Eval vm_compute in words_of "const std::string &".
Definition ws_string_out : list bytes := Eval vm_compute in words_of "std::string &".
Definition ws_vector_in : list bytes := Eval vm_compute in words_of "const std::vector<char> &".
Definition ws_vector_out : list bytes := Eval vm_compute in words_of "std::vector<char> &".
Definition ws_std_out : list bytes := Eval vm_compute in words_of "std::ostream &".
Definition ws_params : list (list bytes) := Eval vm_compute in map words_of ["Parameters *"; "protogen_X_Y_Z::Parameters *"]%string.
Definition ws_object : list (list bytes) := Eval vm_compute in map words_of ["T &"; "const T &"]%string.
Definition accepts (t : list bytes) (v : aval) : bool :=
  match v with
  | AV (HObj _) => words_eqb t ws_istream
  | AGot _ | AO [(_, ABack _)] => words_eqb t ws_ostream
  | AV (HS _) => words_eqb t ws_string_in || words_eqb t ws_string_out
  | AChars _ => words_eqb t ws_vector_in || words_eqb t ws_vector_out
  | AStd _ => words_eqb t ws_std_out
  | AP _ => existsb (words_eqb t) ws_params
  | AV (HM _) => existsb (words_eqb t) ws_object
  | _ => false
  end.
Fixpoint accepts_all (ps : list (list bytes * bytes)) (vs : list aval) : bool :=
  match ps, vs with
  | [], [] => true
  | (t, _) :: ps', v :: vs' => accepts t v && accepts_all ps' vs'
  | _, _ => false
  end.
(** The one function with this name that takes these arguments. *)
Definition overload (fs : list hfun) (f : bytes) (vs : list aval) : option hfun :=
  match filter (fun x => same (hf_name x) f && accepts_all (hf_params x) vs) fs with [x] => Some x | _ => None end.

(** "protogen_X_Y_Z::x" is x. *)
Definition w_ns : list bytes := Eval vm_compute in words_of "protogen_X_Y_Z::".
Definition unqualified (ws : list bytes) : list bytes := match after_words w_ns ws with Some (w :: r) => w :: r | _ => ws end.

(** ** Constructors *)

Section Api.
  (** As in HJson.v; the texts; json<T> or the serializer S. *)
  Context (loops d : nat) (X : htext) (A : atext) (ser : bool -> bool -> callee).

  (** Members before the initializers of a constructor. *)
  Definition scalar_members (k : hclass) : list (bytes * hval) :=
    flat_map (fun m => let '(t, x, _) := m in
                       match fresh t with
                       | Some v => [(x, v)]
                       | None => if words_eqb t [b "I"] then [(x, HNone IInt)] else []
                       end) (k_members k).
  (** m(e): the value for a member; an iterator becomes what it is made of. *)
  Definition init_value (old v : hval) : option hval :=
    match v with HIt r => Some (HIt r) | _ => fitted old v end.
  Fixpoint init_members (is : list (bytes * list hexpr)) (args : list (bytes * hvar)) (l : list (bytes * hval)) : option (list (bytes * hval)) :=
    match is with
    | [] => Some l
    | (m, [e]) :: r =>
        let s := HSt args HVoid HVoid [] [] in
        match heval (x_consts X) false CNone (fun _ _ _ _ => None) e s with
        | Some (x, _) =>
            match load s x, assoc l m with
            | Some v, Some old => match init_value old v with Some w => init_members r args (update l m w) | None => None end
            | _, _ => None
            end
        | None => None
        end
    | _ => None
    end.
  Definition made (k : hclass) (args : list hval) : option (list (bytes * hval)) :=
    match k_ctor k with
    | Some c =>
        if Nat.eqb (length (hc_params c)) (length args) then
          init_members (hc_inits c) (combine (map snd (hc_params c)) (map VarVal args)) (scalar_members k)
        else None
    | None => None
    end.
  (** With an empty body. *)
  Definition default_made (k : hclass) : option hval :=
    match k_ctor k with
    | Some (HCtor [] _ []) => option_map HObj (made k [])
    | _ => None
    end.

  (** Parameters and json_context have no constructor of their own. *)
  Definition member_default (inner : list bytes -> option aval) (m : list bytes * bytes * option hexpr) : option (bytes * aval) :=
    let '(t, x, e) := m in
    match e with
    | Some (EBool y) => if words_eqb t [b "bool"] then Some (x, AV (HB y)) else None
    | Some ENull => match rev t with w :: _ => if same w (b "*") then Some (x, AP None) else None | [] => None end
    | Some _ => None
    | None => option_map (fun v => (x, v)) (inner t)
    end.
  Definition implicit (k : hclass) (inner : list bytes -> option aval) : option aval :=
    match k_ctor k with
    | None => option_map AO (all_some (map (member_default inner) (k_members k)))
    | Some _ => None
    end.
  Definition new_error (t : list bytes) : option aval := if words_eqb t [b "ErrorInfo"] then option_map AV (default_made (a_error A)) else None.
  Definition new_params (t : list bytes) : option aval := if words_eqb t [b "Parameters"] then implicit (a_params A) new_error else None.
  Definition new_context : option aval := implicit (a_context A) new_params.

  (** ErrorInfo::clear and the constructor of iterator_istream: functions of a class with the members [l] and the
      functions [fs]; the other parts of the state are not used. *)
  Definition class_run (fs : list hfun) (body : list hstmt) (l : list (bytes * hval)) : option (list (bytes * hval)) :=
    match seq_loop (hexec loops (x_consts X) false CStream (callD loops (x_consts X) false fs (x_tok X) d CStream) nesting)
                   (S (length body)) body (HSt [] (tok_val (Tok T_NONE [] 0 0)) (err_val err_clear) l []) with
    | Some (GNext, s) => match s_vars s, s_out s with [], [] => Some (s_in s) | _, _ => None end
    | _ => None
    end.
  Definition error_clear (l : list (bytes * hval)) : option (list (bytes * hval)) :=
    match hfind (k_funs (a_error A)) (b "clear") with
    | Some f => if words_eqb (hf_ret f) [b "void"] then class_run [] (hf_body f) l else None
    | None => None
    end.
  Definition new_stream (first last : hval) : option (list (bytes * hval)) :=
    match k_ctor (a_in A), made (a_in A) [first; last] with
    | Some c, Some l => class_run (x_stream X) (hc_body c) l
    | _, _ => None
    end.

  (** The tokenizer: input_ and error_ are references, current_ is a new token; then the body. *)
  Fixpoint hexpr_ref (e : hexpr) (env : list (bytes * place)) : option place :=
    match e with
    | EName [x] => assoc env x
    | EDot e' m => option_map (fun p => sub_place p m) (hexpr_ref e' env)
    | _ => None
    end.
  Definition ref_init (is : list (bytes * list hexpr)) (env : list (bytes * place)) (m : bytes) : option place :=
    match assoc is m with Some [e] => hexpr_ref e env | _ => None end.
  Definition new_tokenizer (input params : place) (m : amem) : option (aval * amem) :=
    match k_ctor (a_tok A) with
    | Some c =>
        let env := combine (map snd (hc_params c)) [input; params] in
        match ref_init (hc_inits c) env (b "input_"), ref_init (hc_inits c) env (b "error_"), default_made (a_token A) with
        | Some pin, Some perr, Some cur =>
            match at_place m pin, at_place m perr with
            | Some (AV (HObj i)), Some (AV err) =>
                match seq_loop (hexec loops (x_consts X) false CTok (callD loops (x_consts X) false (x_stream X) (x_tok X) d CTok) nesting)
                               (S (length (hc_body c))) (hc_body c) (HSt [] cur err i []) with
                | Some (GNext, s) =>
                    match put_place m pin (AV (HObj (s_in s))) with
                    | Some m1 =>
                        option_map (fun m2 => (AO [(b "current_", AV (s_cur s)); (b "input_", AR pin); (b "error_", AR perr)], m2))
                                   (put_place m1 perr (AV (s_err s)))
                    | None => None
                    end
                | _ => None
                end
            | _, _ => None
            end
        | _, _, _ => None
        end
    | None => None
    end.

  (** ** Calls of the serializer *)

  Definition flag (m : amem) (p : place) (f : string) : option bool :=
    match at_place m (sub_place p (b f)) with Some (AV (HB x)) => Some x | _ => None end.

  (** S::read( ctx, x ): the tokenizer of the context works on its input, and on the error of the context. *)
  Definition ser_read (ctx x : place) (m : amem) : option (aval * amem) :=
    let pars := sub_place ctx (b "params") in
    match at_place m (sub_place ctx (b "tok")), flag m pars "ensure_ascii", flag m pars "serialize_null", at_place m x with
    | Some (AP (Some tok)), Some ea, Some sn, Some (AV (HM v)) =>
        match at_place m tok with
        | Some (AO [(_, AV cur); (_, AR pin); (_, AR perr)]) =>
            match at_place m pin, at_place m perr with
            | Some (AV (HObj i)), Some (AV err) =>
                if place_eqb perr (sub_place pars (b "error")) then
                  match ser ea sn (b "read") [HV HCtx; HL (RVar (b "x")) []] (HSt [(b "x", VarVal (HM v))] cur err i []) with
                  | Some (HV r, s) =>
                      match s_vars s, put_place m pin (AV (HObj (s_in s))) with
                      | [(_, VarVal w)], Some m1 =>
                          match put_place m1 perr (AV (s_err s)) with
                          | Some m2 =>
                              match put_place m2 (sub_place tok (b "current_")) (AV (s_cur s)) with
                              | Some m3 => option_map (fun m4 => (AV r, m4)) (put_place m3 x (AV w))
                              | None => None
                              end
                          | None => None
                          end
                      | _, _ => None
                      end
                  | _ => None
                  end
                else None
            | _, _ => None
            end
        | _ => None
        end
    | _, _, _, _ => None
    end.
  (** S::write( ctx, x ): there is no tokenizer, and none is asked (SpecHJson.text_writes). *)
  Definition ser_write (ctx x : place) (m : amem) : option (aval * amem) :=
    let pars := sub_place ctx (b "params") in
    match at_place m (sub_place ctx (b "os")), flag m pars "ensure_ascii", flag m pars "serialize_null", at_place m x with
    | Some (AP (Some out)), Some ea, Some sn, Some (AV (HM v)) =>
        match at_place m (sub_place pars (b "error")) with
        | Some (AV err) =>
            match ser ea sn (b "write") [HV HCtx; HV (HM v)] (HSt [] (tok_val (Tok T_NONE [] 0 0)) err (in_val (IS [] 1 1)) []) with
            | Some (HV r, s) =>
                match append 3 m out (s_out s) with
                | Some m1 => option_map (fun m2 => (AV r, m2)) (put_place m1 (sub_place pars (b "error")) (AV (s_err s)))
                | None => None
                end
            | _ => None
            end
        | _ => None
        end
    | _, _, _, _ => None
    end.
  Definition w_ser : list (list bytes) := map words_of ["S::"; "json<T>::"]%string.
  Definition ser_call (ws : list bytes) (args : list ares) (m : amem) : option (aval * amem) :=
    match args with
    | [RP ctx; RP x] =>
        if existsb (fun w => words_eqb ws (w ++ [b "read"])) w_ser then ser_read ctx x m
        else if existsb (fun w => words_eqb ws (w ++ [b "write"])) w_ser then ser_write ctx x m
        else None
    | _ => None
    end.

  (** ** Expressions and statements *)

  (** Calls of other functions by their name. *)
  Context (call : bytes -> list ares -> amem -> option (aval * amem)).

  Definition acombine (op : bytes) (x y : aval) : option hval :=
    match x, y with
    | AP p, AP q => if same op (b "!=") then
                      match p, q with
                      | None, None => Some (HB false)
                      | Some _, None | None, Some _ => Some (HB true)
                      | Some p', Some q' => None
                      end
                    else None
    | AV u, AV v => operation op u v
    | _, _ => None
    end.
  (** Parameters are copied member by member (12.8/28); what std::move leaves behind is not used. *)
  Definition assigned (old w : aval) : option aval :=
    match old, w with
    | AP _, AP p => Some (AP p)
    | AO _, AO l => Some (AO l)
    | AV u, AV v => option_map AV (fitted u v)
    | _, _ => None
    end.
  Definition w_move : list bytes := Eval vm_compute in words_of "std::move".

  Fixpoint aeval (e : hexpr) (s : ast) {struct e} : option (ares * ast) :=
    match e with
    | EName ws =>
        match (match ws with [x] => assoc (t_env s) x | _ => None end) with
        | Some p => Some (RP p, s)
        | None => option_map (fun v => (RV (AV v), s)) (find_words (x_consts X) (unqualified ws))
        end
    | EThis => option_map (fun p => (RV (AP (Some p)), s)) (assoc (t_env s) (b "this"))
    | ENull => Some (RV (AP None), s)
    | EBool x => Some (RV (AV (HB x)), s)
    | EDot e m =>
        match aeval e s with
        | Some (RP p, s1) => match at_place (t_mem s1) (sub_place p m) with Some _ => Some (RP (sub_place p m), s1) | None => None end
        | _ => None
        end
    | EArrow e m =>
        match aeval e s with
        | Some (x, s1) =>
            match aload (t_mem s1) x with
            | Some (AP (Some p)) => match at_place (t_mem s1) (sub_place p m) with Some _ => Some (RP (sub_place p m), s1) | None => None end
            | _ => None
            end
        | None => None
        end
    | EPre op e =>
        match aeval e s with
        | Some (x, s1) =>
            if same op (b "&") then match x with RP p => Some (RV (AP (Some p)), s1) | RV _ => None end
            else if same op (b "*") then match aload (t_mem s1) x with Some (AP (Some p)) => Some (RP p, s1) | _ => None end
            else None
        | None => None
        end
    | EBin op x y =>
        match aeval x s with
        | Some (u, s1) =>
            match aeval y s1 with
            | Some (w, s2) =>
                match aload (t_mem s2) u, aload (t_mem s2) w with
                | Some v, Some v' => option_map (fun r => (RV (AV r), s2)) (acombine op v v')
                | _, _ => None
                end
            | None => None
            end
        | None => None
        end
    | ESet op x y =>
        match aeval y s with
        | Some (w, s1) =>
            match aeval x s1 with
            | Some (RP p, s2) =>
                match aload (t_mem s2) w, at_place (t_mem s2) p with
                | Some v, Some old =>
                    if same op (b "=") then
                      match assigned old v with
                      | Some v' => option_map (fun m => (RP p, ASt (t_env s2) m)) (put_place (t_mem s2) p v')
                      | None => None
                      end
                    else None
                | _, _ => None
                end
            | _ => None
            end
        | None => None
        end
    | ECall f args =>
        match f with
        | EDot o m =>
            match aeval o s, args with
            | Some (RP p, s1), [] =>
                match at_place (t_mem s1) p with
                | Some (AV (HObj l)) =>                    (* ErrorInfo::clear *)
                    if same m (b "clear") then
                      match error_clear l with
                      | Some l' => option_map (fun mm => (RV (AV HVoid), ASt (t_env s1) mm)) (put_place (t_mem s1) p (AV (HObj l')))
                      | None => None
                      end
                    else None
                | Some (AV (HS t)) | Some (AChars t) =>
                    if same m (b "begin") then Some (RV (AV (HIt t)), s1)
                    else if same m (b "end") then Some (RV (AV (HIt [])), s1) else None
                | _ => None
                end
            | _, _ => None
            end
        | EName ws =>
            match (fix go (l : list hexpr) (s : ast) : option (list ares * ast) :=
                     match l with
                     | [] => Some ([], s)
                     | e :: r => match aeval e s with
                                 | Some (x, s1) => match go r s1 with Some (xs, s2) => Some (x :: xs, s2) | None => None end
                                 | None => None
                                 end
                     end) args s with
            | Some (xs, s1) =>
                if words_eqb ws w_move then match xs with [RP p] => Some (RP p, s1) | _ => None end
                else match ser_call ws xs (t_mem s1) with
                     | Some (v, m) => Some (RV v, ASt (t_env s1) m)
                     | None => match ws with
                               | [g] => option_map (fun r => (RV (fst r), ASt (t_env s1) (snd r))) (call g xs (t_mem s1))
                               | _ => None
                               end
                     end
            | None => None
            end
        | _ => None
        end
    | _ => None
    end.

  (** A variable with a name that no other has. *)
  Definition aadd (x : bytes) (v : aval) (s : ast) : option ast :=
    match assoc (t_env s) x with
    | Some _ => None
    | None => Some (ASt ((x, (length (t_mem s), [])) :: t_env s) (t_mem s ++ [v]))
    end.
  Definition w_in_types : list (list bytes) :=
    map words_of ["iterator_istream<std::string::const_iterator>"; "iterator_istream<std::vector<char>::const_iterator>"]%string.
  Definition w_alias : list bytes := Eval vm_compute in [b "typedef"].
  Definition w_string_back : list bytes := Eval vm_compute in words_of "std::back_insert_iterator<std::string>".
  Definition w_vector_back : list bytes := Eval vm_compute in words_of "std::back_insert_iterator<std::vector<char>>".
  Definition w_std_iter : list bytes := Eval vm_compute in words_of "std::ostream_iterator<char>".
  Definition w_out_type : list bytes := Eval vm_compute in words_of "iterator_ostream<ittype>".

  (** An iterator of type [t] for the output at [p] (24.5.2.1, 24.6.2). *)
  Definition out_iterator (t : list bytes) (p : place) (m : amem) : option aval :=
    match at_place m p with
    | Some (AV (HS _)) => if words_eqb t w_string_back then Some (ABack p) else None
    | Some (AChars _) => if words_eqb t w_vector_back then Some (ABack p) else None
    | Some (AStd _) => if words_eqb t w_std_iter then Some (ABack p) else None
    | _ => None
    end.
  (** iterator_ostream( I& first ) : beg_(first) *)
  Definition new_ostream (v : aval) : option aval :=
    match k_ctor (a_out A), k_members (a_out A) with
    | Some (HCtor [(_, x)] [(f, [EName [y]])] []), [(_, f', None)] => if same x y && same f f' then Some (AO [(f, v)]) else None
    | _, _ => None
    end.

  Definition aobject (t : list bytes) (args : list ares) (m : amem) : option (aval * amem) :=
    if words_eqb (unqualified t) [b "tokenizer"] then
      match args with [RP i; RP p] => new_tokenizer i p m | _ => None end
    else if existsb (words_eqb t) w_in_types then
      match args with
      | [RV (AV first); RV (AV last)] => option_map (fun l => (AV (HObj l), m)) (new_stream first last)
      | _ => None
      end
    else if words_eqb t w_out_type then
      match args with
      | [RP p] => match at_place m p with Some v => option_map (fun o => (o, m)) (new_ostream v) | None => None end
      | _ => None
      end
    else None.

  Definition aargs (l : list hexpr) (s : ast) : option (list ares * ast) :=
    (fix go (l : list hexpr) (s : ast) : option (list ares * ast) :=
       match l with
       | [] => Some ([], s)
       | e :: r => match aeval e s with
                   | Some (x, s1) => match go r s1 with Some (xs, s2) => Some (x :: xs, s2) | None => None end
                   | None => None
                   end
       end) l s.

  Inductive aflow := ANext | AReturn (v : aval).
  Fixpoint aexec (n : nat) (l : list hstmt) (s : ast) {struct n} : option (aflow * ast) :=
    match n with
    | O => None
    | S n' =>
        match l with
        | [] => Some (ANext, s)
        | st :: r =>
            let go x := match x with Some s1 => aexec n' r s1 | None => None end in
            match st with
            | TExpr [e] => match aeval e s with Some (_, s1) => aexec n' r s1 | None => None end
            | TVar t x None None =>
                match after_words w_alias t with
                | Some t' => go (aadd x (AType t') s)
                | None => if words_eqb (unqualified t) [b "json_context"] then
                            match new_context with Some v => go (aadd x v s) | None => None end
                          else None
                end
            | TVar t x None (Some e) =>
                match aeval e s with
                | Some (u, s1) =>
                    match aload (t_mem s1) u with
                    | Some (AV v) => match typed t v with Some w => go (aadd x (AV w) s1) | None => None end
                    | _ => None
                    end
                | None => None
                end
            | TObj t x es =>
                match aargs es s with
                | Some (xs, s1) =>
                    match (match t, xs with
                           | [y], [RP p] =>
                               match assoc (t_env s1) y with
                               | Some q => match at_place (t_mem s1) q with
                                           | Some (AType t') => option_map (fun o => (o, t_mem s1)) (out_iterator t' p (t_mem s1))
                                           | _ => None
                                           end
                               | None => None
                               end
                           | _, _ => aobject t xs (t_mem s1)
                           end) with
                    | Some (v, m) => go (aadd x v (ASt (t_env s1) m))
                    | None => None
                    end
                | None => None
                end
            | TIf c st1 None =>
                match aeval c s with
                | Some (u, s1) =>
                    match aload (t_mem s1) u with
                    | Some (AV v) =>
                        match truth v with
                        | Some true =>
                            match aexec n' (match st1 with TBlock l' => l' | _ => [st1] end) s1 with
                            | Some (ANext, s2) => if Nat.eqb (length (t_env s2)) (length (t_env s1)) then aexec n' r s2 else None
                            | z => z
                            end
                        | Some false => aexec n' r s1
                        | None => None
                        end
                    | _ => None
                    end
                | None => None
                end
            | TReturn (Some e) =>
                match aeval e s with
                | Some (u, s1) => match aload (t_mem s1) u with Some v => Some (AReturn v, s1) | None => None end
                | None => None
                end
            | _ => None
            end
        end
    end.

  (** References to objects are places; a pointer is a new object. *)
  Fixpoint abind (ps : list (list bytes * bytes)) (args : list ares) (env : list (bytes * place)) (m : amem) : option ast :=
    match ps, args with
    | [], [] => Some (ASt env m)
    | (t, x) :: ps', a :: args' =>
        match a with
        | RP p => if ends_amp t then abind ps' args' ((x, p) :: env) m
                  else match at_place m p with
                       | Some (AP q) => abind ps' args' ((x, (length m, [])) :: env) (m ++ [AP q])
                       | _ => None
                       end
        | RV (AP q) => if ends_amp t then None else abind ps' args' ((x, (length m, [])) :: env) (m ++ [AP q])
        | RV _ => None
        end
    | _, _ => None
    end.
  Definition arun (this : option place) (f : hfun) (args : list ares) (m : amem) : option (aval * amem) :=
    match abind (hf_params f) args (match this with Some p => [(b "this", p)] | None => [] end) m with
    | Some s =>
        match aexec (S (S (length (hf_body f)))) (hf_body f) s with
        | Some (AReturn (AV v), s1) => match typed (hf_ret f) v with Some w => Some (AV w, t_mem s1) | None => None end
        | _ => None
        end
    | None => None
    end.
End Api.

(** ** Calls from outside *)

Fixpoint aloads (m : amem) (l : list ares) : option (list aval) :=
  match l with
  | [] => Some []
  | x :: r => match aload m x, aloads m r with Some v, Some vs => Some (v :: vs) | _, _ => None end
  end.

(** [k]: how many calls may be open at once. *)
Fixpoint acall (loops d : nat) (X : htext) (A : atext) (ser : bool -> bool -> callee) (fs : list hfun) (this : option place)
         (k : nat) (f : bytes) (args : list ares) (m : amem) : option (aval * amem) :=
  match k with
  | O => None
  | S k' =>
      match aloads m args with
      | Some vs => match overload fs f vs with
                   | Some g => arun loops d X A ser (acall loops d X A ser fs this k') this g args m
                   | None => None
                   end
      | None => None
      end
  end.

Definition the_api := Eval vm_compute in api_of protogen_hh json_hh json_array_hh.
