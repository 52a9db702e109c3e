(** Execution of the functions of the lexer (source/proto3.cc:180-483), as LexRead.v reads them (C++11 5, 6, 15).  Operands are
    evaluated from left to right, the right side of "=" before the left. *)
From Verif Require Import Bytes Num Cpp CLex CParse CExec Unit HText HParse HExec LexRead.

(** [Thrown]: a protogen::exception with its message, line and column; [Failed]: a std::runtime_error; [More]: a loop goes on
    after as many iterations as allowed; [Bad]: undefined, ill-formed, or not in this part of C++. *)
Inductive out (A : Type) := Out (a : A) | Thrown (msg : bytes) (line col : Z) | Failed | More | Bad.
Arguments Out {A}. Arguments Thrown {A}. Arguments Failed {A}. Arguments More {A}. Arguments Bad {A}.
Definition obind {A B} (x : out A) (f : A -> out B) : out B :=
  match x with Out a => f a | Thrown m l c => Thrown m l c | Failed => Failed | More => More | Bad => Bad end.
Definition sure {A} (x : option A) : out A := match x with Some a => Out a | None => Bad end.
Notation "'do' p <- m ; k" := (obind m (fun p => k)) (at level 200, p pattern, m at level 100, k at level 200, right associativity).

(** Variables, the members of the Tokenizer, those of its InputStream ("is", a reference, is [HIn]). *)
Record lst := LS { v_vars : list (bytes * hval); v_tok : list (bytes * hval); v_in : list (bytes * hval) }.
Definition with_vars (s : lst) v := LS v (v_tok s) (v_in s).

(** Whose function is executed. *)
Inductive whose := WIn | WTok.
Definition lmembers (w : whose) (s : lst) := match w with WIn => v_in s | WTok => v_tok s end.
Definition with_members (w : whose) (s : lst) l := match w with WIn => LS (v_vars s) (v_tok s) l | WTok => LS (v_vars s) l (v_in s) end.

(** A variable of the function, a member of its class, the table KEYWORDS. *)
Definition lname (words : list hval) (w : whose) (s : lst) (x : bytes) : option hval :=
  match assoc (v_vars s) x with
  | Some v => Some v
  | None => match assoc (lmembers w s) x with
            | Some v => Some v
            | None => if same x (b "KEYWORDS") then Some (HArr words) else None
            end
  end.
Definition lput (w : whose) (s : lst) (x : bytes) (v : hval) : option lst :=
  match assoc (v_vars s) x with
  | Some _ => Some (with_vars s (update (v_vars s) x v))
  | None => match assoc (lmembers w s) x with
            | Some _ => Some (with_members w s (update (lmembers w s) x v))
            | None => None
            end
  end.
(** x or x.m *)
Definition lplace (e : hexpr) : option (bytes * list step) :=
  match e with
  | EName [x] => Some (x, [])
  | EDot (EName [x]) m => Some (x, [SField m])
  | _ => None
  end.
Definition ready (v : hval) : option hval := match v with HNone _ => None | _ => Some v end.
(** [x = v], [x += v]: a Token is assigned as a whole; the result is the new value of x. *)
Definition lset (op : bytes) (old v : hval) : option hval :=
  if same op (b "=") then fitted old v
  else if same op (b "+=") then
    match old, v with HS s, HS t => Some (HS (cat s t)) | _, _ => added old v end
  else None.
Definition lassign (words : list hval) (w : whose) (op : bytes) (x : bytes) (p : list step) (v : hval) (s : lst) : out (hval * lst) :=
  match lname words w s x with
  | None => Bad
  | Some o =>
      match get_path o p with
      | None => Bad
      | Some old =>
          match lset op old v with
          | None => Bad
          | Some v' =>
              match set_path o p v' with
              | None => Bad
              | Some o' => match lput w s x o' with Some s' => Out (v', s') | None => Bad end
              end
          end
      end
  end.

Definition lbinary (op : bytes) (x y : hval) : option hval :=
  match x, y with
  | HPtr _, HNull => if same op (b "!=") then Some (HB true) else None
  | HNull, HNull => if same op (b "!=") then Some (HB false) else None
  | _, _ => operation op x y
  end.

Definition ltyped (t : list bytes) (v : hval) : option hval :=
  if words_eqb t [b "Token"] then match v with HObj l => Some (HObj l) | _ => None end
  else if words_eqb t [b "auto"] then match v with HVoid => None | _ => Some v end
  else typed t v.

Definition w_runtime : list bytes := Eval vm_compute in words_of "std::runtime_error".
Definition w_iter_ref : list bytes := Eval vm_compute in words_of "const I &".
Definition w_stream_ref : list bytes := Eval vm_compute in words_of "InputStream<I> &".

Inductive lflow := FNext | FBreak | FContinue | FReturn (v : hval).

(** At most [k] iterations. *)
Fixpoint lwhile (k : nat) (c : lst -> out (bool * lst)) (next : lst -> out lst) (body : lst -> out (lflow * lst)) (s : lst)
  : out (lflow * lst) :=
  match k with
  | O => More
  | S k' =>
      do (x, s1) <- c s;
      if x then
        do (f, s2) <- body s1;
        match f with
        | FNext | FContinue => do s3 <- next s2; lwhile k' c next body s3
        | FBreak => Out (FNext, s2)
        | FReturn v => Out (FReturn v, s2)
        end
      else Out (FNext, s1)
  end.
Definition levals (ev : hexpr -> lst -> out (hval * lst)) : list hexpr -> lst -> out (list hval * lst) :=
  fix go l s :=
    match l with
    | [] => Out ([], s)
    | e :: r => do (v, s1) <- ev e s; do (vs, s2) <- go r s1; Out (v :: vs, s2)
    end.
Definition lseq (ex : hstmt -> lst -> out (lflow * lst)) : list hstmt -> lst -> out (lflow * lst) :=
  fix go l s :=
    match l with
    | [] => Out (FNext, s)
    | st :: r => do (f, s1) <- ex st s; match f with FNext => go r s1 | _ => Out (f, s1) end
    end.
(** The variables of a block end with it. *)
Definition lleave (s s' : lst) : lst := with_vars s' (skipn (length (v_vars s') - length (v_vars s)) (v_vars s')).

Section Exec.
  Context (loops : nat) (words : list hval) (w : whose) (call : whose -> bytes -> list hval -> lst -> out (hval * lst)).

  Fixpoint leval (e : hexpr) (s : lst) {struct e} : out (hval * lst) :=
    match e with
    | EName [x] => match lname words w s x with Some v => do v' <- sure (ready v); Out (v', s) | None => Bad end
    | EBool x => Out (HB x, s)
    | ENull => Out (HNull, s)
    | ENum u z => do v <- sure (num_val u z); Out (v, s)
    | EStr t => do x <- sure (lit_go LText t); Out (HPtr x, s)
    | EChr t => do z <- sure (chr_val t); Out (HI IChar z, s)
    | EDot e m =>
        do (v, s1) <- leval e s;
        match v with HObj l => do x <- sure (assoc l m); Out (x, s1) | _ => Bad end
    | EIndex e i =>
        do (v, s1) <- leval e s; do (k, s2) <- leval i s1;
        match v, k with
        | HArr l, HI _ z => if inside z (length l) then do x <- sure (nth_error l (Z.to_nat z)); Out (x, s2) else Bad
        | _, _ => Bad
        end
    | ECall (EName [f]) args =>
        if same f (b "throw") then
          match args with
          | [ECall (EName c) es] =>
              do (vs, s1) <- levals leval es s;
              match vs with
              | [HPtr m; HI IInt l; HI IInt k] => if words_eqb c [b "exception"] then Thrown (cstr m) l k else Bad
              | [HPtr _] => if words_eqb c w_runtime then Failed else Bad
              | _ => Bad
              end
          | _ => Bad
          end
        else do (vs, s1) <- levals leval args s; call w f vs s1
    | ECall (EArrow EThis f) args => do (vs, s1) <- levals leval args s; call w f vs s1
    | ECall (EDot o m) args =>
        do (v, s1) <- leval o s; do (vs, s2) <- levals leval args s1;
        match v with
        | HIn => call WIn m vs s2
        | _ => match std_method v m vs with
               | Some (_, r) => if same m (b "length") then Out (r, s2) else Bad      (* leaves the object as it is *)
               | None => Bad
               end
        end
    | EPre op e =>
        if same op (b "++") then
          match lplace e with
          | Some (x, []) =>
              match lname words w s x with
              | Some v => do v' <- sure (advanced v); do s' <- sure (lput w s x v'); Out (v', s')
              | None => Bad
              end
          | _ => Bad
          end
        else
          do (v, s1) <- leval e s;
          if same op (b "!") then do x <- sure (truth v); Out (HB (negb x), s1)
          else if same op (b "*") then do x <- sure (deref v); Out (x, s1)
          else if same op (b "-") then
            match v with HI IInt z => do z' <- sure (fit IInt (- z)); Out (HI IInt z', s1) | _ => Bad end
          else Bad
    | ECast t e =>
        do (v, s1) <- leval e s;
        match int_type t, v with
        | Some i, HI u z => do z' <- sure (conv u i z); Out (HI i z', s1)
        | _, _ => Bad
        end
    | EBin op x y =>
        do (u, s1) <- leval x s;
        if same op (b "&&") || same op (b "||") then
          do p <- sure (truth u);
          if (if same op (b "&&") then p else negb p)
          then do (v, s2) <- leval y s1; do q <- sure (truth v); Out (HB q, s2)
          else Out (HB p, s1)
        else do (v, s2) <- leval y s1; do r <- sure (lbinary op u v); Out (r, s2)
    | ESet op x y =>
        do (v, s1) <- leval y s;
        match lplace x with Some (n, p) => lassign words w op n p v s1 | None => Bad end
    | _ => Bad
    end.

  Definition leffects (l : list hexpr) (s : lst) : out lst := do (vs, s1) <- levals leval l s; Out s1.
  Definition lcond (e : hexpr) (s : lst) : out (bool * lst) :=
    do (v, s1) <- leval e s; do x <- sure (truth v); Out (x, s1).
  Definition declared_as (t : list bytes) (x : bytes) (init : option hexpr) (s : lst) : out lst :=
    match init with
    | None => do v <- sure (fresh t); Out (with_vars s ((x, v) :: v_vars s))
    | Some e => do (v, s1) <- leval e s; do v' <- sure (ltyped t v); Out (with_vars s1 ((x, v') :: v_vars s1))
    end.

  Fixpoint lexec (st : hstmt) (s : lst) {struct st} : out (lflow * lst) :=
    match st with
    | TExpr l => do s1 <- leffects l s; Out (FNext, s1)
    | TVar t x None init => do s1 <- declared_as t x init s; Out (FNext, s1)
    | TReturn None => Out (FReturn HVoid, s)
    | TReturn (Some e) => do (v, s1) <- leval e s; Out (FReturn v, s1)
    | TIf c st1 st2 =>
        do (x, s1) <- lcond c s;
        if x then lexec st1 s1 else match st2 with Some st' => lexec st' s1 | None => Out (FNext, s1) end
    | TWhile c st1 => lwhile loops (lcond c) Out (lexec st1) s
    | TDo st1 (EBool true) => lwhile loops (fun s => Out (true, s)) Out (lexec st1) s
    | TFor i c p st1 =>
        do (f, s1) <- lexec i s; do (f, s2) <- lwhile loops (lcond c) (leffects p) (lexec st1) s1; Out (f, lleave s s2)
    | TBlock l => do (f, s1) <- lseq lexec l s; Out (f, lleave s s1)
    | TBreak => Out (FBreak, s)
    | TContinue => Out (FContinue, s)
    | _ => Bad
    end.
End Exec.

(** ** Functions *)

Fixpoint lparams (ps : list (list bytes * bytes)) (vs : list hval) : option (list (bytes * hval)) :=
  match ps, vs with
  | [], [] => Some []
  | (t, x) :: ps', v :: vs' => match ltyped t v, lparams ps' vs' with Some v', Some l => Some ((x, v') :: l) | _, _ => None end
  | _, _ => None
  end.
Definition lresult (t : list bytes) (f : lflow) : option hval :=
  match f with
  | FNext | FReturn HVoid => if words_eqb t [b "void"] then Some HVoid else None
  | FReturn v => ltyped t v
  | _ => None
  end.
Definition lrun (loops : nat) (words : list hval) (w : whose) (call : whose -> bytes -> list hval -> lst -> out (hval * lst))
           (f : hfun) (vs : list hval) (s : lst) : out (hval * lst) :=
  do vars <- sure (lparams (hf_params f) vs);
  do (fl, s1) <- lseq (lexec loops words w call) (hf_body f) (with_vars s vars);
  do r <- sure (lresult (hf_ret f) fl);
  Out (r, with_vars s1 (v_vars s)).

(** A constructor gives the members; parameters without argument have their default value. *)
Definition no_call (_ : whose) (_ : bytes) (_ : list hval) (_ : lst) : out (hval * lst) := Bad.
Definition constant (e : hexpr) (l : list (bytes * hval)) : option hval :=
  match leval [] WTok no_call e (LS l [] []) with Out (v, _) => Some v | _ => None end.
(** "const T &" is a copy: nothing else changes what it refers to while the constructor runs. *)
Definition ctor_type (t : list bytes) (v : hval) : option hval :=
  if words_eqb t w_const_string_ref then typed w_string v
  else if words_eqb t w_iter_ref then match v with HIt r => Some (HIt r) | _ => None end
  else if words_eqb t w_stream_ref then match v with HIn => Some HIn | _ => None end
  else ltyped t v.
Fixpoint ctor_params (ps : list (list bytes * bytes * option hexpr)) (vs : list hval) : option (list (bytes * hval)) :=
  match ps, vs with
  | [], [] => Some []
  | (t, x, d) :: ps', vs =>
      let '(v, vs') := match vs with
                       | v :: vs' => (Some v, vs')
                       | [] => (match d with Some e => constant e [] | None => None end, [])
                       end in
      match v with
      | Some u => match ctor_type t u, ctor_params ps' vs' with Some v', Some l => Some ((x, v') :: l) | _, _ => None end
      | None => None
      end
  | [], _ :: _ => None
  end.
Definition construct (c : lctor) (vs : list hval) : option (list (bytes * hval)) :=
  match ctor_params (c_params c) vs, c_body c with
  | Some l, [] => all_some (map (fun i => option_map (fun v => (fst i, v)) (constant (snd i) l)) (c_inits c))
  | _, _ => None
  end.

Section Calls.
  Context (t : ltext) (loops : nat).
  (** [d]: how many calls may be open at once. *)
  Fixpoint lcall (d : nat) (w : whose) (f : bytes) (vs : list hval) (s : lst) {struct d} : out (hval * lst) :=
    match d with
    | O => Bad
    | S d' =>
        match hfind (match w with WIn => l_stream t | WTok => l_lexer t end) f with
        | Some fn => lrun loops (l_words t) w (lcall d') fn vs s
        | None =>
            if same f (b "Token") then
              match l_token t with
              | Some c => do l <- sure (construct c vs); Out (HObj l, s)
              | None => Bad
              end
            else Bad
        end
    end.

  (** A Tokenizer for an InputStream over a text: the members without initializer are constructed without arguments. *)
  Definition lstart (text : bytes) : option lst :=
    match l_start t, l_make t, l_token t with
    | Some i, Some k, Some c =>
        match construct i [HIt text; HIt []], construct k [HIn], construct c [] with
        | Some li, Some lk, Some cur => Some (LS [] ((b "current", HObj cur) :: lk) li)
        | _, _, _ => None
        end
    | _, _, _ => None
    end.
End Calls.
