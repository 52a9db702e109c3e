(** Execution of the functions of the runtime headers (C++11 4, 5, 6), as HParse.v reads them.
    [None]: undefined, ill-formed, not in this part of C++, or more iterations or calls than
    allowed.  Operands are evaluated from left to right; C++ leaves the order open, and in the
    functions executed here at most one operand has an effect that the other could see. *)
From Verif Require Import Bytes Num Dbl Types Cpp CLex CParse CExec Unit HText HParse.

(** ** Integers (LP64, char signed) *)

(** [ITid], [IErr], [IPgr]: the enumerations token_id, error_code, parse_error. *)
Inductive ity := IChar | IU8 | IInt | IUInt | ILong | ISize | ITid | IErr | IPgr.

Definition ity_eqb (x y : ity) : bool :=
  match x, y with
  | IChar, IChar | IU8, IU8 | IInt, IInt | IUInt, IUInt | ILong, ILong | ISize, ISize
  | ITid, ITid | IErr, IErr | IPgr, IPgr => true
  | _, _ => false
  end.

(** Every value of [s] is one of [t]. *)
Definition within (s t : ity) : bool :=
  ity_eqb s t ||
  match s, t with
  | IChar, (IInt | ILong) | IU8, (IInt | IUInt | ILong | ISize) | IInt, ILong | IUInt, (ILong | ISize)
  | (IErr | IPgr), (IInt | IUInt | ILong | ISize) => true
  | _, _ => false
  end.

(** A char of the input or of a string as number, and back. *)
Definition char_of (c : ascii) : Z := schar c.
Definition byte_of (z : Z) : ascii := chr z.
Definition cat (x y : bytes) : bytes := x ++ y.

(** Conversion of another value (4.7; to a signed type implementation-defined: modulo). *)
Definition wrap (t : ity) (z : Z) : option Z :=
  match t with
  | IChar => Some (char_of (byte_of z))
  | IU8 => Some (code (byte_of z))
  | IInt => Some (cast_int true 32 z)
  | IUInt => Some (cast_int false 32 z)
  | ILong => Some (cast_int true 64 z)
  | ISize => Some (cast_int false 64 z)
  | ITid | IErr | IPgr => None
  end.
Definition conv (s t : ity) (z : Z) : option Z := if within s t then Some z else wrap t z.

(** Integral promotions (4.5) and the usual arithmetic conversions (5/9). *)
Definition promoted (t : ity) : option ity :=
  match t with
  | IChar | IU8 | IInt | IErr | IPgr => Some IInt
  | IUInt | ILong | ISize => Some t
  | ITid => None
  end.
Definition common (s t : ity) : option ity :=
  match promoted s, promoted t with
  | Some IInt, Some u => Some u
  | Some u, Some IInt => Some u
  | Some u, Some v => if ity_eqb u v then Some u
                      else match u, v with
                           | ISize, _ | _, ISize => Some ISize
                           | _, _ => Some ILong
                           end
  | _, _ => None
  end.

(** A result: signed types must hold it (5/4), unsigned ones take it modulo (3.9.1/4). *)
Definition int_ok (z : Z) : bool := (-2147483648 <=? z) && (z <=? 2147483647).
Definition fit (t : ity) (z : Z) : option Z :=
  match t with
  | IInt => if int_ok z then Some z else None
  | IUInt | ISize => wrap t z
  | _ => None
  end.

(** ** Values *)

(** [HPtr s]: into an array of characters that ends with a null, [s] before it; [HPast]: behind
    that null.  [HIt r]: an iterator, [r] from there to the end.  [HNone t], [HRaw p]: not initialized.
    [HM v]: an object of the types of messages; [HMIt l]: an iterator of a container of such.
    [HIn]: the stream of the tokenizer.  [HCtx], [HParams], [HTokP], [HOsP], [HOs]: the context,
    its parameters, its tokenizer, its output stream. *)
Inductive hval :=
  | HVoid | HB (x : bool) | HI (t : ity) (z : Z) | HNone (t : ity)
  | HS (s : bytes) | HPtr (s : bytes) | HPast | HNull | HIt (r : bytes)
  | HM (v : val) | HRaw (p : prim) | HMIt (l : list val)
  | HObj (l : list (bytes * hval)) | HArr (l : list hval)
  | HIn | HCtx | HParams | HTokP | HOsP | HOs.

(** Objects: a variable, [current_] and [error_] of the tokenizer, members of its stream; within
    them members and elements. *)
Inductive root := RVar (x : bytes) | RCur | RErr | RIn (m : bytes).
Inductive step := SField (f : bytes) | SIdx (n : nat).
Inductive hres := HV (v : hval) | HL (r : root) (p : list step).

Inductive hvar := VarVal (v : hval) | VarRef (r : root) (p : list step).

(** [s_in]: the members of the stream; [s_err]: the [error_] of the tokenizer, which is
    [ctx.params.error] (protogen.hh:292); [s_out]: what the output stream got. *)
Record hst := HSt {
  s_vars : list (bytes * hvar);
  s_cur : hval;
  s_err : hval;
  s_in : list (bytes * hval);
  s_out : bytes
}.
Definition put_vars (s : hst) v := HSt v (s_cur s) (s_err s) (s_in s) (s_out s).
Definition put_out (s : hst) o := HSt (s_vars s) (s_cur s) (s_err s) (s_in s) o.

Fixpoint get_path (v : hval) (p : list step) : option hval :=
  match p with
  | [] => Some v
  | SField f :: p' => match v with
                      | HObj l => match assoc l f with Some v' => get_path v' p' | None => None end
                      | _ => None
                      end
  | SIdx n :: p' => match v with
                    | HArr l => match nth_error l n with Some v' => get_path v' p' | None => None end
                    | _ => None
                    end
  end.
Fixpoint set_path (v : hval) (p : list step) (w : hval) : option hval :=
  match p with
  | [] => Some w
  | SField f :: p' => match v with
                      | HObj l => match assoc l f with
                                  | Some v' => option_map (fun x => HObj (update l f x)) (set_path v' p' w)
                                  | None => None
                                  end
                      | _ => None
                      end
  | SIdx n :: p' => match v with
                    | HArr l => match nth_error l n with
                                | Some v' => option_map (fun x => HArr (set_nth n x l)) (set_path v' p' w)
                                | None => None
                                end
                    | _ => None
                    end
  end.

Definition get_root (s : hst) (r : root) : option hval :=
  match r with
  | RVar x => match assoc (s_vars s) x with Some (VarVal v) => Some v | _ => None end
  | RCur => Some (s_cur s)
  | RErr => Some (s_err s)
  | RIn m => assoc (s_in s) m
  end.
Definition set_root (s : hst) (r : root) (v : hval) : hst :=
  match r with
  | RVar x => put_vars s (update (s_vars s) x (VarVal v))
  | RCur => HSt (s_vars s) v (s_err s) (s_in s) (s_out s)
  | RErr => HSt (s_vars s) (s_cur s) v (s_in s) (s_out s)
  | RIn m => HSt (s_vars s) (s_cur s) (s_err s) (update (s_in s) m v) (s_out s)
  end.
(** The value of an object; one that is not initialized has none. *)
Definition peek_at (s : hst) (r : root) (p : list step) : option hval :=
  match get_root s r with Some v => get_path v p | None => None end.
Definition load (s : hst) (x : hres) : option hval :=
  match x with
  | HV (HNone _) | HV (HRaw _) => None
  | HV v => Some v
  | HL r p => match peek_at s r p with Some (HNone _) | Some (HRaw _) => None | x => x end
  end.
Definition store (s : hst) (r : root) (p : list step) (w : hval) : option hst :=
  match get_root s r with
  | Some v => option_map (set_root s r) (set_path v p w)
  | None => None
  end.

(** ** Operations *)

(** The value for an object of the type of [old]. *)
Definition fitted (old w : hval) : option hval :=
  match w with
  | HI u z => match old with HI t _ | HNone t => option_map (HI t) (conv u t z) | _ => None end
  | HB x => match old with
            | HB _ => Some (HB x)
            | HM (VPrim (VBool _)) | HRaw PBool => Some (HM (VPrim (VBool x)))
            | _ => None
            end
  | HS s => match old with
            | HS _ => Some (HS s)
            | HM (VStr _ _) => Some (HM (VStr false s))                     (* json-string.hh:26 *)
            | _ => None
            end
  | HPtr s => match old with HS _ => Some (HS (cstr s)) | HPtr _ => Some (HPtr s) | _ => None end
  | HObj l => match old with HObj _ => Some (HObj l) | _ => None end
  | HM (VPrim v) => match old with
                    | HM (VPrim _) | HRaw _ => Some (HM (VPrim v))
                    | HM (VField _ _) => Some (HM (VField false v))         (* json-number.hh:24 *)
                    | _ => None
                    end
  | _ => None
  end.

Definition shift_ok (y : Z) : bool :=
  match Z.compare 0 y with Gt => false | _ => match Z.compare y 32 with Lt => true | _ => false end end.
Definition arith (op : bytes) (t u : ity) (x y : Z) : option hval :=
  if same op (b "<<") || same op (b ">>") then
    match promoted t, promoted u with
    | Some t', Some _ =>
        if shift_ok y then
          if same op (b ">>") then Some (HI t' (Z.shiftr x y))
          else match t' with
               | IInt => if (0 <=? x) && int_ok (Z.shiftl x y) then Some (HI IInt (Z.shiftl x y)) else None
               | _ => option_map (HI t') (wrap t' (Z.shiftl x y))
               end
        else None
    | _, _ => None
    end
  else if (same op (b "==") || same op (b "!=")) && ity_eqb t ITid && ity_eqb u ITid then
    Some (HB (if same op (b "==") then x =? y else negb (x =? y)))
  else
    match common t u with
    | None => None
    | Some c =>
        match conv t c x, conv u c y with
        | Some x', Some y' =>
            if same op (b "==") then Some (HB (x' =? y'))
            else if same op (b "!=") then Some (HB (negb (x' =? y')))
            else if same op (b "<") then Some (HB (x' <? y'))
            else if same op (b "<=") then Some (HB (x' <=? y'))
            else if same op (b ">") then Some (HB (y' <? x'))
            else if same op (b ">=") then Some (HB (y' <=? x'))
            else if same op (b "&") then Some (HI c (Z.land x' y'))
            else if same op (b "|") then Some (HI c (Z.lor x' y'))
            else if same op (b "^") then Some (HI c (Z.lxor x' y'))
            else if same op (b "+") then option_map (HI c) (fit c (x' + y'))
            else if same op (b "-") then option_map (HI c) (fit c (x' - y'))
            else if same op (b "%") then
              if y' =? 0 then None else option_map (HI c) (fit c (Z.rem x' y'))
            else None
        | _, _ => None
        end
    end.

Definition str_eqb (x y : bytes) : bool := bytes_eqb x y.
Definition operation (op : bytes) (x y : hval) : option hval :=
  match x, y with
  | HI t u, HI t' v => arith op t t' u v
  | HIt r, HIt q => if same op (b "==") then Some (HB (Nat.eqb (length r) (length q)))
                    else if same op (b "!=") then Some (HB (negb (Nat.eqb (length r) (length q)))) else None
  | HS s, HPtr t => if same op (b "==") then Some (HB (str_eqb s (cstr t))) else None
  | HS s, HS t => if same op (b "==") then Some (HB (str_eqb s t)) else None
  | HMIt r, HMIt q => if same op (b "!=") then Some (HB (negb (Nat.eqb (length r) (length q)))) else None
  | HB u, HB v => if same op (b "==") then Some (HB (Bool.eqb u v)) else None
  | _, _ => None
  end.

(** What [operator<<] of the stream gives to it (protogen.hh:124-140). *)
Definition printed (v : hval) : option bytes :=
  match v with
  | HI IChar z => Some [byte_of z]
  | HS s => Some s
  | HPtr s => Some (cstr s)
  | HArr l =>                                          (* an array of characters: a C string *)
      option_map cstr (all_some (map (fun x => match x with HI IChar z => Some (byte_of z) | _ => None end) l))
  | _ => None
  end.

Definition truth (v : hval) : option bool :=
  match v with
  | HB x => Some x
  | HM (VPrim (VBool x)) => Some x
  | HI ITid _ => None
  | HI _ z => Some (negb (z =? 0))
  | _ => None
  end.

(** [*v], [v[i]] *)
Definition deref (v : hval) : option hval :=
  match v with
  | HIt (c :: _) | HPtr (c :: _) => Some (HI IChar (char_of c))
  | HPtr [] => Some (HI IChar 0)
  | HOsP => Some HOs
  | HMIt (v :: _) => Some (HM v)
  | _ => None
  end.
Definition element (v : hval) (z : Z) : option hval :=
  if z <? 0 then None
  else match v with
       | HS s | HPtr s => if z =? Z.of_nat (length s) then Some (HI IChar 0)
                          else option_map (fun c => HI IChar (char_of c)) (nth_error s (Z.to_nat z))
       | HM (VB64 s) => option_map (fun c => HI IU8 (code c)) (nth_error s (Z.to_nat z))
       | _ => None
       end.
(** [++v] *)
Definition advanced (v : hval) : option hval :=
  match v with
  | HI IInt z => option_map (HI IInt) (fit IInt (z + 1))
  | HI ISize z => option_map (HI ISize) (fit ISize (z + 1))
  | HIt (_ :: r) => Some (HIt r)
  | HMIt (_ :: r) => Some (HMIt r)
  | HPtr (_ :: r) => Some (HPtr r)
  | HPtr [] => Some HPast
  | _ => None
  end.
(** [x += v] *)
Definition added (x v : hval) : option hval :=
  match x, v with
  | HS s, HI IChar z => Some (HS (cat s [byte_of z]))
  | HI t u, HI t' w => match arith (b "+") t t' u w with
                       | Some (HI c z) => option_map (HI t) (conv c t z)
                       | _ => None
                       end
  | _, _ => None
  end.

(** Member functions of the standard classes, and of field and string_field (json-number.hh:21,
    json-string.hh:22-23): the new value of the object and the result. *)
Definition std_method (v : hval) (m : bytes) (args : list hval) : option (hval * hval) :=
  match v, args with
  | HS s, [] =>
      if same m (b "size") || same m (b "length") then Some (v, HI ISize (Z.of_nat (length s)))
      else if same m (b "empty") then Some (v, HB (match s with [] => true | _ => false end))
      else if same m (b "clear") then Some (HS [], HVoid)
      else if same m (b "c_str") then Some (v, HPtr s) else None
  | HS s, [HI ISize z] => if same m (b "reserve") then Some (v, HVoid) else None
  | HM (VB64 s), [] => if same m (b "size") then Some (v, HI ISize (Z.of_nat (length s))) else None
  | HM (VB64 s), [HI IU8 z] => if same m (b "push_back") then Some (HM (VB64 (cat s [byte_of z])), HVoid) else None
  | HM (VList l), [] =>
      if same m (b "size") then Some (v, HI ISize (Z.of_nat (length l)))
      else if same m (b "begin") then Some (v, HMIt l)
      else if same m (b "end") then Some (v, HMIt []) else None
  | HM (VList l), [HM x] => if same m (b "push_back") then Some (HM (VList (l ++ [x])), HVoid) else None
  | HM (VField e _), [] => if same m (b "empty") then Some (v, HB e) else None
  | HM (VStr n s), [] => if same m (b "empty") then Some (v, HB (n && match s with [] => true | _ => false end)) else None
  | HM (VStr n s), [HB x] => if same m (b "empty") then Some (HM (VStr x (if x then [] else s)), HVoid) else None
  | _, _ => None
  end.

(** Literals. *)
Definition chr_val (s : bytes) : option Z :=
  if same s (b """") then Some 34
  else match lit_go LText s with
       | Some [c] => if (N_of_ascii c <? 128)%N then Some (Z.of_N (N_of_ascii c)) else None
       | _ => None
       end.
(** The type of a literal is int if that holds it (2.14.2, table 6). *)
Definition num_val (u : bool) (z : Z) : option hval :=
  match Z.compare z 2147483647 with Gt => None | _ => Some (HI (if u then IUInt else IInt) z) end.

(** Types by their words. *)
Definition w_string : list bytes := Eval vm_compute in words_of "std::string".
Definition w_string_ref : list bytes := Eval vm_compute in words_of "std::string &".
Definition w_char_ptr : list bytes := Eval vm_compute in words_of "char *".
Definition w_context : list bytes := Eval vm_compute in words_of "json_context &".
Definition w_objects : list (list bytes) := Eval vm_compute in
  map words_of ["std::vector<uint8_t> &"; "T &"; "bool &"; "field<T> &"; "string_field &"]%string.
Definition w_ostream : list bytes := Eval vm_compute in words_of "internal::ostream *".
Definition w_auto_ref : list bytes := Eval vm_compute in words_of "auto &".
Definition w_const_string_ref : list bytes := Eval vm_compute in words_of "const std::string &".
Definition int_types : list (string * ity) :=
  [("int", IInt); ("int32_t", IInt); ("size_t", ISize); ("char", IChar); ("uint8_t", IU8); ("uint32_t", IUInt);
   ("token_id", ITid); ("error_code", IErr)]%string.
Definition int_type (t : list bytes) : option ity :=
  match t with [w] => option_map snd (find (fun x => same (b (fst x)) w) int_types) | _ => None end.
Fixpoint no_static (t : list bytes) : list bytes :=
  match t with
  | w :: r => if same w (b "static") || same w (b "const") then no_static r else t
  | [] => []
  end.

(** The value for a variable, a parameter or a result of type [t]. *)
Definition typed (t : list bytes) (v : hval) : option hval :=
  let t := no_static t in
  match int_type t with
  | Some i => match v with HI j z => option_map (HI i) (conv j i z) | _ => None end
  | None =>
      if words_eqb t [b "bool"] then option_map HB (truth v)
      else if words_eqb t [b "auto"] then match v with HVoid => None | _ => Some v end
      else if words_eqb t w_string || words_eqb t w_string_ref then
        match v with HS s => Some (HS s) | HPtr s => Some (HS (cstr s)) | _ => None end
      else if words_eqb t w_char_ptr then match v with HPtr s => Some (HPtr s) | _ => None end
      else if words_eqb t [b "token"] then match v with HObj l => Some (HObj l) | _ => None end
      else if words_eqb t w_context then match v with HCtx => Some HCtx | _ => None end
      else if existsb (words_eqb t) w_objects then match v with HM x => Some (HM x) | _ => None end
      else if words_eqb t w_ostream then match v with HOsP => Some HOsP | _ => None end
      else if words_eqb t [b "T"] then match v with HM (VPrim x) => Some (HM (VPrim x)) | _ => None end
      else None
  end.
(** A variable without initializer. *)
Definition fresh (t : list bytes) : option hval :=
  match int_type t with
  | Some i => Some (HNone i)
  | None => if words_eqb t w_string then Some (HS []) else None
  end.
Definition array_of (i : ity) (n : Z) (init : option hexpr) : option hval :=
  match init with
  | None => Some (HArr (repeat (HNone i) (Z.to_nat n)))
  | Some (EList [ENum false 0]) => Some (HArr (repeat (HI i 0) (Z.to_nat n)))
  | Some _ => None
  end.

(** Whose functions are executed, and on what a function is called: by its name, on the stream
    of the tokenizer, on the tokenizer of the context. *)
Inductive cls := CNone | CStream | CTok.
Inductive target := OName | OIn | OTok.

Inductive hflow := GNext | GBreak | GContinue | GGoto (x : bytes) | GReturn (r : option hres).

(** [while]: at most [k] iterations. *)
Fixpoint while_loop (k : nat) (c : hst -> option (bool * hst)) (step : hst -> option hst)
         (body : hst -> option (hflow * hst)) (s : hst) : option (hflow * hst) :=
  match k with
  | O => None
  | S k' =>
      match c s with
      | Some (true, s1) =>
          match body s1 with
          | Some (GNext, s2) | Some (GContinue, s2) =>
              match step s2 with Some s3 => while_loop k' c step body s3 | None => None end
          | Some (GBreak, s2) => Some (GNext, s2)
          | x => x
          end
      | Some (false, s1) => Some (GNext, s1)
      | None => None
      end
  end.

Definition leave_block (s s' : hst) : hst :=
  put_vars s' (skipn (length (s_vars s') - length (s_vars s)) (s_vars s')).

Section Exec.
  (** Iterations of a loop; enumerators, and what the types and constants of T are; ensure_ascii of
      the parameters; the class; calls. *)
  Context (loops : nat) (consts : list (list bytes * hval)) (ea : bool) (cl : cls).
  Context (call : target -> list bytes -> list hres -> hst -> option (hres * hst)).

  Fixpoint find_words {A} (l : list (list bytes * A)) (ws : list bytes) : option A :=
    match l with [] => None | (x, a) :: r => if words_eqb x ws then Some a else find_words r ws end.

  (** A name: a variable, a member of the class, an enumerator. *)
  Definition named (ws : list bytes) (s : hst) : option hres :=
    match ws with
    | [x] =>
        match assoc (s_vars s) x with
        | Some (VarVal _) => Some (HL (RVar x) [])
        | Some (VarRef r p) => Some (HL r p)
        | None =>
            match cl with
            | CTok =>
                if same x (b "current_") then Some (HL RCur [])
                else if same x (b "error_") then Some (HL RErr [])
                else if same x (b "input_") then Some (HV HIn)
                else option_map HV (find_words consts ws)
            | CStream =>
                match assoc (s_in s) x with
                | Some _ => Some (HL (RIn x) [])
                | None => option_map HV (find_words consts ws)
                end
            | CNone => option_map HV (find_words consts ws)
            end
        end
    | _ => option_map HV (find_words consts ws)
    end.

  (** [x.m] *)
  Definition member_of (x : hres) (m : bytes) (s : hst) : option hres :=
    match load s x with
    | Some (HObj l) =>
        match x with
        | HL r p => match assoc l m with Some _ => Some (HL r (p ++ [SField m])) | None => None end
        | HV _ => option_map HV (assoc l m)
        end
    | Some HCtx => if same m (b "tok") then Some (HV HTokP)
                   else if same m (b "os") then Some (HV HOsP)
                   else if same m (b "params") then Some (HV HParams) else None
    | Some HParams => if same m (b "ensure_ascii") then Some (HV (HB ea))
                      else if same m (b "error") then Some (HL RErr []) else None
    | _ => None
    end.

  Definition bind {A B} (x : option A) (f : A -> option B) : option B :=
    match x with Some a => f a | None => None end.

  (** A position of an array. *)
  Definition inside (z : Z) (n : nat) : bool :=
    match Z.compare 0 z with Gt => false | _ => match Z.compare z (Z.of_nat n) with Lt => true | _ => false end end.

  Fixpoint loads (s : hst) (l : list hres) : option (list hval) :=
    match l with
    | [] => Some []
    | x :: r => match load s x, loads s r with Some v, Some vs => Some (v :: vs) | _, _ => None end
    end.

  Definition evals (ev : hexpr -> hst -> option (hres * hst)) : list hexpr -> hst -> option (list hres * hst) :=
    fix go l s :=
      match l with
      | [] => Some ([], s)
      | e :: r => match ev e s with
                  | Some (x, s1) => match go r s1 with Some (xs, s2) => Some (x :: xs, s2) | None => None end
                  | None => None
                  end
      end.

  Fixpoint heval (e : hexpr) (s : hst) {struct e} : option (hres * hst) :=
    let hevals := evals heval in
    match e with
    | EName ws => option_map (fun x => (x, s)) (named ws s)
    | EBool x => Some (HV (HB x), s)
    | ENull => Some (HV HNull, s)
    | ENum u z => option_map (fun v => (HV v, s)) (num_val u z)
    | EStr t => option_map (fun x => (HV (HPtr x), s)) (lit_go LText t)
    | EChr t => option_map (fun z => (HV (HI IChar z), s)) (chr_val t)
    | EDot e m => match heval e s with
                  | Some (x, s1) => option_map (fun y => (y, s1)) (member_of x m s1)
                  | None => None
                  end
    | EIndex e i =>
        match heval e s with
        | Some (x, s1) =>
            match heval i s1 with
            | Some (y, s2) =>
                match load s2 y with
                | Some (HI t z) =>
                    match x, (match x with HL r p => peek_at s2 r p | HV v => Some v end) with
                    | HL r p, Some (HArr l) =>
                        if inside z (length l) then Some (HL r (p ++ [SIdx (Z.to_nat z)]), s2) else None
                    | _, Some v => option_map (fun w => (HV w, s2)) (element v z)
                    | _, None => None
                    end
                | _ => None
                end
            | None => None
            end
        | None => None
        end
    | ECall f args =>
        match f with
        | EName ws =>
            match (match ws with [x] => assoc (s_vars s) x | _ => None end), hevals args s with
            | None, Some (xs, s1) => call OName ws xs s1
            | _, _ => None
            end
        | EDot o m =>
            match heval o s with
            | Some (x, s1) =>
                match hevals args s1 with
                | Some (xs, s2) =>
                    match load s2 x with
                    | Some HIn => call OIn [m] xs s2
                    | Some v =>
                        match loads s2 xs with
                        | Some vs =>
                            match std_method v m vs, x with
                            | Some (v', w), HL r p => option_map (fun s3 => (HV w, s3)) (store s2 r p v')
                            | Some (_, w), HV _ => Some (HV w, s2)
                            | None, _ => None
                            end
                        | None => None
                        end
                    | None => None
                    end
                | None => None
                end
            | None => None
            end
        | EArrow o m =>
            match heval o s with
            | Some (x, s1) =>
                match hevals args s1 with
                | Some (xs, s2) => match load s2 x with Some HTokP => call OTok [m] xs s2 | _ => None end
                | None => None
                end
            | None => None
            end
        | _ => None
        end
    | EPre op e =>
        match heval e s with
        | None => None
        | Some (x, s1) =>
            match load s1 x with
            | None => None
            | Some v =>
                if same op (b "!") then option_map (fun u => (HV (HB (negb u)), s1)) (truth v)
                else if same op (b "*") then option_map (fun w => (HV w, s1)) (deref v)
                else if same op (b "++") then
                  match x, advanced v with
                  | HL r p, Some w => option_map (fun s2 => (HL r p, s2)) (store s1 r p w)
                  | _, _ => None
                  end
                else if same op (b "-") then
                  match v with
                  | HI IInt z => option_map (fun z' => (HV (HI IInt z'), s1)) (fit IInt (- z))
                  | _ => None
                  end
                else None
            end
        end
    | EPost op e =>
        match heval e s with
        | None => None
        | Some (x, s1) =>
            match load s1 x with
            | None => None
            | Some v =>
                if same op (b "++") then
                  match x, advanced v with
                  | HL r p, Some w => option_map (fun s2 => (HV v, s2)) (store s1 r p w)
                  | _, _ => None
                  end
                else None
            end
        end
    | ECast t e =>
        match heval e s with
        | None => None
        | Some (x, s1) =>
            match int_type t with
            | Some i => match load s1 x with
                        | Some (HI u z) => option_map (fun z' => (HV (HI i z'), s1)) (conv u i z)
                        | _ => None
                        end
            | None =>
                if words_eqb t [b "T"] then
                  match load s1 x with
                  | Some (HM (VField _ v)) => Some (HV (HM (VPrim v)), s1)                (* json-number.hh:29 *)
                  | Some (HI IInt 0) => option_map (fun v => (HV v, s1)) (find_words consts [b "(T) 0"])
                  | _ => None
                  end
                else None
            end
        end
    | ECond c x y =>
        match heval c s with
        | None => None
        | Some (u, s1) =>
            match load s1 u with
            | Some v => match truth v with
                        | Some true => heval x s1
                        | Some false => heval y s1
                        | None => None
                        end
            | None => None
            end
        end
    | EBin op x y =>
        match heval x s with
        | None => None
        | Some (u, s1) =>
            if same op (b "&&") || same op (b "||") then     (* the second operand only if needed *)
              match bind (load s1 u) truth with
              | None => None
              | Some p =>
                  if (if same op (b "&&") then p else negb p) then
                    match heval y s1 with
                    | Some (w, s2) => option_map (fun q => (HV (HB q), s2)) (bind (load s2 w) truth)
                    | None => None
                    end
                  else Some (HV (HB p), s1)
              end
            else
              match heval y s1 with
              | None => None
              | Some (w, s2) =>
                  match load s2 u, load s2 w with
                  | Some HOs, Some v =>
                      if same op (b "<<") then option_map (fun o => (HV HOs, put_out s2 (cat (s_out s2) o))) (printed v) else None
                  | Some v, Some v' => option_map (fun r => (HV r, s2)) (operation op v v')
                  | _, _ => None
                  end
              end
        end
    | ESet op x y =>
        match heval y s with
        | None => None
        | Some (w, s1) =>
            match heval x s1 with
            | Some (HL r p, s2) =>
                match load s2 w, peek_at s2 r p with
                | Some v, Some old =>
                    match (if same op (b "=") then fitted old v else if same op (b "+=") then added old v else None) with
                    | Some v' => option_map (fun s3 => (HL r p, s3)) (store s2 r p v')
                    | None => None
                    end
                | _, _ => None
                end
            | _ => None
            end
        end
    | ESizeof [x] =>
        match assoc (s_vars s) x with
        | Some (VarVal (HArr l)) =>                       (* of char: the elements *)
            if forallb (fun v => match v with HI IChar _ | HNone IChar => true | _ => false end) l
            then Some (HV (HI ISize (Z.of_nat (length l))), s) else None
        | _ => None
        end
    | _ => None
    end.

  Fixpoint heffects (l : list hexpr) (s : hst) : option hst :=
    match l with
    | [] => Some s
    | e :: r => match heval e s with Some (_, s1) => heffects r s1 | None => None end
    end.
  Definition hcond (e : hexpr) (s : hst) : option (bool * hst) :=
    match heval e s with
    | Some (x, s1) => option_map (fun u => (u, s1)) (bind (load s1 x) truth)
    | None => None
    end.

  (** The constant of a case. *)
  Definition case_val (e : hexpr) : option Z :=
    match e with
    | EChr t => chr_val t
    | EName ws => match find_words consts ws with Some (HI _ z) => Some z | _ => None end
    | _ => None
    end.
  (** What follows the label of a switch (6.4.2). *)
  Fixpoint case_from (z : Z) (l : list hstmt) : option (list hstmt) :=
    match l with
    | [] => None
    | TCase e :: r => match case_val e with
                      | Some c => if z =? c then Some r else case_from z r
                      | None => case_from z r
                      end
    | _ :: r => case_from z r
    end.
  Fixpoint default_from (l : list hstmt) : list hstmt :=
    match l with
    | [] => []
    | TDefault :: r => r
    | _ :: r => default_from r
    end.
  Fixpoint label_from (x : bytes) (l : list hstmt) : option (list hstmt) :=
    match l with
    | [] => None
    | TLabel y :: r => if same x y then Some r else label_from x r
    | TVar _ _ _ _ :: _ => None                     (* not past a variable (6.7/3) *)
    | _ :: r => label_from x r
    end.
  (** The constants differ; no label follows a variable (6.7/3). *)
  Fixpoint no_labels (l : list hstmt) : bool :=
    match l with
    | [] => true
    | (TCase _ | TDefault) :: _ => false
    | _ :: r => no_labels r
    end.
  Fixpoint labels_first (l : list hstmt) : bool :=
    match l with
    | [] => true
    | TVar _ _ _ _ :: r => no_labels r
    | _ :: r => labels_first r
    end.
  Definition cases_ok (l : list hstmt) : bool :=
    labels_first l &&
    match all_some (flat_map (fun s => match s with TCase e => [case_val e] | _ => [] end) l) with
    | Some zs => distinct zs
    | None => false
    end.

  Definition declare (t : list bytes) (x : bytes) (dim init : option hexpr) (s : hst) : option hst :=
    let add s v := Some (put_vars s ((x, v) :: s_vars s)) in
    match dim with
    | Some (ENum false n) =>
        match int_type t with
        | Some i => match array_of i n init with Some v => add s (VarVal v) | None => None end
        | None => None
        end
    | Some _ => None
    | None =>
        match init with
        | None =>
            match (match fresh t with Some v => Some v | None => find_words consts t end) with
            | Some v => add s (VarVal v)
            | None => None
            end
        | Some e =>
            match heval e s with
            | None => None
            | Some (u, s1) =>
                if words_eqb t w_auto_ref then
                  match u with HL r p => add s1 (VarRef r p) | HV _ => None end
                else match load s1 u with
                     | Some v => match typed t v with Some w => add s1 (VarVal w) | None => None end
                     | None => None
                     end
            end
        end
    end.

  (** Statements one after another; [goto] only forward, to a label that follows.  [k]: more
      than there are statements. *)
  Fixpoint seq_loop (ex : hstmt -> hst -> option (hflow * hst)) (k : nat) (l : list hstmt) (s : hst)
    : option (hflow * hst) :=
    match k with
    | O => None
    | S k' =>
        match l with
        | [] => Some (GNext, s)
        | st :: r =>
            match ex st s with
            | Some (GNext, s1) => seq_loop ex k' r s1
            | Some (GGoto x, s1) =>
                match label_from x r with Some r' => seq_loop ex k' r' s1 | None => Some (GGoto x, s1) end
            | x => x
            end
        end
    end.

  (** [n]: how deep statements may be nested. *)
  Fixpoint hexec (n : nat) (st : hstmt) (s : hst) {struct n} : option (hflow * hst) :=
    match n with
    | O => None
    | S n' =>
        let hexecs := seq_loop (hexec n') in
        match st with
        | TExpr l => option_map (fun s1 => (GNext, s1)) (heffects l s)
        | TVar t x dim init => option_map (fun s1 => (GNext, s1)) (declare t x dim init s)
        | TReturn None => Some (GReturn None, s)
        | TReturn (Some e) =>                            (* a variable is copied, before it ends *)
            match heval e s with
            | Some (HL (RVar x) p, s1) => option_map (fun v => (GReturn (Some (HV v)), s1)) (load s1 (HL (RVar x) p))
            | Some (x, s1) => Some (GReturn (Some x), s1)
            | None => None
            end
        | TIf c st1 st2 =>
            match hcond c s with
            | Some (true, s1) => hexec n' st1 s1
            | Some (false, s1) => match st2 with Some x => hexec n' x s1 | None => Some (GNext, s1) end
            | None => None
            end
        | TWhile c st1 => while_loop loops (hcond c) Some (hexec n' st1) s
        | TDo st1 (EBool false) =>
            match hexec n' st1 s with
            | Some (GBreak, s1) | Some (GContinue, s1) => Some (GNext, s1)
            | x => x
            end
        | TFor i c p st1 =>
            match hexec n' i s with
            | Some (GNext, s1) =>
                match while_loop loops (hcond c) (heffects p) (hexec n' st1) s1 with
                | Some (f, s2) => Some (f, leave_block s s2)
                | None => None
                end
            | _ => None
            end
        | TBlock l =>
            match hexecs (S (length l)) l s with
            | Some (f, s1) => Some (f, leave_block s s1)
            | None => None
            end
        | TSeq l => hexecs (S (length l)) l s
        | TSwitch e l =>
            match heval e s with
            | Some (x, s1) =>
                match load s1 x with
                | Some (HI _ z) =>
                    if cases_ok l then
                      let l' := match case_from z l with Some r => r | None => default_from l end in
                      match hexecs (S (length l)) l' s1 with
                      | Some (GBreak, s2) => Some (GNext, leave_block s1 s2)
                      | Some (f, s2) => Some (f, leave_block s1 s2)
                      | None => None
                      end
                    else None
                | _ => None
                end
            | None => None
            end
        | TCase _ | TDefault | TLabel _ => Some (GNext, s)
        | TBreak => Some (GBreak, s)
        | TContinue => Some (GContinue, s)
        | TGoto x => Some (GGoto x, s)
        | _ => None
        end
    end.
End Exec.

(** ** Functions *)

Definition ends_amp (t : list bytes) : bool := match rev t with w :: _ => same w (b "&") | [] => false end.
Definition starts_const (t : list bytes) : bool := match t with w :: _ => same w (b "const") | [] => false end.
Definition by_ref (t : list bytes) : bool := ends_amp t && negb (starts_const t).

(** The parameters as variables, and which variables of the caller they refer to.  A reference
    to such a variable is a copy that is given back at the end: the callee has no other way to
    the variable, if no two parameters refer to the same. *)
Fixpoint bind_params (ps : list (list bytes * bytes)) (args : list hres) (s : hst)
  : option (list (bytes * hvar) * list (bytes * bytes)) :=
  match ps, args with
  | [], [] => Some ([], [])
  | (t, x) :: ps', a :: args' =>
      match bind_params ps' args' s with
      | None => None
      | Some (vs, back) =>
          let value := match load s a with
                       | Some v => option_map (fun w => ((x, VarVal w) :: vs, back)) (typed t v)
                       | None => None
                       end in
          if by_ref t then
            match a with
            | HL (RVar y) [] =>
                match get_root s (RVar y) with
                | Some HCtx => value
                | Some v => if existsb (fun p => same (snd p) y) back then None
                            else Some ((x, VarVal v) :: vs, (x, y) :: back)
                | None => None
                end
            | HL (RVar _) _ => None
            | HL r p => Some ((x, VarRef r p) :: vs, back)
            | HV _ => value
            end
          else value
      end
  | _, _ => None
  end.

Fixpoint give_back (back : list (bytes * bytes)) (callee : list (bytes * hvar)) (caller : list (bytes * hvar))
  : option (list (bytes * hvar)) :=
  match back with
  | [] => Some caller
  | (x, y) :: r => match assoc callee x with
                   | Some v => give_back r callee (update caller y v)
                   | None => None
                   end
  end.

(** The result as the declared type; a reference must not be to a variable of the function. *)
Definition result_of (t : list bytes) (f : hflow) (s : hst) : option hres :=
  match f with
  | GNext | GReturn None => if words_eqb t [b "void"] then Some (HV HVoid) else None
  | GReturn (Some x) =>
      if ends_amp t then match x with HL (RVar _) _ => None | HL r p => Some (HL r p) | HV _ => None end
      else match load s x with Some v => option_map HV (typed t v) | None => None end
  | _ => None
  end.

(** How deep statements of the headers are nested, at most. *)
Definition nesting : nat := 20.

Definition run_fun (loops : nat) (consts : list (list bytes * hval)) (ea : bool) (cl : cls)
           (call : target -> list bytes -> list hres -> hst -> option (hres * hst))
           (f : hfun) (args : list hres) (s : hst) : option (hres * hst) :=
  match bind_params (hf_params f) args s with
  | None => None
  | Some (vars, back) =>
      match seq_loop (hexec loops consts ea cl call nesting) (S (length (hf_body f))) (hf_body f) (put_vars s vars) with
      | None => None
      | Some (fl, s1) =>
          match result_of (hf_ret f) fl s1, give_back back (s_vars s1) (s_vars s) with
          | Some r, Some vs => Some (r, put_vars s1 vs)
          | _, _ => None
          end
      end
  end.

(** ** Calls *)

(** strtol with base 16 on hexadecimal digits before a null, few enough not to overflow. *)
Fixpoint hex_array (acc : Z) (l : list hval) : option Z :=
  match l with
  | HI IChar z :: r =>
      if z =? 0 then Some acc
      else match hex_digit_val (byte_of z) with Some h => hex_array (16 * acc + h) r | None => None end
  | _ => None
  end.

(** The constructor of token (protogen.hh:270) and strtol. *)
Definition builtin (ws : list bytes) (vs : list hval) : option hval :=
  match ws with
  | [f] =>
      if same f (b "token") then
        match vs with
        | [HI ITid i; v] =>
            match typed w_const_string_ref v with
            | Some w => Some (HObj [(b "id", HI ITid i); (b "value", w); (b "line", HI IInt 0); (b "column", HI IInt 0)])
            | None => None
            end
        | [HI ITid i; v; HI IInt l; HI IInt c] =>
            match typed w_const_string_ref v with
            | Some w => Some (HObj [(b "id", HI ITid i); (b "value", w); (b "line", HI IInt l); (b "column", HI IInt c)])
            | None => None
            end
        | _ => None
        end
      else if same f (b "strtol") then
        match vs with
        | [HArr l; HNull; HI IInt 16] =>
            if (length l <=? 8)%nat then option_map (HI ILong) (hex_array 0 l) else None
        | _ => None
        end
      else None
  | _ => None
  end.

Section Calls.
  (** The functions of the stream and of the tokenizer. *)
  Context (loops : nat) (consts : list (list bytes * hval)) (ea : bool) (stream tok : list hfun).

  (** [d]: how many calls may be open at once.  In a class its functions are meant before others. *)
  Fixpoint callD (d : nat) (cl : cls) (o : target) (ws : list bytes) (args : list hres) (s : hst) {struct d}
    : option (hres * hst) :=
    match d with
    | O => None
    | S d' =>
        let run c fs f := match hfind fs f with
                          | Some fn => run_fun loops consts ea c (callD d' c) fn args s
                          | None => None
                          end in
        let std := match loads s args with
                   | Some vs => option_map (fun v => (HV v, s)) (builtin ws vs)
                   | None => None
                   end in
        match o, ws with
        | OIn, [f] => run CStream stream f
        | OTok, [f] => run CTok tok f
        | OName, [f] =>
            match cl with
            | CStream => run CStream stream f
            | CTok => match hfind tok f with Some _ => run CTok tok f | None => std end
            | CNone => std
            end
        | _, _ => None
        end
    end.
End Calls.
