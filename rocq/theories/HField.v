(** The classes field<T> and string_field, and the functions empty, clear, equal and swap of json<T>, from the text of json-number.hh,
    json-string.hh, json-base64.hh and json-array.hh, and their execution.  [None]: undefined, ill-formed or not in this part of C++. *)
From Verif Require Import Bytes Types Cpp CLex CParse CExec Unit HdrText HText HParse HTok HExec HJson HApi HIter.

(** ** The texts *)

(** Functions and operators; of a function template, every overload that can be read. *)
Definition named (f : hfun) : ofun := OFun (hf_name f) (hf_params f) (hf_body f).
Definition ffunctions (l : list tree) : list ofun := map named (hfunctions l) ++ flat_map ofunction (items [] l).

(** Data members with their initializers. *)
Definition data_types : list (list bytes) := map words_of ["T"; "bool"; "std::string"]%string.
Definition data_member (i : item) : list (list bytes * bytes * option hexpr) :=
  match it_body i with
  | Some _ => []
  | None => match var_type data_types (no_access (it_head i)) with
            | Some (t, r) => match declarator t r with Some (TVar t' x None e) => [(t', x, e)] | _ => [] end
            | None => []
            end
  end.
Record fclass := FClass { f_name : list bytes; f_members : list (list bytes * bytes * option hexpr); f_funs : list ofun }.
Definition fclass_of (c : string) (l : list tree) : fclass := FClass (words_of c) (flat_map data_member (items [] l)) (ffunctions l).

(** json-number.hh:8-30, json-string.hh:8-38; [q_free]: equal_number of integers (108-112; that of floating-point numbers, 101-106, is
    refused by the parser); the others: the static functions of json<T>. *)
Record ftext := FTx {
  q_field : fclass; q_string : fclass; q_free : list ofun;
  q_jbool : list ofun; q_jnum : list ofun; q_jfield : list ofun; q_jstring : list ofun; q_jb64 : list ofun; q_jarr : list ofun
}.
Definition ftext_of (num str b64 arr : bytes) : ftext :=
  let X := texts_of [] [] arr b64 num str in
  FTx (fclass_of "field<T>" (inner_block (header num) [ns; "template<typename T> class field"]%string))
      (fclass_of "string_field" (inner_block (header str) [ns; "class string_field"]%string))
      (map named (hfunctions (inner_block (header num) [ns])))
      (map named (x_bool X)) (map named (x_num X)) (map named (x_field X)) (map named (x_sfield X)) (map named (x_b64 X)) (map named (x_arr X)).

(** ** Objects *)

(** [FP]: a value of type T; [FB]: a bool; [FS]: a std::string; [FC]: a pointer to these characters and a NUL; [FV]: a container.  An object is one of these or of the class. *)
Inductive fval := FP (p : pval) | FB (x : bool) | FS (s : bytes) | FC (s : bytes) | FV (v : val).
Inductive fobj := OVal (v : fval) | OCls (l : list (bytes * fval)).
(** An object, or one of its members. *)
Definition fplace := (nat * option bytes)%type.
Inductive fres := GV (v : fval) | GP (p : fplace) | GVoid.

Definition fload (s : list fobj) (p : fplace) : option fval :=
  match nth_error s (fst p), snd p with
  | Some (OVal v), None => Some v
  | Some (OCls l), Some m => assoc l m
  | _, _ => None
  end.
Definition same_kind (x y : fval) : bool :=
  match x, y with
  | FP (VInt _), FP (VInt _) | FP (VDbl _), FP (VDbl _) | FP (VBool _), FP (VBool _) | FB _, FB _ | FS _, FS _ | FV _, FV _ => true
  | _, _ => false
  end.
Definition fstore (s : list fobj) (p : fplace) (v0 : fval) : option (list fobj) :=
  match fload s p with
  | Some w =>
      let v := match v0, w with FC t, FS _ => FS t | _, _ => v0 end in
      if same_kind v w then
        match nth_error s (fst p), snd p with
        | Some (OCls l), Some m => Some (set_nth (fst p) (OCls (update l m v)) s)
        | _, _ => Some (set_nth (fst p) (OVal v) s)
        end
      else None
  | None => None
  end.
Definition fvalue (s : list fobj) (r : fres) : option fval :=
  match r with GV v => Some v | GP p => fload s p | GVoid => None end.

(** ** Execution *)
Section Exec.
  (** [cls]: the words of the name of the class; [zero]: T (0); [call x f args s]: f of the object [x] or, without one, of the namespace. *)
  Context (cls : list bytes) (zero : pval) (call : option nat -> bytes -> list fres -> list fobj -> option (fres * list fobj)).

  Definition f_equal (x y : fval) : option bool :=
    match x, y with
    | FP p, FP q => if same_kind x y then Some (pval_eqb p q) else None
    | FB p, FB q => Some (Bool.eqb p q)
    | FS p, FS q | FS p, FC q => Some (bytes_eqb p q)
    | FV p, FV q => Some (vequal p q)
    | _, _ => None
    end.
  Definition is_class (s : list fobj) (r : fres) : option nat :=
    match r with GP (n, None) => match nth_error s n with Some (OCls _) => Some n | _ => None end | _ => None end.
  (** Members of std::string and of containers (21.4, 23). *)
  Definition of_string (f : bytes) (p : fplace) (s : list fobj) : option (fres * list fobj) :=
    match fload s p with
    | Some (FS t) =>
        if same f (b "empty") then Some (GV (FB (match t with [] => true | _ => false end)), s)
        else if same f (b "clear") then option_map (fun s' => (GVoid, s')) (fstore s p (FS [])) else None
    | Some (FV (VList t)) =>
        if same f (b "empty") then Some (GV (FB (match t with [] => true | _ => false end)), s)
        else if same f (b "clear") then option_map (fun s' => (GVoid, s')) (fstore s p (FV (VList []))) else None
    | Some (FV (VB64 t)) =>
        if same f (b "empty") then Some (GV (FB (match t with [] => true | _ => false end)), s)
        else if same f (b "clear") then option_map (fun s' => (GVoid, s')) (fstore s p (FV (VB64 []))) else None
    | _ => None
    end.
  Definition f_swap (p q : fplace) (s : list fobj) : option (fres * list fobj) :=
    match fload s p, fload s q with
    | Some x, Some y => match fstore s p y with Some s1 => option_map (fun s2 => (GVoid, s2)) (fstore s1 q x) | None => None end
    | _, _ => None
    end.
  Definition members_of (s : list fobj) (n : nat) : list (bytes * fval) := match nth_error s n with Some (OCls l) => l | _ => [] end.

  Fixpoint feval (this : option nat) (vars : list (bytes * nat)) (e : hexpr) (s : list fobj) {struct e} : option (fres * list fobj) :=
    let value e s := match feval this vars e s with Some (r, s1) => match fvalue s1 r with Some v => Some (v, s1) | None => None end | None => None end in
    match e with
    | EBool x => Some (GV (FB x), s)
    | ECast t (ENum false 0) => if words_eqb t [b "T"] then Some (GV (FP zero), s) else None
    | EPre op e =>
        if same op (b "*") then match e, this with EThis, Some n => Some (GP (n, None), s) | _, _ => None end
        else if same op (b "!") then match value e s with Some (FB x, s1) => Some (GV (FB (negb x)), s1) | _ => None end
        else None
    | EArrow EThis m => match this with Some n => if has (members_of s n) m then Some (GP (n, Some m), s) else None | None => None end
    | EName [x] =>
        match assoc vars x, this with
        | Some n, _ => Some (GP (n, None), s)
        | None, Some n => if has (members_of s n) x then Some (GP (n, Some x), s) else None
        | None, None => None
        end
    | EDot e m => match feval this vars e s with
                  | Some (GP (n, None), s1) => if has (members_of s1 n) m then Some (GP (n, Some m), s1) else None
                  | _ => None
                  end
    | ECall (EDot e f) args =>
        match feval this vars e s with
        | Some (GP p, s1) =>
            match is_class s1 (GP p), args with
            | Some n, [] => call (Some n) f [] s1
            | Some n, [a] => match feval this vars a s1 with Some (r, s2) => call (Some n) f [r] s2 | None => None end
            | None, [] => of_string f p s1
            | _, _ => None
            end
        | _ => None
        end
    | ECall (EName ws) [x; y] =>
        match feval this vars x s with
        | Some (r1, s1) =>
            match feval this vars y s1 with
            | Some (r2, s2) =>
                if words_eqb ws (words_of "std::swap") then match r1, r2 with GP p, GP q => f_swap p q s2 | _, _ => None end
                else match ws with [f] => call None f [r1; r2] s2 | _ => None end
            | None => None
            end
        | None => None
        end
    | EBin op x y =>
        if same op (b "&&") then
          match value x s with Some (FB false, s1) => Some (GV (FB false), s1) | Some (FB true, s1) =>
            match value y s1 with Some (FB z, s2) => Some (GV (FB z), s2) | _ => None end | _ => None end
        else if same op (b "||") then
          match value x s with Some (FB true, s1) => Some (GV (FB true), s1) | Some (FB false, s1) =>
            match value y s1 with Some (FB z, s2) => Some (GV (FB z), s2) | _ => None end | _ => None end
        else if same op (b "==") || same op (b "!=") then
          match feval this vars x s with
          | Some (r1, s1) =>
              match feval this vars y s1 with
              | Some (r2, s2) =>
                  match is_class s2 r1 with
                  | Some n => call (Some n) op [r2] s2
                  | None => match fvalue s2 r1, fvalue s2 r2 with
                            | Some u, Some v => option_map (fun z => (GV (FB (if same op (b "==") then z else negb z)), s2)) (f_equal u v)
                            | _, _ => None
                            end
                  end
              | None => None
              end
          | None => None
          end
        else None
    | ESet op x y =>
        if same op (b "=") then
          match value y s with
          | Some (v, s1) => match feval this vars x s1 with
                            | Some (GP p, s2) => option_map (fun s3 => (GP p, s3)) (fstore s2 p v)
                            | _ => None
                            end
          | None => None
          end
        else None
    | _ => None
    end.

  (** A body; without "return" at its end it gives nothing. *)
  Fixpoint f_body (this : option nat) (vars : list (bytes * nat)) (l : list hstmt) (s : list fobj) : option (fres * list fobj) :=
    match l with
    | [] => Some (GVoid, s)
    | TReturn (Some e) :: _ => feval this vars e s
    | TExpr [e] :: r => match feval this vars e s with Some (_, s1) => f_body this vars r s1 | None => None end
    | TIf c (TExpr [e]) None :: r =>
        match feval this vars c s with
        | Some (g, s1) =>
            match fvalue s1 g with
            | Some (FB true) => match feval this vars e s1 with Some (_, s2) => f_body this vars r s2 | None => None end
            | Some (FB false) => f_body this vars r s1
            | _ => None
            end
        | None => None
        end
    | _ => None
    end.

  (** The parameters of a function: the type without "const" and "&" is that of the argument. *)
  Definition core (t : list bytes) : list bytes := filter (fun w => negb (same w (b "const") || same w (b "&"))) t.
  Definition type_of (s : list fobj) (r : fres) : option (list bytes) :=
    match is_class s r with
    | Some _ => Some cls
    | None => match fvalue s r with
              | Some (FP _) => Some [b "T"]
              | Some (FB _) => Some [b "bool"]
              | Some (FS _) => Some [b "value_type"]
              | Some (FC _) => Some [b "char"; b "*"]
              | Some (FV (VList _)) => Some [b "T"]
              | Some (FV (VB64 _)) => Some (words_of "std::vector<uint8_t>")
              | _ => None
              end
    end.
  Definition takes (s : list fobj) (ps : list (list bytes * bytes)) (args : list fres) : bool :=
    Nat.eqb (length ps) (length args) &&
    forallb (fun x => match type_of s (snd x) with Some t => words_eqb (core (fst (fst x))) t | None => false end) (combine ps args).
  (** Objects are passed by reference; a value gets an object of its own, which ends with the call. *)
  Fixpoint bind (ps : list (list bytes * bytes)) (args : list fres) (s : list fobj) : option (list (bytes * nat) * list fobj) :=
    match ps, args with
    | [], [] => Some ([], s)
    | (_, x) :: ps', r :: args' =>
        match r with
        | GP (n, None) => match bind ps' args' s with Some (l, s1) => Some ((x, n) :: l, s1) | None => None end
        | GV v => match bind ps' args' (s ++ [OVal v]) with Some (l, s1) => Some ((x, length s) :: l, s1) | None => None end
        | _ => None
        end
    | _, _ => None
    end.
  (** A member is returned by value: the operators that return a reference to one are not called here. *)
  Definition returned (s : list fobj) (r : fres) : fres :=
    match r with GP (n, Some m) => match fload s (n, Some m) with Some v => GV v | None => r end | _ => r end.
  Definition f_run (fs : list ofun) (this : option nat) (f : bytes) (args : list fres) (s : list fobj) : option (fres * list fobj) :=
    match filter (fun x => same (o_op x) f && takes s (o_params x) args) fs with
    | [x] =>
        match bind (o_params x) args s with
        | Some (vars, s1) => match f_body this vars (o_body x) s1 with Some (r, s2) => Some (returned s2 r, firstn (length s) s2) | None => None end
        | None => None
        end
    | _ => None
    end.
End Exec.

(** Calls, with at most [n] open; the result as value. *)
Fixpoint f_call (F : list ofun) (K : fclass) (zero : pval) (n : nat) (x : option nat) (f : bytes) (args : list fres) (s : list fobj) : option (fres * list fobj) :=
  match n with
  | O => None
  | S n' => f_run (f_name K) zero (f_call F K zero n') (match x with Some _ => f_funs K | None => F end) x f args s
  end.
Definition f_static (F : list ofun) (K : fclass) (J : list ofun) (zero : pval) (f : bytes) (args : list fres) (s : list fobj) : option (fres * list fobj) :=
  f_run (f_name K) zero (f_call F K zero 3) J None f args s.

(** An object of the class with the initializers of its members. *)
Definition f_new (K : fclass) (zero : pval) : option fobj :=
  option_map OCls (all_some (map (fun m => let '(t, x, e) := m in
    match e with
    | Some e => match feval zero (fun _ _ _ _ => None) None [] e [] with Some (GV v, _) => Some (x, v) | _ => None end
    | None => if words_eqb t (words_of "std::string") then Some (x, FS []) else None
    end) (f_members K))).

Definition the_fields : ftext := Eval vm_compute in ftext_of json_number_hh json_string_hh json_base64_hh json_array_hh.
