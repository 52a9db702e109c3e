(** The functions for numbers and names - string_to_number, number_to_string, equal_number (json-number.hh:32-112), rol, reveal
    (protogen.hh:607-625) - from the text of the headers, and their execution.  [None]: undefined, ill-formed or not in this part of C++. *)
From Verif Require Import Bytes Num Dbl Close Types Cpp CLex CParse CExec Unit HdrText HText HParse HExec HTok.

(** ** The texts *)

(** A template for one type: its argument T by other tokens (14.8). *)
Fixpoint put_type (w : list tree) (t : tree) : list tree :=
  match t with
  | Lf (KId x) => if same x (b "T") then w else [t]
  | Lf _ => [t]
  | Gr k l => [Gr k (flat_map (put_type w) l)]
  end.
Definition type_trees (s : string) : list tree := match line_tokens (b s) with Some ks => map Lf ks | None => [] end.

(** "std :: numeric_limits < … > :: f" as one name. *)
Definition limits_words (s : string) (t : string) : list bytes := words_of ("std::numeric_limits<" ++ t ++ ">::" ++ s)%string.
Fixpoint join_limits (t : string) (l : list tree) : list tree :=
  match l with
  | [] => []
  | x :: r =>
      let f n := match prefix_words (limits_words n t) l with Some _ => true | None => false end in
      if f "lowest"%string then Lf (KId (b "numeric_limits::lowest")) :: skipn 7 (join_limits t r)
      else if f "max"%string then Lf (KId (b "numeric_limits::max")) :: skipn 7 (join_limits t r)
      else x :: join_limits t r
  end.
Fixpoint join_tree (s : string) (t : tree) : tree :=
  match t with Lf _ => t | Gr k l => Gr k (join_limits s (map (join_tree s) l)) end.

(** static_assert (7/4) does nothing when it holds, which it does for the types used here. *)
Fixpoint no_asserts (l : list tree) : list tree :=
  match l with
  | k :: Gr Paren _ :: q :: r => if is_kw "static_assert" k && is_op ";" q then no_asserts r else l
  | _ => l
  end.

(** The conditions of "typename std::enable_if< … , int>::type = 0" (20.9.4): conjunctions of properties of T. *)
Definition cpp_name (p : prim) : string :=
  match p with
  | PInt true 32 => "int32_t" | PInt true _ => "int64_t" | PInt false 8 => "uint8_t" | PInt false 32 => "uint32_t" | PInt false _ => "uint64_t"
  | PDouble => "double" | PFloat => "float" | PBool => "bool"
  end.
Definition is_a (p : prim) (w : bytes) : option bool :=
  let floating := match p with PDouble | PFloat => true | _ => false end in
  if same w (b "is_floating_point") then Some floating
  else if same w (b "is_integral") then Some (negb floating)
  else if same w (b "is_signed") then Some (match p with PInt sg _ => sg | PBool => false | _ => true end) else None.
Fixpoint condition (n : nat) (p : prim) (ws : list bytes) : option bool :=
  let atom ws := match ws with
                 | s :: c :: w :: l :: t :: g :: d :: v :: r =>
                     if words_eqb [s; c; l; t; g; d; v] (words_of "std::<T>::value")
                     then match is_a p w with Some x => Some (x, r) | None => None end else None
                 | _ => None
                 end in
  match n with
  | O => None
  | S n' =>
      match (match ws with
             | w :: r => if same w (b "!") then option_map (fun x => (negb (fst x), snd x)) (atom r) else atom ws
             | [] => None
             end) with
      | Some (x, []) => Some x
      | Some (x, w :: r) => if same w (b "&&") then option_map (andb x) (condition n' p r) else None
      | None => None
      end
  end.
Definition enabled (p : prim) (ws : list bytes) : option bool :=
  if words_eqb ws (words_of "<typename T>") then Some true
  else let pre := words_of "<typename T, typename std::enable_if<" in
       let post := words_of ", int>::type = 0>" in
       if words_eqb (firstn (length pre) ws) pre && words_eqb (skipn (length ws - length post) ws) post
       then condition 4 p (firstn (length ws - length pre - length post) (skipn (length pre) ws)) else None.

(** The functions of a namespace for T; those whose condition does not hold are left out. *)
Fixpoint drop_words (ws : list string) (l : list tree) : list tree :=
  match l with Lf k :: r => if one_of ws (spelling k) then drop_words ws r else l | _ => l end.
Definition nfunction (p : prim) (i : item) : list hfun :=
  match it_body i with
  | None => []
  | Some body =>
      let '(on, head) := match it_head i with
                         | k :: r => if is_kw "template" k then
                                       match angle 0 [] r with Some (ws, r') => (enabled p ws, r') | None => (None, []) end
                                     else (Some true, it_head i)
                         | [] => (None, [])
                         end in
      let put := flat_map (put_type (type_trees (cpp_name p))) in
      match on, rev (drop_words ["static"; "inline"; "constexpr"]%string head) with
      | Some true, Gr Paren ps :: Lf (KId f) :: r =>
          match spellings (put (rev r)), h_params (put ps), hbody_of (no_asserts (join_limits (cpp_name p) (map (join_tree (cpp_name p)) (put body)))) with
          | Some t, Some ps', Some ss => [HFun t f ps' ss]
          | _, _, _ => []
          end
      | _, _ => []
      end
  end.
Definition nfunctions (p : prim) (l : list tree) : list hfun := flat_map (nfunction p) (items [] l).

(** The functions of json-number.hh for T, and rol for uint8_t and reveal. *)
Definition number_funs (p : prim) (num : bytes) : list hfun := nfunctions p (inner_block (header num) [ns]).
Definition name_funs (proto : bytes) : list hfun :=
  filter (fun f => same (hf_name f) (b "rol") || same (hf_name f) (b "reveal")) (nfunctions (PInt false 8) (inner_block (header proto) [ns])).

(** ** Values *)

(** [LOwn]: the locale the thread has; [LC]: what newlocale gives for "C"; [LNull]: none. *)
Inductive locale := LOwn | LC | LNull.
(** [ND single d]: a float or a double; [NP s]: a pointer to these characters and a NUL; [NA l]: an array of char; [NNone]: a double without
    a value. *)
Inductive nval :=
  | NVoid | NB (x : bool) | NI (t : ity) (z : Z) | ND (single : bool) (d : dbl) | NS (s : bytes) | NP (s : bytes) | NA (l : bytes)
  | NL (l : locale) | NNull | NNone.
Record nst := NSt { n_vars : list (bytes * nval); n_loc : locale }.

Definition w_std_string : list bytes := Eval vm_compute in words_of "std::string".
Definition nint_type (t : list bytes) : option ity :=
  match t with
  | [w] => if same w (b "int64_t") then Some ILong else if same w (b "uint64_t") then Some ISize else int_type t
  | _ => None
  end.
Definition no_ref (t : list bytes) : list bytes := filter (fun w => negb (same w (b "const") || same w (b "&") || same w (b "static"))) t.
(** The value for a variable, a parameter or a result of type [t], references to const as copies; static_cast. *)
Definition ntyped (t : list bytes) (v : nval) : option nval :=
  let t := no_ref t in
  match nint_type t with
  | Some i => match v with
              | NI j z => option_map (NI i) (conv j i z)
              | NB x => Some (NI i (if x then 1 else 0))
              | _ => None
              end
  | None =>
      if words_eqb t [b "double"] then match v with ND _ d => Some (ND false d) | NI IInt 0 => Some (ND false (DZero false)) | _ => None end
      else if words_eqb t [b "float"] then
        match v with ND true d => Some (ND true d) | ND false d => Some (ND true (to_float d)) | NI IInt 0 => Some (ND true (DZero false)) | _ => None end
      else if words_eqb t w_std_string then
        match v with NS s => Some (NS s) | NP s | NA s => Some (NS (cstr s)) | _ => None end
      else if words_eqb t [b "locale_t"] then match v with NL l => Some (NL l) | _ => None end
      else None
  end.

Definition size_of (t : ity) : option Z :=
  match t with IChar | IU8 => Some 1 | IInt | IUInt => Some 4 | ILong | ISize => Some 8 | _ => None end.
Definition times (t u : ity) (x y : Z) : option nval :=
  match common t u with
  | Some c => match conv t c x, conv u c y with Some x', Some y' => option_map (NI c) (fit c (x' * y')) | _, _ => None end
  | None => None
  end.
Definition noperation (op : bytes) (x y : nval) : option nval :=
  match x, y with
  | NI t u, NI t' v =>
      if same op (b "*") then times t t' u v
      else match arith op t t' u v with Some (HI c z) => Some (NI c z) | Some (HB z) => Some (NB z) | _ => None end
  | ND k u, ND k' v =>
      if same op (b "<=") then Some (NB (dbl_leb u v)) else if same op (b ">=") then Some (NB (dbl_leb v u)) else None
  | NL l, NI IInt 0 => if same op (b "==") then Some (NB (match l with LNull => true | _ => false end)) else None
  | _, _ => None
  end.

(** snprintf(buffer, n, …) with [text] as output: at most n - 1 characters and a NUL. *)
Definition nprint (l : bytes) (n : Z) (text : bytes) : option bytes :=
  if (0 <? n) && (n <=? Z.of_nat (length l)) then
    let out := firstn (Z.to_nat (n - 1)) text ++ [chr 0] in Some (out ++ skipn (length out) l)
  else None.

(** ** Execution *)
Section Exec.
  (** [has_c], [may_use]: newlocale and uselocale succeed; [call]: functions of the namespace. *)
  Context (loops : nat) (single has_c may_use : bool) (call : list bytes -> list nval -> option nval).

  Definition library (f : bytes) (args : list nval) (s : nst) : option (nval * nst) :=
    let pure v := Some (v, s) in
    match args with
    | [NL l] => if same f (b "uselocale") then
                  match l with
                  | LNull => None
                  | _ => if may_use then Some (NL (n_loc s), NSt (n_vars s) l) else pure (NL LNull)
                  end
                else None
    | [NP t; NNull; NI IInt 10] => if same f (b "strtol") then pure (NI ILong (strtol t))
                                   else if same f (b "strtoul") then pure (NI ISize (strtoul t)) else None
    | [NP t; NNull; NL LC] => if same f (b "strtod_l") then pure (ND false (strtod t)) else None
    | [NP t; NNull] => if same f (b "strtod") then match n_loc s with LC => pure (ND false (strtod t)) | _ => None end else None
    | _ => None
    end.
  Definition format : fmt := if single then binary32 else binary64.
  Definition std_call (f : bytes) (args : list nval) : option nval :=
    match args with
    | [NI _ z] => if same f (b "to_string") then Some (NS (dec z)) else None
    | [ND k x; ND k' y] => if same f (b "nextafter") && Bool.eqb k single && Bool.eqb k' single then Some (ND single (nextafter format x y)) else None
    | _ => None
    end.

  Fixpoint neval (e : hexpr) (s : nst) {struct e} : option (nval * nst) :=
    let nevals := fix go (l : list hexpr) (s : nst) : option (list nval * nst) :=
      match l with
      | [] => Some ([], s)
      | e :: r => match neval e s with
                  | Some (x, s1) => match go r s1 with Some (xs, s2) => Some (x :: xs, s2) | None => None end
                  | None => None
                  end
      end in
    match e with
    | EName [x] => match assoc (n_vars s) x with Some NNone | None => None | Some v => Some (v, s) end
    | ENull => Some (NNull, s)
    | ENum u z => match num_val u z with Some (HI t z') => Some (NI t z', s) | _ => None end
    | EStr t => option_map (fun x => (NP x, s)) (lit_go LText t)
    | EIndex e i =>
        match neval e s with
        | Some (NS v, s1) =>
            match neval i s1 with
            | Some (NI _ z, s2) => match element (HS v) z with Some (HI t c) => Some (NI t c, s2) | _ => None end
            | _ => None
            end
        | _ => None
        end
    | ECall (EDot (EName [x]) m) args =>
        match assoc (n_vars s) x, nevals args s with
        | Some (NS v), Some ([], s1) =>
            if same m (b "length") then Some (NI ISize (Z.of_nat (length v)), s1)
            else if same m (b "c_str") then Some (NP v, s1) else None
        | Some (NS v), Some ([NI ISize _], s1) => if same m (b "reserve") then Some (NVoid, s1) else None
        | _, _ => None
        end
    | ECall (EName [f]) [EName [x]; n; EStr t; v] =>                (* snprintf(x, n, "%f", v) *)
        if same f (b "snprintf") && same t (b "%f") then
          match assoc (n_vars s) x, neval n s with
          | Some (NA l), Some (NI ISize z, s1) =>
              match neval v s1, n_loc s1 with
              | Some (ND _ d, s2), LC =>
                  option_map (fun l' => (NI IInt (Z.of_nat (length (fmt_f d))), NSt (update (n_vars s2) x (NA l')) (n_loc s2))) (nprint l z (fmt_f d))
              | _, _ => None
              end
          | _, _ => None
          end
        else None
    | ECall (EName [f]) [EName [m]; EStr t; ENum false 0] =>        (* newlocale(LC_NUMERIC_MASK, "C", 0) *)
        if same f (b "newlocale") && same m (b "LC_NUMERIC_MASK") && same t (b "C") then Some (NL (if has_c then LC else LNull), s) else None
    | ECall (EName ws) args =>
        match nevals args s with
        | Some (vs, s1) =>
            match ws, vs with
            | [f], [] => if same f (b "numeric_limits::lowest") then Some (ND single (dopp (dbl_max format)), s1)
                         else if same f (b "numeric_limits::max") then Some (ND single (dbl_max format), s1) else None
            | [f], _ => library f vs s1
            | [n; c; f], _ => if same n (b "std") && same c (b "::") then option_map (fun v => (v, s1)) (std_call f vs) else None
            | _, _ => option_map (fun v => (v, s1)) (call ws vs)
            end
        | None => None
        end
    | EPre op e =>
        if same op (b "-") then
          match neval e s with Some (NI IInt z, s1) => option_map (fun z' => (NI IInt z', s1)) (fit IInt (- z)) | _ => None end
        else if same op (b "++") then
          match e with
          | EName [x] => match assoc (n_vars s) x with
                         | Some (NI ISize z) => option_map (fun z' => (NI ISize z', NSt (update (n_vars s) x (NI ISize z')) (n_loc s))) (fit ISize (z + 1))
                         | _ => None
                         end
          | _ => None
          end
        else None
    | ECast t e => match neval e s with Some (v, s1) => option_map (fun w => (w, s1)) (ntyped t v) | None => None end
    | ESizeof [x] =>
        match assoc (n_vars s) x with
        | Some (NA l) => Some (NI ISize (Z.of_nat (length l)), s)
        | Some _ => None
        | None => match nint_type [x] with Some t => option_map (fun z => (NI ISize z, s)) (size_of t) | None => None end
        end
    | EBin op x y =>
        match neval x s with
        | Some (u, s1) =>
            if same op (b "&&") then
              match u with
              | NB false => Some (NB false, s1)
              | NB true => match neval y s1 with Some (NB z, s2) => Some (NB z, s2) | _ => None end
              | _ => None
              end
            else match neval y s1 with Some (v, s2) => option_map (fun r => (r, s2)) (noperation op u v) | None => None end
        | None => None
        end
    | ESet op (EIndex (EName [x]) i) y =>
        if same op (b "=") then
          match neval y s with
          | Some (NI t z, s1) =>
              match neval i s1 with
              | Some (NI _ k, s2) =>
                  match assoc (n_vars s2) x, conv t IChar z with
                  | Some (NA l), Some c =>
                      if inside k (length l) then Some (NI IChar c, NSt (update (n_vars s2) x (NA (set_nth (Z.to_nat k) (chr c) l))) (n_loc s2)) else None
                  | _, _ => None
                  end
              | _ => None
              end
          | _ => None
          end
        else None
    | ESet op (EName [x]) y =>
        match neval y s with
        | Some (v, s1) =>
            match assoc (n_vars s1) x, v with
            | Some NNone, ND false d => if same op (b "=") then Some (v, NSt (update (n_vars s1) x v) (n_loc s1)) else None
            | Some (NS t), NI IChar c =>
                if same op (b "+=") then Some (NS (t ++ [byte_of c]), NSt (update (n_vars s1) x (NS (t ++ [byte_of c]))) (n_loc s1)) else None
            | _, _ => None
            end
        | None => None
        end
    | _ => None
    end.

  (** A static variable is initialized by the first call; here by each, which gives the same locale. *)
  Definition ndeclare (t : list bytes) (x : bytes) (dim init : option hexpr) (s : nst) : option nst :=
    let add s v := Some (NSt ((x, v) :: n_vars s) (n_loc s)) in
    match dim, init with
    | Some (ENum false n), Some (EList [ENum false 0]) => if words_eqb t [b "char"] then add s (NA (repeat (chr 0) (Z.to_nat n))) else None
    | Some _, _ => None
    | None, None => if words_eqb t [b "double"] then add s NNone else if words_eqb t w_std_string then add s (NS []) else None
    | None, Some e => match neval e s with
                      | Some (v, s1) => match ntyped t v with Some w => add s1 w | None => None end
                      | None => None
                      end
    end.

  Fixpoint nloop (k : nat) (c : nst -> option (nval * nst)) (step : nst -> option (nval * nst)) (body : nst -> option (option nval * nst)) (s : nst) : option (option nval * nst) :=
    match k with
    | O => None
    | S k' =>
        match c s with
        | Some (NB true, s1) =>
            match body s1 with
            | Some (None, s2) => match step s2 with Some (_, s3) => nloop k' c step body s3 | None => None end
            | x => x
            end
        | Some (NB false, s1) => Some (None, s1)
        | _ => None
        end
    end.
  (** [Some (Some v)]: returned *)
  Definition nstep (st : hstmt) (s : nst) : option (option nval * nst) :=
    match st with
    | TVar t x dim init => option_map (fun s1 => (None, s1)) (ndeclare t x dim init s)
    | TExpr [e] => match neval e s with Some (_, s1) => Some (None, s1) | None => None end
    | TReturn (Some e) => match neval e s with Some (v, s1) => Some (Some v, s1) | None => None end
    | TIf c (TReturn (Some e)) None =>
        match neval c s with
        | Some (NB true, s1) => match neval e s1 with Some (v, s2) => Some (Some v, s2) | None => None end
        | Some (NB false, s1) => Some (None, s1)
        | _ => None
        end
    | TFor (TVar t x None (Some e)) c [p] (TExpr [a]) =>
        match ndeclare t x None (Some e) s with
        | Some s1 => match nloop loops (neval c) (neval p) (fun s => match neval a s with Some (_, s') => Some (None, s') | None => None end) s1 with
                     | Some (r, s2) => Some (r, NSt (skipn (length (n_vars s2) - length (n_vars s)) (n_vars s2)) (n_loc s2))
                     | None => None
                     end
        | None => None
        end
    | _ => None
    end.
  Fixpoint nbody (l : list hstmt) (s : nst) : option (nval * nst) :=
    match l with
    | [] => None
    | st :: r => match nstep st s with Some (None, s1) => nbody r s1 | Some (Some v, s1) => Some (v, s1) | None => None end
    end.
End Exec.

Fixpoint nbind (ps : list (list bytes * bytes)) (args : list nval) : option (list (bytes * nval)) :=
  match ps, args with
  | [], [] => Some []
  | (t, x) :: ps', v :: args' => match ntyped t v, nbind ps' args' with Some w, Some r => Some ((x, w) :: r) | _, _ => None end
  | _, _ => None
  end.
(** A call by name; "f<uint8_t>" is the instance [name_funs] has.  The result, and the locale of the thread afterwards. *)
Fixpoint ncall (fs : list hfun) (n loops : nat) (single has_c may_use : bool) (l : locale) (f : bytes) (args : list nval) : option (nval * locale) :=
  match n with
  | O => None
  | S n' =>
      match hfind fs f with
      | Some h =>
          match nbind (hf_params h) args with
          | Some vs =>
              let call ws xs := match ws with
                                | [g; o; t; c] => if words_eqb [o; t; c] (words_of "<uint8_t>") then option_map fst (ncall fs n' loops single has_c may_use l g xs) else None
                                | _ => None
                                end in
              match nbody loops single has_c may_use call (hf_body h) (NSt vs l) with
              | Some (v, s) => option_map (fun w => (w, n_loc s)) (ntyped (hf_ret h) v)
              | None => None
              end
          | None => None
          end
      | None => None
      end
  end.

Definition the_numbers (p : prim) : list hfun := number_funs p json_number_hh.
Definition the_double : list hfun := Eval vm_compute in the_numbers PDouble.
Definition the_float : list hfun := Eval vm_compute in the_numbers PFloat.
Definition the_i32 : list hfun := Eval vm_compute in the_numbers (PInt true 32).
Definition the_i64 : list hfun := Eval vm_compute in the_numbers (PInt true 64).
Definition the_u8 : list hfun := Eval vm_compute in the_numbers (PInt false 8).
Definition the_u32 : list hfun := Eval vm_compute in the_numbers (PInt false 32).
Definition the_u64 : list hfun := Eval vm_compute in the_numbers (PInt false 64).
Definition the_names : list hfun := Eval vm_compute in name_funs protogen_hh.
