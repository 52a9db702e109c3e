(** The execution of the functions that CgRead.v reads (C++11 5, 6; the library by hand).  The outcome is that of Gen.v; [GUndef]:
    undefined, ill-formed or not in this part of C++, [GFuel]: the iterations did not suffice. *)
From Verif Require Import Bytes Num Types Read ProtoLex ProtoParse Template Cpp CLex CParse CExec Unit HText HParse HExec HNum LexRead Gen CgRead.

(** [GS]: a std::string, [GP]: a const char * that points to a C string or is null, [GC]: a char, [GB], [GI]: bool, int and enumerations,
    [GF]: a Field, [GT]: its member type, [GR]: its member ref, [GM]: a Message, [GO]: an OptionMap, [GE]: an OptionEntry, [GIt]: an
    iterator of a std::string, what is left of it, [GTab], [GRow]: TYPE_MAPPING and a structure of it, [GX]: an exception. *)
Inductive gval := GS (s : bytes) | GP (s : option bytes) | GC (c : ascii) | GB (x : bool) | GI (z : Z)
  | GF (f : field) | GT (f : field) | GR (k : option nat) | GM (m : message) | GO (o : omap) | GE (e : oentry) | GIt (s : bytes)
  | GTab | GRow (s : option bytes) | GX (msg : bytes) (line col : Z).
Definition genv := list (bytes * gval).

(** FieldType and OptionType (include/protogen/proto3.hh:29-47, 60-66). *)
Definition type_num (t : ftype) : Z :=
  match t with
  | FDouble => 6 | FFloat => 7 | FInt32 => 8 | FInt64 => 9 | FUint32 => 10 | FUint64 => 11 | FSint32 => 12 | FSint64 => 13
  | FFixed32 => 14 | FFixed64 => 15 | FSfixed32 => 16 | FSfixed64 => 17 | FBool => 18 | FString => 19 | FBytes => 20 | FMessage => 21
  end.
Definition otype_num (t : otype) : Z := match t with OIdentifier => 0 | OString => 1 | OInteger => 2 | OBoolean => 3 end.
Definition genums : list (list bytes * Z) :=
  Eval vm_compute in map (fun p => (words_of (fst p), snd p))
    [("protogen::TYPE_DOUBLE", 6); ("protogen::TYPE_STRING", 19); ("protogen::TYPE_BYTES", 20); ("protogen::TYPE_MESSAGE", 21);
     ("OptionType::STRING", otype_num OString); ("OptionType::BOOLEAN", otype_num OBoolean)]%string.
Fixpoint find_enum (l : list (list bytes * Z)) (ws : list bytes) : option Z :=
  match l with [] => None | (w, z) :: r => if words_eqb ws w then Some z else find_enum r ws end.

Definition gbind1 {A B} (m : gout A) (k : A -> gout B) : gout B :=
  match m with GOk a => k a | GThrow e l c => GThrow e l c | GUndef => GUndef | GFuel => GFuel end.
Notation "'grab' x := m 'in' k" := (gbind1 m (fun x => k)) (at level 200, x pattern, m at level 100, k at level 200).
Definition sure {A} (x : option A) : gout A := match x with Some a => GOk a | None => GUndef end.

(** The text of a std::string or a C string. *)
Definition text (v : gval) : option bytes := match v with GS s => Some s | GP (Some s) => Some s | _ => None end.
Definition gint (v : gval) : option Z := match v with GI z => Some z | GC c => Some (schar c) | _ => None end.
Definition is_string (v : gval) : bool := match v with GS _ => true | _ => false end.
(** Operators.  The int of a subtraction is checked. *)
Definition goperation (op : bytes) (x y : gval) : option gval :=
  if same op (b "+") then
    match text x, text y with Some s, Some t => if is_string x || is_string y then Some (GS (s ++ t)) else None | _, _ => None end
  else if same op (b "==") then
    match x, y with
    | GR k, GP None => Some (GB (match k with None => true | Some _ => false end))
    | GC c, GC d => Some (GB (Ascii.eqb c d))
    | _, _ => match gint x, gint y with
              | Some u, Some v => Some (GB (u =? v))
              | _, _ => match text x, text y with
                        | Some s, Some t => if is_string x || is_string y then Some (GB (bytes_eqb s t)) else None
                        | _, _ => None
                        end
              end
    end
  else if same op (b "!=") then
    match x, y with
    | GIt s, GIt t => Some (GB (negb (Nat.eqb (length s) (length t))))
    | _, _ => match gint x, gint y with Some u, Some v => Some (GB (negb (u =? v))) | _, _ => None end
    end
  else match gint x, gint y with
       | Some u, Some v =>
           if same op (b ">=") then Some (GB (v <=? u))
           else if same op (b "<=") then Some (GB (u <=? v))
           else if same op (b "-") then if (- 2 ^ 31 <=? u - v) && (u - v <? 2 ^ 31) then Some (GI (u - v)) else None
           else None
       | _, _ => None
       end.
(** Conversion to the type of a parameter, a variable or what a function returns. *)
Definition w_field : list bytes := Eval vm_compute in words_of "const Field &".
Definition w_options : list bytes := Eval vm_compute in words_of "const protogen::OptionMap &".
Definition w_const_string : list bytes := Eval vm_compute in words_of "const std::string &".
Definition gtyped (t : list bytes) (v : gval) : option gval :=
  if words_eqb t w_std_string || words_eqb t w_const_string then option_map GS (text v)
  else if words_eqb t [b "bool"] then match v with GB _ => Some v | _ => None end
  else if words_eqb t [b "int"] then match v with GI _ => Some v | _ => None end
  else if words_eqb t w_field then match v with GF _ => Some v | _ => None end
  else if words_eqb t w_options then match v with GO _ => Some v | _ => None end
  else if words_eqb t [b "auto"] then Some v
  else None.
Fixpoint gbinds (ps : list (list bytes * bytes)) (vs : list gval) : option genv :=
  match ps, vs with
  | [], [] => Some []
  | (t, x) :: ps', v :: vs' => match gtyped t v, gbinds ps' vs' with Some w, Some r => Some ((x, w) :: r) | _, _ => None end
  | _, _ => None
  end.

(** Members (proto3.hh:51-58, 68-74, 78-84) and functions of objects. *)
Definition gmember (v : gval) (m : bytes) : option gval :=
  match v with
  | GF f => if same m (b "type") then Some (GT f) else if same m (b "name") then Some (GS (f_name f))
            else if same m (b "options") then Some (GO (f_options f)) else None
  | GT f => if same m (b "id") then Some (GI (type_num (f_type f))) else if same m (b "ref") then Some (GR (f_ref f))
            else if same m (b "repeated") then Some (GB (f_repeated f)) else None
  | GE e => if same m (b "type") then Some (GI (otype_num (o_type e))) else if same m (b "value") then Some (GS (o_value e))
            else if same m (b "line") then Some (GI (o_line e)) else None
  | GRow s => if same m (b "nativeType") then Some (GP s) else None
  | _ => None
  end.
Definition gmethod (v : gval) (m : bytes) (args : list gval) : option gval :=
  match v, args with
  | GS s, [] => if same m (b "empty") then Some (GB (match s with [] => true | _ => false end))
                else if same m (b "begin") then Some (GIt s) else if same m (b "end") then Some (GIt []) else None
  | GO o, [GS n] => if same m (b "count") then Some (GI (match o_find n o with Some _ => 1 | None => 0 end))
                    else if same m (b "at") then option_map GE (o_find n o) else None
  | _, _ => None
  end.

Definition w_exception : list bytes := Eval vm_compute in words_of "protogen::exception".
Section Exec.
  Context (cfg : build) (msgs : list message) (maps : list (option bytes)) (loops : nat) (call : bytes -> list gval -> gout gval).

  (** PROTOGEN_VERSION_NAMING (cmake.hh.in:8); PROTOGEN_O_NAME, PROTOGEN_O_TRANSIENT (protogen.hh:36-44). *)
  Definition gname (ws : list bytes) (s : genv) : option gval :=
    match ws with
    | [x] => match assoc s x with
             | Some v => Some v
             | None => if same x (b "TYPE_MAPPING") then Some GTab
                       else if same x (b "PROTOGEN_VERSION_NAMING") then Some (GP (Some (b_naming cfg)))
                       else if same x (b "PROTOGEN_O_NAME") then Some (GP (Some (b "name")))
                       else if same x (b "PROTOGEN_O_TRANSIENT") then Some (GP (Some (b "transient"))) else None
             end
    | _ => option_map GI (find_enum genums ws)
    end.
  (** exception(message), exception(message, line, column): exception.cc:23-30; without them line and column are 0 (exception.hh:30-31). *)
  Definition gcall (ws : list bytes) (vs : list gval) : gout gval :=
    if words_eqb ws w_std_string then match vs with [v] => sure (option_map GS (text v)) | _ => GUndef end
    else if words_eqb ws [b "exception"] || words_eqb ws w_exception then
      match vs with
      | [v] => sure (option_map (fun t => GX t 0 0) (text v))
      | [v; GI l; GI c] => sure (option_map (fun t => GX t l c) (text v))
      | _ => GUndef
      end
    else match ws with [f] => call f vs | _ => GUndef end.

  (** Expressions without side effects. *)
  Fixpoint geval (e : hexpr) (s : genv) : gout gval :=
    match e with
    | EName ws => sure (gname ws s)
    | EBool x => GOk (GB x)
    | ENull => GOk (GP None)
    | ENum false z => if z <? 2 ^ 31 then GOk (GI z) else GUndef
    | EStr t => grab x := sure (lit_go LText t) in GOk (GP (Some x))
    | EChr t => grab z := sure (chr_val t) in GOk (GC (chr z))
    | EDot x m => grab v := geval x s in sure (gmember v m)
    | EArrow x m =>
        grab v := geval x s in
        match v with
        | GR (Some k) => match nth_error msgs k with
                         | Some n => if same m (b "package") then GOk (GS (m_package n)) else if same m (b "name") then GOk (GS (m_name n)) else GUndef
                         | None => GUndef
                         end
        | _ => GUndef
        end
    | EIndex x i =>
        grab v := geval x s in grab k := geval i s in
        match v, k with
        | GTab, GI z => if z <? 0 then GUndef else grab r := sure (nth_error maps (Z.to_nat z)) in GOk (GRow r)
        | _, _ => GUndef
        end
    | ECast t x => if words_eqb t [b "int"] then grab v := geval x s in grab z := sure (gint v) in GOk (GI z) else GUndef
    | EPre op x =>
        grab v := geval x s in
        if same op (b "!") then match v with GB y => GOk (GB (negb y)) | _ => GUndef end
        else if same op (b "*") then match v with GIt (c :: _) => GOk (GC c) | _ => GUndef end
        else GUndef
    | EBin op x y =>
        grab v := geval x s in
        if same op (b "&&") then
          match v with GB true => grab w := geval y s in match w with GB z => GOk (GB z) | _ => GUndef end | GB false => GOk (GB false) | _ => GUndef end
        else if same op (b "||") then
          match v with GB false => grab w := geval y s in match w with GB z => GOk (GB z) | _ => GUndef end | GB true => GOk (GB true) | _ => GUndef end
        else grab w := geval y s in sure (goperation op v w)
    | ECall f args =>
        grab vs := (fix each (l : list hexpr) : gout (list gval) :=
                      match l with [] => GOk [] | a :: r => grab v := geval a s in grab vs := each r in GOk (v :: vs) end) args in
        match f with
        | EDot x m => grab v := geval x s in sure (gmethod v m vs)
        | EName ws => gcall ws vs
        | _ => GUndef
        end
    | _ => GUndef
    end.

  (** x = e, x += e for strings; ++it; x.reserve(n), which changes nothing here. *)
  Definition gset (e : hexpr) (s : genv) : gout genv :=
    match e with
    | ESet op (EName [x]) y =>
        grab v := geval y s in
        match assoc s x with
        | Some (GS t) =>
            if same op (b "=") then grab w := sure (text v) in GOk (update s x (GS w))
            else if same op (b "+=") then
              match v with
              | GC c => GOk (update s x (GS (t ++ [c])))
              | _ => grab w := sure (text v) in GOk (update s x (GS (t ++ w)))
              end
            else GUndef
        | _ => GUndef
        end
    | EPre op (EName [x]) =>
        match assoc s x with
        | Some (GIt (_ :: r)) => if same op (b "++") then GOk (update s x (GIt r)) else GUndef
        | _ => GUndef
        end
    | ECall (EDot (EName [x]) m) [ECall (EDot (EName [y]) n) []] =>
        match assoc s x, assoc s y with
        | Some (GS _), Some (GS _) => if same m (b "reserve") && same n (b "length") then GOk s else GUndef
        | _, _ => GUndef
        end
    | _ => GUndef
    end.

  Definition leave (s0 s : genv) : genv := skipn (length s - length s0) s.
  Definition gresult := gout (option gval * genv).
  (** for (auto c : text) *)
  Fixpoint geach_char (body : genv -> gresult) (x : bytes) (l : bytes) (s : genv) : gresult :=
    match l with
    | [] => GOk (None, s)
    | c :: r => grab o := body ((x, GC c) :: s) in
                match o with
                | (None, s1) => geach_char body x r (leave s s1)
                | (Some v, s1) => GOk (Some v, s1)
                end
    end.
  Fixpoint gloop (k : nat) (c step : hexpr) (body : genv -> gresult) (s : genv) : gresult :=
    match k with
    | O => GFuel
    | S k' =>
        grab v := geval c s in
        match v with
        | GB true => grab o := body s in
                     match o with
                     | (None, s1) => grab s2 := gset step s1 in gloop k' c step body s2
                     | (Some w, s1) => GOk (Some w, s1)
                     end
        | GB false => GOk (None, s)
        | _ => GUndef
        end
    end.
  Fixpoint gexec (st : hstmt) (s : genv) : gresult :=
    match st with
    | TExpr [ECall (EName [t]) [e]] =>
        if same t (b "throw") then grab v := geval e s in match v with GX m l c => GThrow m l c | _ => GUndef end else GUndef
    | TExpr [e] => grab s1 := gset e s in GOk (None, s1)
    | TVar t x None None => if words_eqb t w_std_string then GOk (None, (x, GS []) :: s) else GUndef
    | TVar t x None (Some e) => grab v := geval e s in grab w := sure (gtyped t v) in GOk (None, (x, w) :: s)
    | TReturn (Some e) => grab v := geval e s in GOk (Some v, s)
    | TIf c th el =>
        grab v := geval c s in
        match v with
        | GB true => gexec th s
        | GB false => match el with Some e => gexec e s | None => GOk (None, s) end
        | _ => GUndef
        end
    | TBlock l =>
        grab o := (fix each (l : list hstmt) (s : genv) : gresult :=
                     match l with
                     | [] => GOk (None, s)
                     | x :: r => grab o := gexec x s in match o with (None, s1) => each r s1 | (Some v, s1) => GOk (Some v, s1) end
                     end) l s in
        GOk (fst o, leave s (snd o))
    | TEach t x e body =>
        if words_eqb t [b "auto"] then
          grab v := geval e s in match v with GS l => geach_char (gexec body) x l s | _ => GUndef end
        else GUndef
    | TFor (TVar t x None (Some e)) c [p] body =>
        if words_eqb t [b "auto"] then
          grab v := geval e s in
          grab o := gloop loops c p (gexec body) ((x, v) :: s) in GOk (fst o, leave s (snd o))
        else GUndef
    | _ => GUndef
    end.
  Fixpoint gbody (l : list hstmt) (s : genv) : gout gval :=
    match l with
    | [] => GUndef
    | x :: r => grab o := gexec x s in match o with (None, s1) => gbody r s1 | (Some v, _) => GOk v end
    end.
End Exec.

(** A call of the only function with the name whose parameters can take the values, [n] calls deep at most. *)
Fixpoint call_gen (T : gtext) (cfg : build) (msgs : list message) (loops n : nat) (f : bytes) (vs : list gval) : gout gval :=
  match n with
  | O => GUndef
  | S n' =>
      match flat_map (fun h => if same (hf_name h) f then match gbinds (hf_params h) vs with Some s => [(h, s)] | None => [] end else []) (gt_funs T) with
      | [(h, s)] => grab v := gbody cfg msgs (gt_map T) loops (call_gen T cfg msgs loops n') (hf_body h) s in sure (gtyped (hf_ret h) v)
      | _ => GUndef
      end
  end.
