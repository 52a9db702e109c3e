(** The text of the printer of the generator (source/printer.cc), read as C++ and executed (C++11 5, 6; C11 7.22.1.4, 7.24.5.2). *)
From Verif Require Import Bytes Num Template Cpp CLex CParse CExec Unit HText HParse HExec LexRead LexExec.

(** source/printer.cc:1-69, the whole file; a line break is added at its end. *)
Definition printer_cc : bytes := text_of [
  b "/*";
  b " * Copyright 2020 Bruno Ribeiro <https://github.com/brunexgeek>";
  b " *";
  b " * Licensed under the Apache License, Version 2.0 (the ""License"");";
  b " * you may not use this file except in compliance with the License.";
  b " * You may obtain a copy of the License at";
  b " *";
  b " *     http://www.apache.org/licenses/LICENSE-2.0";
  b " *";
  b " * Unless required by applicable law or agreed to in writing, software";
  b " * distributed under the License is distributed on an ""AS IS"" BASIS,";
  b " * WITHOUT WARRANTIES OR CONDITIONS OF ANY KIND, either express or implied.";
  b " * See the License for the specific language governing permissions and";
  b " * limitations under the License.";
  b " */";
  b "";
  b "#include ""printer.hh""";
  b "#include <cstring>";
  b "#include <cstdlib>";
  b "";
  b "namespace protogen {";
  b "";
  b "";
  b "Printer::Printer( std::ostream &out, bool pretty ) : out_(out), pretty_(pretty),";
  b "    newLine_(true), tab_(0)";
  b "{";
  b "}";
  b "";
  b "void Printer::print( const char *format )";
  b "{";
  b "    out_ << format;";
  b "}";
  b "";
  b "void Printer::print( const char *format, const std::vector<std::string> &vars )";
  b "{";
  b "    print(out_, format, vars);";
  b "}";
  b "";
  b "void Printer::print( std::ostream &out, const char *format, const std::vector<std::string> &vars )";
  b "{";
  b "    const char *ptr = format;";
  b "    while (*ptr != 0)";
  b "    {";
  b "        if (*ptr == '$')";
  b "        {";
  b "            const char *end = strchr(ptr + 1, '$');";
  b "            if (end == nullptr) return;";
  b "";
  b "            char *last = nullptr;";
  b "            int index = (int) strtol(ptr + 1, &last, 10) - 1;";
  b "            if (last != end) return;";
  b "";
  b "            ptr = end + 1;";
  b "            //std::cerr << index << ""  "" << vars[0] << std::endl;;";
  b "            if (index < 0 || index >= (int) vars.size()) continue;";
  b "            out << vars[index];";
  b "            continue;";
  b "        }";
  b "        if (*ptr == '\t')";
  b "            out << ""    "";";
  b "        else";
  b "        if (*ptr != '\b')";
  b "            out << *ptr;";
  b "        ++ptr;";
  b "    }";
  b "}";
  b "";
  b "";
  b "}"].

(** ** Reading *)

(** "char * x" is read as "const char * x": that what it points to may be changed makes no difference here. *)
Fixpoint const_chars (was_const : bool) (l : list ctok) : list ctok :=
  match l with
  | [] => []
  | k :: r =>
      if same (spelling k) (b "char") && negb was_const && (match r with q :: KId _ :: _ => same (spelling q) (b "*") | _ => false end)
      then KKw (b "const") :: k :: const_chars false r
      else k :: const_chars (same (spelling k) (b "const")) r
  end.
Definition print_source (text : bytes) : list tree :=
  match op_lines (OP XText [] []) (logical_lines text) with
  | Some (ks, OP XText _ []) => match trees (const_chars false ks) with Some l => l | None => [] end
  | _ => []
  end.
(** printer.cc:29-66: the functions with the name print. *)
Definition print_funs (text : bytes) : list hfun :=
  filter (fun f => same (hf_name f) (b "print") && words_eqb (hf_ret f) (words_of "void Printer::"))
         (hfunctions (inner_block (print_source text) ["namespace protogen"]%string)).

(** ** Execution *)

(** [PP s]: a pointer into a C string, [s] what is there up to the null (not included); [PL s]: a string literal; [PI]: a number and
    its type; [PO]: the std::ostream; [PV]: the std::vector<std::string>. *)
Inductive pval := PP (s : bytes) | PNull | PL (s : bytes) | PI (t : ity) (z : Z) | PB (x : bool) | PS (s : bytes) | PV (l : list bytes) | PO.
(** Variables of the function and what was written to the stream. *)
Record pstate := PSt { p_vars : list (bytes * pval); p_out : bytes }.
Definition put_var (s : pstate) (x : bytes) (v : pval) : pstate := PSt (update (p_vars s) x v) (p_out s).

(** "*p"; the null is behind the last character. *)
Definition char_at (s : bytes) : Z := match s with [] => 0 | c :: _ => char_of c end.
(** [strchr(p, c)]: where [c], converted to char, is for the first time, the null included. *)
Fixpoint strchr (c : Z) (s : bytes) : option bytes :=
  if char_at s =? c then Some s else match s with [] => None | _ :: r => strchr c r end.
(** [strtol(p, &last, 10)]: where it stops; at [p] without digits. *)
Definition strtol_end (s : bytes) : bytes :=
  let '(_, ds, rest) := strto_split s in match ds with [] => s | _ => rest end.

(** [vars.size()] and [vars[i]], which is undefined for other [i]. *)
Definition how_many (l : list bytes) : Z := Z.of_nat (length l).
Definition item_at (l : list bytes) (z : Z) : option bytes := if inside z (length l) then nth_error l (Z.to_nat z) else None.

(** Pointers into the same string. *)
Definition ptr_eq (x y : pval) : option bool :=
  match x, y with
  | PP s, PP t => Some (Nat.eqb (length s) (length t))
  | PP _, PNull | PNull, PP _ => Some false
  | PNull, PNull => Some true
  | _, _ => None
  end.
(** char and int after promotion. *)
Definition as_int (v : pval) : option Z := match v with PI IChar z | PI IInt z => Some z | _ => None end.
Definition compared (op : bytes) (x y : Z) : option bool :=
  if same op (b "==") then Some (x =? y) else if same op (b "!=") then Some (negb (x =? y))
  else if same op (b "<") then Some (x <? y) else if same op (b ">=") then Some (y <=? x) else None.
Definition pbinary (op : bytes) (x y : pval) : option pval :=
  match as_int x, as_int y with
  | Some u, Some v =>
      if same op (b "-") then (if int_ok (u - v) then Some (PI IInt (u - v)) else None)
      else option_map PB (compared op u v)
  | _, _ =>
      match y with
      | PI _ z => match x with PP (_ :: r) => if same op (b "+") && (z =? 1) then Some (PP r) else None | _ => None end
      | _ =>
          match ptr_eq x y with
          | Some e => if same op (b "==") then Some (PB e) else if same op (b "!=") then Some (PB (negb e)) else None
          | None => None
          end
      end
  end.
(** "out << v" *)
Definition shown (v : pval) : option bytes :=
  match v with PS s => Some s | PL s => Some (cstr s) | PP s => Some s | PI IChar z => Some [chr z] | _ => None end.

Definition type_is (t : list bytes) (v : pval) : bool :=
  match v with
  | PP _ | PNull => words_eqb t [b "const"; b "char"; b "*"]
  | PI IInt _ => words_eqb t [b "int"]
  | _ => false
  end.

Inductive pflow := PNext | PContinue | PReturn.

Section Exec.
  (** A call of another function print; [loops]: how many iterations a loop may take. *)
  Context (loops : nat) (call : list pval -> bytes -> out bytes).

  Fixpoint peval (e : hexpr) (s : pstate) {struct e} : out (pval * pstate) :=
    match e with
    | EName [x] => do v <- sure (assoc (p_vars s) x); Out (v, s)
    | ENull => Out (PNull, s)
    | ENum false z => Out (PI IInt z, s)
    | EChr t => do z <- sure (chr_val t); Out (PI IChar z, s)
    | EStr t => do x <- sure (lit_go LText t); Out (PL x, s)
    | EIndex x i =>
        do (v, s1) <- peval x s; do (k, s2) <- peval i s1;
        match v, k with
        | PV l, PI IInt z => do y <- sure (item_at l z); Out (PS y, s2)
        | _, _ => Bad
        end
    | ECall (EName [f]) [x; y] =>
        if same f (b "strchr") then
          do (p, s1) <- peval x s; do (c, s2) <- peval y s1;
          match p, c with
          | PP t, PI IChar z => Out (match strchr z t with Some r => PP r | None => PNull end, s2)
          | _, _ => Bad
          end
        else Bad
    | ECall (EName [f]) [x; y; z] =>
        if same f (b "strtol") then
          match y, z with
          | EPre a (EName [l]), ENum false 10 =>
              do (p, s1) <- peval x s;
              match p, assoc (p_vars s1) l with
              | PP t, Some _ => if same a (b "&") then Out (PI ILong (strtol t), put_var s1 l (PP (strtol_end t))) else Bad
              | _, _ => Bad
              end
          | _, _ => Bad
          end
        else if same f (b "print") then
          do (u, s1) <- peval x s; do (v, s2) <- peval y s1; do (w, s3) <- peval z s2;
          do o <- call [u; v; w] (p_out s3); Out (PNull, PSt (p_vars s3) o)
        else Bad
    | ECall (EDot x m) [] =>
        do (v, s1) <- peval x s;
        match v with PV l => if same m (b "size") then Out (PI ISize (how_many l), s1) else Bad | _ => Bad end
    | ECast t x =>
        do (v, s1) <- peval x s;
        match v with PI _ z => if words_eqb t [b "int"] then Out (PI IInt (cast_int true 32 z), s1) else Bad | _ => Bad end
    | EPre op x =>
        if same op (b "*") then
          do (v, s1) <- peval x s; match v with PP t => Out (PI IChar (char_at t), s1) | _ => Bad end
        else if same op (b "++") then
          match x with
          | EName [n] => match assoc (p_vars s) n with
                         | Some (PP (_ :: r)) => Out (PP r, put_var s n (PP r))
                         | _ => Bad
                         end
          | _ => Bad
          end
        else Bad
    | EBin op x y =>
        do (u, s1) <- peval x s;
        if same op (b "||") then
          match u with
          | PB true => Out (PB true, s1)
          | PB false => do (v, s2) <- peval y s1; match v with PB q => Out (PB q, s2) | _ => Bad end
          | _ => Bad
          end
        else
          do (v, s2) <- peval y s1;
          match u with
          | PO => if same op (b "<<") then do t <- sure (shown v); Out (PO, PSt (p_vars s2) (p_out s2 ++ t)) else Bad
          | _ => do r <- sure (pbinary op u v); Out (r, s2)
          end
    | ESet op (EName [n]) y =>
        do (v, s1) <- peval y s;
        match assoc (p_vars s1) n, v with
        | Some (PP _), PP _ => if same op (b "=") then Out (v, put_var s1 n v) else Bad
        | _, _ => Bad
        end
    | _ => Bad
    end.

  (** At most [k] iterations. *)
  Fixpoint ploop (k : nat) (c : pstate -> out (pval * pstate)) (body : pstate -> out (pflow * pstate)) (s : pstate) : out (pflow * pstate) :=
    match k with
    | O => More
    | S k' =>
        do (v, s1) <- c s;
        match v with
        | PB true => do (f, s2) <- body s1; match f with PReturn => Out (PReturn, s2) | _ => ploop k' c body s2 end
        | PB false => Out (PNext, s1)
        | _ => Bad
        end
    end.
  Definition pseq (ex : hstmt -> pstate -> out (pflow * pstate)) : list hstmt -> pstate -> out (pflow * pstate) :=
    fix go l s :=
      match l with
      | [] => Out (PNext, s)
      | st :: r => do (f, s1) <- ex st s; match f with PNext => go r s1 | _ => Out (f, s1) end
      end.
  (** The variables of a block end with it. *)
  Definition pleave (s s' : pstate) : pstate := PSt (skipn (length (p_vars s') - length (p_vars s)) (p_vars s')) (p_out s').
  Fixpoint pexec (st : hstmt) (s : pstate) {struct st} : out (pflow * pstate) :=
    match st with
    | TExpr [e] => do (v, s1) <- peval e s; Out (PNext, s1)
    | TVar t x None (Some e) =>
        do (v, s1) <- peval e s; if type_is t v then Out (PNext, PSt ((x, v) :: p_vars s1) (p_out s1)) else Bad
    | TReturn None => Out (PReturn, s)
    | TContinue => Out (PContinue, s)
    | TIf c a e =>
        do (v, s1) <- peval c s;
        match v with
        | PB true => pexec a s1
        | PB false => match e with Some x => pexec x s1 | None => Out (PNext, s1) end
        | _ => Bad
        end
    | TWhile c a => ploop loops (peval c) (pexec a) s
    | TBlock l => do (f, s1) <- pseq pexec l s; Out (f, pleave s s1)
    | _ => Bad
    end.
End Exec.

(** The parameters: "std::ostream &", "const char *", "const std::vector<std::string> &". *)
Definition w_out : list bytes := Eval vm_compute in words_of "std::ostream &".
Definition w_format : list bytes := Eval vm_compute in words_of "const char *".
Definition w_vars : list bytes := Eval vm_compute in words_of "const std::vector<std::string> &".
Definition takes (t : list bytes) (v : pval) : bool :=
  match v with PO => words_eqb t w_out | PP _ => words_eqb t w_format | PV _ => words_eqb t w_vars | _ => false end.
Fixpoint given (ps : list (list bytes * bytes)) (vs : list pval) : option (list (bytes * pval)) :=
  match ps, vs with
  | [], [] => Some []
  | (t, x) :: ps', v :: vs' => if takes t v then option_map (cons (x, v)) (given ps' vs') else None
  | _, _ => None
  end.
(** A call of print with arguments [vs] after [o] was written: the function with that many parameters; [out_] is the member of
    Printer (printer.cc:24).  [d]: how deep calls may be nested. *)
Fixpoint call_print (fs : list hfun) (loops d : nat) (vs : list pval) (o : bytes) : out bytes :=
  match d with
  | O => Bad
  | S d' =>
      match filter (fun f => Nat.eqb (length (hf_params f)) (length vs)) fs with
      | [f] =>
          match given (hf_params f) vs with
          | Some l => do (_, s) <- pseq (pexec loops (call_print fs loops d')) (hf_body f) (PSt (l ++ [(b "out_", PO)]) o); Out (p_out s)
          | None => Bad
          end
      | _ => Bad
      end
  end.
