(** Model of deserialization: [json<T>::read], [read_object], [deserialize]. *)
From Verif Require Import Bytes Num Dbl Types Stream Tokenizer Write.

(** Results of readers: status, new value, tokenizer; [None]: out of fuel. *)
Definition rres (A : Type) : Type := option (pgr * A * tokenizer).

Definition rfail {A} (c : error_code) (msg : bytes) (v : A) (t : tokenizer) : rres A :=
  Some (PGR_ERROR, v, tk_error c msg t).

(** ** Arithmetic values *)

(** json-number.hh:32-73, [string_to_number<T>]. *)
Definition string_to_prim (p : prim) (text : bytes) : pval :=
  match p with
  | PInt sg bits => VInt (string_to_int sg bits text)
  | PDouble => VDbl (strtod text)
  | PFloat => VDbl (to_float (strtod text))
  | PBool => VBool false       (* not instantiated: bool has its own specialisation *)
  end.

(** json-number.hh:145-154 (numbers) and 169-178 (bool). *)
Definition read_prim (n : nat) (p : prim) (t : tokenizer) (v : pval) : rres pval :=
  match tk_id t with
  | T_NIL => Some (PGR_NIL, v, t)
  | id =>
      match p with
      | PBool =>
          match id with
          | T_BTRUE | T_BFALSE =>
              match tk_next n t with
              | None => None
              | Some t1 => Some (PGR_OK, VBool (tid_eqb id T_BTRUE), t1)
              end
          | _ => rfail PGERR_INVALID_VALUE (b "invalid boolean value") v t
          end
      | _ =>
          match id with
          | T_NUMBER =>
              let v' := string_to_prim p (t_val (tk_cur t)) in
              match tk_next n t with
              | None => None
              | Some t1 => Some (PGR_OK, v', t1)
              end
          | _ => rfail PGERR_INVALID_VALUE (b "invalid numeric value") v t
          end
      end
  end.

(** json-number.hh:117-125, [json<field<T>>::read]: assigned unless the result is
    PGR_NIL, so also on error. *)
Definition read_fieldnum (n : nat) (p : prim) (t : tokenizer) (em : bool) (v : pval) : rres val :=
  match read_prim n p t (pzero p) with
  | None => None
  | Some (PGR_NIL, _, t1) => Some (PGR_NIL, VField em v, t1)
  | Some (r, temp, t1) => Some (r, VField false temp, t1)
  end.

(** ** Strings *)

(** json-string.hh:50-58, [json<std::string>::read]. *)
Definition read_string (n : nat) (t : tokenizer) (v : bytes) : rres bytes :=
  match tk_id t with
  | T_NIL => Some (PGR_NIL, v, t)
  | _ =>
      let value := t_val (tk_cur t) in
      match tk_expect n T_STRING t with
      | None => None
      | Some (false, t1) => rfail PGERR_INVALID_VALUE (b "invalid string value") v t1
      | Some (true, t1) => Some (PGR_OK, value, t1)
      end
  end.

(** json-string.hh:23, [string_field::empty(bool)], and 26, assignment from
    [std::string]; used by [read] below. *)
Definition sf_set_empty (state : bool) (v : bool * bytes) : bool * bytes :=
  (state, if state then [] else snd v).
Definition sf_assign_string (s : bytes) (v : bool * bytes) : bool * bytes := (false, s).

(** json-string.hh:157-165, [json<string_field>::read]. *)
Definition read_strfield (n : nat) (t : tokenizer) (null : bool) (s : bytes) : rres val :=
  match read_string n t [] with
  | None => None
  | Some (r, temp, t1) =>
      let is_nil := match r with PGR_NIL => true | _ => false end in
      let '(null', s') := sf_assign_string temp (sf_set_empty is_nil (null, s)) in
      Some (r, VStr null' s', t1)
  end.

(** ** Base64 *)

(** json-base64.hh:14-23, [b64_int]; the argument is a [char] promoted to [int]. *)
Definition b64_int (ch : Z) : Z :=
  if ch =? 43 then 62
  else if ch =? 47 then 63
  else if (48 <=? ch) && (ch <=? 57) then ch + 4
  else if (65 <=? ch) && (ch <=? 90) then ch - 65
  else if (97 <=? ch) && (ch <=? 122) then ch - 97 + 26
  else if ch =? 61 then 64
  else 0.

(** json-base64.hh:85-99: the bytes of one group of four characters. *)
Definition b64_group (s0 s1 s2 s3 : Z) : bytes :=
  chr (Z.lor (Z.shiftl (Z.land s0 255) 2) (Z.shiftr (Z.land s1 48) 4)) ::
  (if s2 =? 64 then []
   else chr (Z.lor (Z.shiftl (Z.land s1 15) 4) (Z.shiftr (Z.land s2 60) 2)) ::
        (if s3 =? 64 then []
         else [chr (Z.lor (Z.shiftl (Z.land s2 3) 6) s3)])).

(** json-base64.hh:72-100 on the C string of the token: bytes decoded, and
    whether the text ended inside a group ([j != 0], line 80). *)
Fixpoint b64_decode (text : bytes) : bytes * bool :=
  match text with
  | c0 :: c1 :: c2 :: c3 :: r =>
      let '(o, bad) := b64_decode r in
      (b64_group (b64_int (schar c0)) (b64_int (schar c1)) (b64_int (schar c2)) (b64_int (schar c3)) ++ o,
       bad)
  | [] => ([], false)
  | _ => ([], true)
  end.

(** json-base64.hh:60-101, [read]: appends to the value; a truncated group
    records an error but still returns PGR_OK (lines 80-81). *)
Definition read_b64 (n : nat) (t : tokenizer) (v : bytes) : rres val :=
  match tk_id t with
  | T_NIL => Some (PGR_NIL, VB64 v, t)
  | T_STRING =>
      let text := t_val (tk_cur t) in
      match tk_next n t with
      | None => None
      | Some t1 =>
          let '(o, bad) := b64_decode (cstr text) in
          let t2 := if bad then tk_error PGERR_INVALID_OBJECT (b "invalid base64 data") t1 else t1 in
          Some (PGR_OK, VB64 (v ++ o), t2)
      end
  | _ => rfail PGERR_INVALID_OBJECT (b "invalid string") (VB64 v) t
  end.

(** ** Names: [rol], [reveal] (protogen.hh:607-625) *)

(** protogen.hh:611-615 for [uint8_t]; [-count & 7]. *)
Definition rol8 (value count : Z) : Z :=
  (Z.lor (Z.shiftl value count) (Z.shiftr value (Z.land (- count) 7))) mod 256.

(** protogen.hh:617-625. *)
Definition reveal_mask (len : nat) : Z := rol8 147 (Z.of_nat len mod 8).
Definition reveal (value : bytes) : bytes :=
  map (fun c => chr (Z.lxor (code c) (reveal_mask (length value)))) value.

(** code.txt:218-240, [index]: first entry with that key, or -1. *)
Fixpoint index_lookup (l : list (bytes * Z)) (name : bytes) : Z :=
  match l with
  | [] => -1
  | (k, i) :: r => if bytes_eqb k name then i else index_lookup r name
  end.

Definition gen_index (g : gencode) (name : bytes) : Z :=
  index_lookup (g_index g) (if g_obf g then reveal name else name).

Fixpoint case_lookup (l : list (Z * nat)) (i : Z) : option nat :=
  match l with
  | [] => None
  | (j, k) :: r => if j =? i then Some k else case_lookup r i
  end.

(** code.txt:69-85, [read_field] up to the selection of the member. *)
Definition select_member (g : gencode) (name : bytes) : option nat :=
  let idx := gen_index g name in
  if idx <? 0 then None else case_lookup (g_cases g) idx.

(** ** Containers and messages *)

(** json-array.hh:45-58: loop over the elements; [rd] reads one element into a
    fresh value [d]. *)
Fixpoint array_loop (n : nat) (nf : nat) (rd : tokenizer -> val -> rres val) (d : val)
         (t : tokenizer) (l : list val) {struct n} : rres (list val) :=
  match n with
  | O => None
  | S n' =>
      match rd t d with
      | None => None
      | Some (PGR_ERROR, _, t1) => Some (PGR_ERROR, l, t1)
      | Some (r, x, t1) =>
          let l1 := match r with PGR_OK => l ++ [x] | _ => l end in
          match tk_expect nf T_COMMA t1 with
          | None => None
          | Some (true, t2) => array_loop n' nf rd d t2 l1
          | Some (false, t2) =>
              match tk_expect nf T_ARRE t2 with
              | None => None
              | Some (true, t3) => Some (PGR_OK, l1, t3)
              | Some (false, t3) => rfail PGERR_INVALID_ARRAY (b "invalid array") l1 t3
              end
          end
      end
  end.

(** json-array.hh:38-61. *)
Definition read_array (n : nat) (rd : tokenizer -> val -> rres val) (d : val)
           (t : tokenizer) (l : list val) : rres (list val) :=
  match tk_id t with
  | T_NIL => Some (PGR_NIL, l, t)
  | _ =>
      match tk_expect n T_ARRS t with
      | None => None
      | Some (false, t1) => rfail PGERR_INVALID_ARRAY (b "invalid array") l t1
      | Some (true, t1) =>
          match tk_expect n T_ARRE t1 with
          | None => None
          | Some (true, t2) => Some (PGR_OK, l, t2)
          | Some (false, t2) => array_loop n n rd d t2 l
          end
      end
  end.

(** json.hh:41-58: loop over the members; [rf] is [J::read_field]. *)
Fixpoint object_loop (n : nat) (nf : nat)
         (rf : bytes -> tokenizer -> list val -> rres (list val))
         (t : tokenizer) (vs : list val) {struct n} : rres (list val) :=
  match n with
  | O => None
  | S n' =>
      let name := t_val (tk_cur t) in
      match tk_expect nf T_STRING t with
      | None => None
      | Some (false, t1) => rfail PGERR_INVALID_NAME (b "object key must be string") vs t1
      | Some (true, t1) =>
          match tk_expect nf T_COLON t1 with
          | None => None
          | Some (false, t2) =>
              rfail PGERR_INVALID_SEPARATOR (b "field name and value must be separated by ':'") vs t2
          | Some (true, t2) =>
              match rf name t2 vs with
              | None => None
              | Some (PGR_ERROR, vs1, t3) => Some (PGR_ERROR, vs1, t3)
              | Some (r, vs1, t3) =>
                  match (match r with PGR_OK => Some (PGR_OK, t3) | _ => ignore_value nf t3 end) with
                  | None => None
                  | Some (PGR_ERROR, t4) => Some (PGR_ERROR, vs1, t4)
                  | Some (_, t4) =>
                      match tk_expect nf T_COMMA t4 with
                      | None => None
                      | Some (true, t5) => object_loop n' nf rf t5 vs1
                      | Some (false, t5) =>
                          match tk_expect nf T_OBJE t5 with
                          | None => None
                          | Some (true, t6) => Some (PGR_OK, vs1, t6)
                          | Some (false, t6) =>
                              rfail PGERR_INVALID_OBJECT (b "invalid JSON object") vs1 t6
                          end
                      end
                  end
              end
          end
      end
  end.

(** json.hh:33-61, [read_object]. *)
Definition read_object (n : nat) (rf : bytes -> tokenizer -> list val -> rres (list val))
           (t : tokenizer) (vs : list val) : rres (list val) :=
  match tk_id t with
  | T_NIL => Some (PGR_NIL, vs, t)
  | _ =>
      match tk_expect n T_OBJS t with
      | None => None
      | Some (false, t1) => rfail PGERR_INVALID_OBJECT (b "objects must start with '{'") vs t1
      | Some (true, t1) =>
          match tk_expect n T_OBJE t1 with
          | None => None
          | Some (true, t2) => Some (PGR_OK, vs, t2)
          | Some (false, t2) => object_loop n n rf t2 vs
          end
      end
  end.

(** code.txt:69-85, [read_field]: reads member number [k] in place.  [rds] are the
    readers of the members. *)
Definition read_member (g : gencode) (rds : list (tokenizer -> val -> rres val))
           (name : bytes) (t : tokenizer) (vs : list val) : rres (list val) :=
  match select_member g name with
  | None => Some (PGR_NIL, vs, t)
  | Some k =>
      match nth_error rds k, nth_error vs k with
      | Some rd, Some v =>
          match rd t v with
          | None => None
          | Some (r, v', t1) => Some (r, set_nth k v' vs, t1)
          end
      | _, _ => Some (PGR_NIL, vs, t)     (* no such member: does not occur *)
      end
  end.

Definition rmap {A B} (f : A -> B) (r : rres A) : rres B :=
  match r with
  | None => None
  | Some (s, v, t) => Some (s, f v, t)
  end.

(** [json<T>::read].  Values not of the type do not exist in C++; they give
    PGR_ERROR. *)
Fixpoint read (n : nat) (ty0 : ty) {struct ty0} : tokenizer -> val -> rres val :=
  match ty0 with
  | TPrim p => fun t v =>
      match v with VPrim x => rmap VPrim (read_prim n p t x) | _ => Some (PGR_ERROR, v, t) end
  | TField p => fun t v =>
      match v with VField em x => read_fieldnum n p t em x | _ => Some (PGR_ERROR, v, t) end
  | TStr => fun t v =>
      match v with VStr null s => read_strfield n t null s | _ => Some (PGR_ERROR, v, t) end
  | TB64 => fun t v =>
      match v with VB64 s => read_b64 n t s | _ => Some (PGR_ERROR, v, t) end
  | TRep t' => fun t v =>
      match v with
      | VList l => rmap VList (read_array n (read n t') (dflt t') t l)
      | _ => Some (PGR_ERROR, v, t)
      end
  | TMsg ms g => fun t v =>
      match v with
      | VMsg vs => rmap VMsg (read_object n (read_member g (map (read n) ms)) t vs)
      | _ => Some (PGR_ERROR, v, t)
      end
  end.

(** ** [deserialize] (json.hh:74-87) and [deserialize_array] (json-array.hh:84-98)
    on an input stream; [po] is the [Parameters*] argument.  Result: returned
    boolean, object afterwards, [*params] afterwards. *)
Definition deserialize_fuel (n : nat) (ty0 : ty) (v : val) (s : istream) (po : option params)
  : option (bool * val * option params) :=
  let po1 := clear_params po in
  match tk_make n s (p_err (ctx_params po)) with
  | None => None
  | Some t =>
      match read n ty0 t v with
      | None => None
      | Some (PGR_OK, v', _) => Some (true, v', po1)
      | Some (_, v', t') => Some (false, v', params_set_err po1 (tk_err t'))
      end
  end.

(** Fuel that is always enough ([Termination.v]). *)
Definition fuel_for (inp : bytes) : nat := S (S (S (2 * length inp))).

(** protogen.hh:649-653, json.hh:74-87. *)
Definition deserialize (ty0 : ty) (v : val) (inp : bytes) (po : option params)
  : option (bool * val * option params) :=
  deserialize_fuel (fuel_for inp) ty0 v (mk_istream inp) po.
