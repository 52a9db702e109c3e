(** The classes json<T> and the functions they use, from the text of the headers json*.hh, and calls of them. *)
From Verif Require Import Bytes Num Dbl Types Stream Tokenizer Read Write Template Cpp CLex CParse CExec Unit HdrText HText HParse HExec HTok.

(** ** The texts *)

(** [x_free]: set_error and read_object (json.hh:21-61), write_escaped_utf8 (json-string.hh:40-45); the others: the functions
    of json<bool>, json<T> and json<field<T>> of numbers (json-number.hh), json<std::string> and json<string_field>
    (json-string.hh), json<std::vector<uint8_t>> (json-base64.hh), json<T> of containers (json-array.hh). *)
Record htext := HTx {
  x_stream : list hfun;
  x_tok : list hfun;
  x_consts : list (list bytes * hval);
  x_free : list hfun;
  x_bool : list hfun;
  x_num : list hfun;
  x_field : list hfun;
  x_str : list hfun;
  x_sfield : list hfun;
  x_b64 : list hfun;
  x_arr : list hfun
}.

Definition struct_of (text : bytes) (h : string) : list hfun := hfunctions (inner_block (header text) [ns; h]).

Definition texts_of (protogen json arr b64 num str : bytes) : htext :=
  HTx (hfunctions (inner_block (header protogen) stream_path))
      (hfunctions (inner_block (header protogen) tok_path))
      (consts_of (header protogen))
      (hfunctions (inner_block (header json) [ns]) ++ hfunctions (inner_block (header str) [ns]))
      (struct_of num "template<> struct json<bool, void>")
      (struct_of num "template<typename T> struct json<T, typename std::enable_if<std::is_arithmetic<T>::value>::type>")
      (struct_of num "template<typename T> struct json<field<T>, typename std::enable_if<std::is_arithmetic<T>::value>::type>")
      (struct_of str "template<> struct json<std::string, void>")
      (struct_of str "template <> struct json<string_field, void>")
      (struct_of b64 "template <> struct json< std::vector<uint8_t> >")
      (struct_of arr "template<typename T> struct json<T, typename std::enable_if<is_container<T>::value>::type >").

(** ** What is not executed from text *)

(** "%04x" (C99 7.21.6.1) of a uint32_t. *)
Definition hex_digits (k : nat) (z : Z) : bytes :=
  map (fun i => hexd (Z.land (Z.shiftr z (4 * Z.of_nat i)) 15)) (rev (seq 0 k)).
Definition hex_width (z : Z) : nat :=
  if z <? 65536 then 4%nat else if z <? 1048576 then 5%nat else if z <? 16777216 then 6%nat
  else if z <? 268435456 then 7%nat else 8%nat.
Definition w_hex_format : bytes := b "\u%04x".

(** snprintf into an array of char: at most [n - 1] characters and a null; what is behind stays. *)
Definition snprintf (n : Z) (text : bytes) (l : list hval) : option (list hval) :=
  if (1 <=? n) && (n <=? Z.of_nat (length l)) then
    let w := map (fun c => HI IChar (char_of c)) (firstn (Z.to_nat n - 1) text) ++ [HI IChar 0] in
    Some (w ++ skipn (length w) l)
  else None.

Definition call_snprintf (args : list hres) (s : hst) : option (hres * hst) :=
  match args with
  | [HL r p; n; f; z] =>
      match peek_at s r p, load s n, load s f, load s z with
      | Some (HArr l), Some (HI ISize n), Some (HPtr f), Some (HI IUInt z) =>
          if str_eqb f w_hex_format then
            let text := b "\u" ++ hex_digits (hex_width z) z in
            match snprintf n text l with
            | Some l' => option_map (fun s' => (HV (HI IInt (Z.of_nat (length text))), s')) (store s r p (HArr l'))
            | None => None
            end
          else None
      | _, _, _, _ => None
      end
  | _ => None
  end.

(** string_to_number<T> (json-number.hh:32-73), number_to_string (75-99): as Num.v, Dbl.v, Read.v and Write.v have them. *)
Definition w_to_number : list bytes := Eval vm_compute in words_of "string_to_number<T>".
Definition call_number (p : prim) (ws : list bytes) (args : list hres) (s : hst) : option (hres * hst) :=
  match args with
  | [a] =>
      match load s a with
      | Some (HS x) => if words_eqb ws w_to_number then Some (HV (HM (VPrim (string_to_prim p x))), s) else None
      | Some (HM (VPrim x)) => if words_eqb ws [b "number_to_string"] then Some (HV (HS (prim_text x)), s) else None
      | _ => None
      end
  | _ => None
  end.

(** ** Calls *)

Definition callee := bytes -> list hres -> hst -> option (hres * hst).
Definition outer := list bytes -> list hres -> hst -> option (hres * hst).

Fixpoint after_words (pre ws : list bytes) : option (list bytes) :=
  match pre, ws with
  | [], _ => Some ws
  | p :: pre', w :: ws' => if same p w then after_words pre' ws' else None
  | _, _ => None
  end.
(** Calls of [w::f]. *)
Definition scoped (w : list bytes) (g : callee) : outer :=
  fun ws args s => match after_words w ws with Some [f] => g f args s | _ => None end.
Definition w_T : list bytes := Eval vm_compute in words_of "json<T>::".
Definition w_elem : list bytes := Eval vm_compute in words_of "json<typename T::value_type>::".
Definition w_str : list bytes := Eval vm_compute in words_of "json<std::string, void>::".
Definition w_J : list bytes := Eval vm_compute in words_of "J::".
Definition w_elem_type : list bytes := Eval vm_compute in words_of "typename T::value_type".

(** A string_field where a string is asked for (json-string.hh:34-35). *)
Definition as_string (s : hst) (a : hres) : hres :=
  match load s a with Some (HM (VStr _ x)) => HV (HS x) | _ => a end.

Section Json.
  (** Iterations of a loop, open calls; ensure_ascii and serialize_null of the parameters; the texts. *)
  Context (loops : nat) (d : nat) (ea sn : bool) (X : htext).

  (** Calls within [own]: of the tokenizer, of functions of [own], of others. *)
  Fixpoint callJ (own : list hfun) (cs : list (list bytes * hval)) (ext : outer) (k : nat)
           (o : target) (ws : list bytes) (args : list hres) (s : hst) {struct k} : option (hres * hst) :=
    match k with
    | O => None
    | S k' =>
        match o with
        | OTok => callD loops (x_consts X) ea (x_stream X) (x_tok X) d CNone OTok ws args s
        | OName => match (match ws with [f] => hfind own f | _ => None end) with
                   | Some fn => run_fun loops (cs ++ x_consts X) ea CNone (callJ own cs ext k') fn args s
                   | None => ext ws args s
                   end
        | OIn => None
        end
    end.
  Definition json_call (own : list hfun) (cs : list (list bytes * hval)) (ext : outer) : callee :=
    fun f args s => callJ own cs ext d OName [f] args s.

  Definition prim_call (p : prim) : callee :=
    match p with
    | PBool => json_call (x_bool X) [] (fun _ _ _ => None)
    | _ => json_call (x_num X) [([b "(T) 0"], HM (VPrim (pzero p)))] (call_number p)
    end.
  Definition string_call : callee :=
    json_call (x_str X ++ x_free X) []
      (fun ws args s => if words_eqb ws [b "snprintf"] then call_snprintf args s else None).

  (** Member [k] of a message, in place. *)
  Definition member_call (subs : list callee) (k : nat) (y : bytes) (vs : list val) (s : hst) : option (hres * hst) :=
    match nth_error subs k, nth_error vs k with
    | Some sub, Some v =>
        match sub (b "read") [HV HCtx; HL (RVar (b "m")) []] (put_vars s [(b "m", VarVal (HM v))]) with
        | Some (HV r, s1) =>
            match get_root s1 (RVar (b "m")) with
            | Some (HM v') => Some (HV r, set_root (put_vars s1 (s_vars s)) (RVar y) (HM (VMsg (set_nth k v' vs))))
            | _ => None
            end
        | _ => None
        end
    | _, _ => Some (HV (HI IInt 2), s)         (* no such member: does not occur *)
    end.
  (** J::read_field of the generated class (code.txt:69-85; its own text: CExec.v, C67). *)
  Definition field_call (g : gencode) (subs : list callee) (args : list hres) (s : hst) : option (hres * hst) :=
    match args with
    | [c; n; HL (RVar y) []] =>
        match load s c, load s n, get_root s (RVar y) with
        | Some HCtx, Some (HS name), Some (HM (VMsg vs)) =>
            match select_member g name with
            | None => Some (HV (HI IInt 2), s)
            | Some k => member_call subs k y vs s
            end
        | _, _, _ => None
        end
    | _ => None
    end.
  (** The items of write of the generated class (code.txt:97-112; its own text: CExec.v, C67). *)
  Fixpoint item_calls (subs : list callee) (vs : list val) (items : list (nat * bytes)) (f : bool) (s : hst) : option hst :=
    match items with
    | [] => Some s
    | (k, label) :: r =>
        match nth_error subs k, nth_error vs k with
        | Some sub, Some v =>
            if sn || negb (vempty v) then
              match sub (b "write") [HV HCtx; HV (HM v)] (put_out s (cat (s_out s) ((if f then b """" else b ",""") ++ label ++ b """:"))) with
              | Some (_, s1) => item_calls subs vs r false s1
              | None => None
              end
            else item_calls subs vs r f s
        | _, _ => item_calls subs vs r f s     (* no such member: does not occur *)
        end
    end.
  Definition message_write (g : gencode) (subs : list callee) (args : list hres) (s : hst) : option (hres * hst) :=
    match args with
    | [c; a] =>
        match load s c, load s a with
        | Some HCtx, Some (HM (VMsg vs)) =>
            match item_calls subs vs (g_write g) true (put_out s (cat (s_out s) (b "{"))) with
            | Some s1 => Some (HV (HI IInt 0), put_out s1 (cat (s_out s1) (b "}")))
            | None => None
            end
        | _, _ => None
        end
    | _ => None
    end.

  (** json<T>::f for T of [t]. *)
  Fixpoint json_text (t : ty) : callee :=
    match t with
    | TPrim p => prim_call p
    | TField p => json_call (x_field X) [([b "T"], HRaw p)] (scoped w_T (prim_call p))
    | TStr => json_call (x_sfield X) [] (scoped w_str (fun f args s => string_call f (map (as_string s) args) s))
    | TB64 => json_call (x_b64 X) [] (fun _ _ _ => None)
    | TRep t' => json_call (x_arr X) [(w_elem_type, HM (dflt t'))] (scoped w_elem (json_text t'))
    | TMsg ms g =>
        fun f args s =>
          if same f (b "read") then
            json_call (x_free X) [] (fun ws a s' => match after_words w_J ws with
                                                    | Some [x] => if same x (b "read_field") then field_call g (map json_text ms) a s' else None
                                                    | _ => None
                                                    end) (b "read_object") args s
          else if same f (b "write") then message_write g (map json_text ms) args s
          else None
    end.
End Json.

Definition the_texts := Eval vm_compute in
  texts_of protogen_hh json_hh json_array_hh json_base64_hh json_number_hh json_string_hh.
