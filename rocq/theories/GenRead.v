(** The reading code once more, over an abstract input stream.

    In C++ the tokenizer works on a reference to the abstract class [istream]
    (protogen.hh:146-155) and calls its virtual functions.  [Tokenizer.v] and
    [Read.v] fix the stream to the list-based [istream]; here the stream is any
    implementation of the interface whose operations may be undefined ([None]).
    The functions are those of [Tokenizer.v] and [Read.v], line by line, with the
    stream operations made explicit; the lines of /repo they model are the ones
    given there.  [None]: out of fuel, or an undefined stream operation. *)
From Verif Require Import Bytes Num Dbl Types Stream Tokenizer Write Read.

Notation "'let?' x := e 'in' k" := (match e with Some x => k | None => None end)
  (at level 200, x pattern, e at level 100, k at level 200, right associativity).

(** protogen.hh:146-155. *)
Record stream_ops (S : Type) := SO {
  so_peek : S -> option Z;
  so_next : S -> option S;
  so_eof : S -> option bool;
  so_line : S -> Z;
  so_col : S -> Z
}.
Arguments so_peek {S}. Arguments so_next {S}. Arguments so_eof {S}.
Arguments so_line {S}. Arguments so_col {S}.

(** ** Plain [char]

    Whether [char] is signed is up to the implementation ([basic.fundamental]): a byte of
    128 or more is promoted to a negative [int] or to itself.  [Tokenizer.v] and [Read.v]
    take the first; here both are meant.  [pc]: the promotion. *)
Definition plain (pc : ascii -> Z) : Prop := pc = schar \/ pc = code.

(** [Read.b64_decode] (json-base64.hh:72-100) with the promotion of line 77. *)
Fixpoint g_b64_decode (pc : ascii -> Z) (text : bytes) : bytes * bool :=
  match text with
  | c0 :: c1 :: c2 :: c3 :: r =>
      let '(o, bad) := g_b64_decode pc r in
      (b64_group (b64_int (pc c0)) (b64_int (pc c1)) (b64_int (pc c2)) (b64_int (pc c3)) ++ o, bad)
  | [] => ([], false)
  | _ => ([], true)
  end.

Section Gen.
  Context {ST : Type} (pc : ascii -> Z) (ops : stream_ops ST).

  (** protogen.hh:382-384 *)
  Record gtok := GTK { gk_cur : token; gk_in : ST; gk_err : errinfo }.
  Definition gk_id (t : gtok) : token_id := t_id (gk_cur t).

  (** protogen.hh:386-401 *)
  Fixpoint g_identifier (n : nat) (s : ST) (value : bytes) : option (bytes * ST) :=
    match n with
    | O => None
    | S n' =>
        let? e := so_eof ops s in
        if e then Some (value, s)
        else let? c := so_peek ops s in
             if is_alpha_z c then let? s1 := so_next ops s in g_identifier n' s1 (value ++ [chr c])
             else Some (value, s)
    end.

  (** protogen.hh:453-463; the inner [None] stands for [return false]. *)
  Fixpoint g_hex (k : nat) (s : ST) (acc : Z) : option (option Z * ST) :=
    match k with
    | O => Some (Some acc, s)
    | S k' =>
        let? s1 := so_next ops s in
        let? c := so_peek ops s1 in
        if is_hex_z c then g_hex k' s1 (16 * acc + hex_val c) else Some (None, s1)
    end.

  (** protogen.hh:451-510 *)
  Definition g_escaped_utf8 (s : ST) (value : bytes) (lead : Z)
    : option (option (bytes * Z) * ST) :=
    let? hs := g_hex 4 s 0 in
    match hs with
    | (None, s') => Some (None, s')
    | (Some cp, s') =>
        Some (
        if (55296 <=? cp) && (cp <=? 56319) then (Some (value, cp), s')
        else if (56320 <=? cp) && (cp <=? 57343) then
          if lead =? 0 then (None, s')
          else
            let cp2 := Z.shiftl lead 10 + cp + SURROGATE_OFFSET in
            (Some (value ++ [ chr (Z.lor 240 (Z.land (Z.shiftr cp2 18) 7));
                              chr (Z.lor 128 (Z.land (Z.shiftr cp2 12) 63));
                              chr (Z.lor 128 (Z.land (Z.shiftr cp2 6) 63));
                              chr (Z.lor 128 (Z.land cp2 63)) ], 0), s')
        else if (128 <=? cp) && (cp <=? 2047) then
          (Some (value ++ [ chr (Z.lor 192 (Z.land (Z.shiftr cp 6) 31));
                            chr (Z.lor 128 (Z.land cp 63)) ], 0), s')
        else if (2048 <=? cp) && (cp <=? 65535) then
          (Some (value ++ [ chr (Z.lor 224 (Z.land (Z.shiftr cp 12) 15));
                            chr (Z.lor 128 (Z.land (Z.shiftr cp 6) 63));
                            chr (Z.lor 128 (Z.land cp 63)) ], 0), s')
        else (None, s'))
    end.

  (** protogen.hh:410-448 *)
  Fixpoint g_string_loop (n : nat) (s : ST) (lead : Z) (value : bytes) (line col : Z)
    : option (token * ST) :=
    match n with
    | O => None
    | S n' =>
        let? e := so_eof ops s in
        if e then Some (Tok T_NONE [] line col, s)
        else
          let? s1 := so_next ops s in
          let? c := so_peek ops s1 in
          if c =? 34 then let? s2 := so_next ops s1 in Some (Tok T_STRING value 0 0, s2)
          else if c =? 92 then
            let? s2 := so_next ops s1 in
            let? c2 := so_peek ops s2 in
            match short_escape c2 with
            | Some x => g_string_loop n' s2 lead (value ++ [x]) line col
            | None =>
                if c2 =? 117 then
                  let? u := g_escaped_utf8 s2 value lead in
                  match u with
                  | (Some (value', lead'), s3) => g_string_loop n' s3 lead' value' line col
                  | (None, s3) => Some (Tok T_NONE [] line col, s3)
                  end
                else Some (Tok T_NONE [] line col, s2)
            end
          else if c =? 0 then Some (Tok T_NONE [] line col, s1)
          else g_string_loop n' s1 lead (value ++ [chr c]) line col
    end.

  (** protogen.hh:403-449 *)
  Definition g_string (n : nat) (s : ST) : option (token * ST) :=
    let? c := so_peek ops s in
    if c =? 34 then g_string_loop n s 0 [] (so_line ops s) (so_col ops s)
    else Some (Tok T_NONE [] (so_line ops s) (so_col ops s), s).

  (** protogen.hh:527-537 *)
  Fixpoint g_number_loop (n : nat) (s : ST) (value : bytes) : option (bytes * ST) :=
    match n with
    | O => None
    | S n' =>
        let? e := so_eof ops s in
        if e then Some (value, s)
        else let? c := so_peek ops s in
             if is_num_z c then let? s1 := so_next ops s in g_number_loop n' s1 (value ++ [chr c])
             else Some (value, s)
    end.

  (** protogen.hh:522-539 *)
  Definition g_number (n : nat) (s : ST) : option (token * ST) :=
    let? vs := g_number_loop n s [] in
    let (v, s') := vs in Some (Tok T_NUMBER v (so_line ops s) (so_col ops s), s').

  (** protogen.hh:300-354 *)
  Fixpoint g_next_loop (n : nat) (s : ST) : option (token * ST) :=
    match n with
    | O => None
    | S n' =>
        let? e := so_eof ops s in
        if e then Some (Tok T_EOS [] (so_line ops s) (so_col ops s), s)
        else
          let? c := so_peek ops s in
          let line := so_line ops s in
          let col := so_col ops s in
          if is_ws_z c then let? s1 := so_next ops s in g_next_loop n' s1
          else match punct c with
          | Some id => let? s1 := so_next ops s in Some (Tok id [] line col, s1)
          | None =>
              if c =? 34 then g_string n' s
              else if is_num_start_z c then g_number n' s
              else let? vs := g_identifier n' s [] in
                   let (v, s') := vs in
                   if bytes_eqb v (b "true") then Some (Tok T_BTRUE [] line col, s')
                   else if bytes_eqb v (b "false") then Some (Tok T_BFALSE [] line col, s')
                   else if bytes_eqb v (b "null") then Some (Tok T_NIL [] line col, s')
                   else Some (Tok T_NONE [] line col, s')
          end
    end.

  Definition g_next (n : nat) (t : gtok) : option gtok :=
    let? r := g_next_loop n (gk_in t) in let (tok, s) := r in Some (GTK tok s (gk_err t)).

  (** protogen.hh:292-295 *)
  Definition g_make (n : nat) (s : ST) (err : errinfo) : option gtok :=
    g_next n (GTK (Tok T_NONE [] 0 0) s err).

  (** protogen.hh:356-364 *)
  Definition g_expect (n : nat) (id : token_id) (t : gtok) : option (bool * gtok) :=
    if tid_eqb (gk_id t) id then let? t' := g_next n t in Some (true, t')
    else Some (false, t).

  (** protogen.hh:365-374 *)
  Definition g_error (c : error_code) (msg : bytes) (t : gtok) : gtok :=
    match e_code (gk_err t) with
    | PGERR_OK => GTK (gk_cur t) (gk_in t) (EI c msg (t_line (gk_cur t)) (t_col (gk_cur t)))
    | _ => t
    end.

  Definition g_ign_fail (msg : bytes) (t : gtok) : option (pgr * gtok) :=
    Some (PGR_ERROR, g_error PGERR_IGNORE_FAILED msg t).

  (** protogen.hh:541-602 *)
  Fixpoint g_ignore_value (n : nat) (t : gtok) {struct n} : option (pgr * gtok) :=
    match n with
    | O => None
    | S n' =>
        match gk_id t with
        | T_NONE | T_EOS => g_ign_fail (b "end of stream") t
        | T_OBJS => let? t1 := g_next n' t in g_ignore_object_loop n' t1
        | T_ARRS => let? t1 := g_next n' t in g_ignore_array_loop n' t1
        | T_STRING | T_NUMBER | T_NIL | T_BTRUE | T_BFALSE =>
            let? t1 := g_next n' t in
            match gk_id t1 with
            | T_NONE | T_EOS => g_ign_fail (b "end of stream") t1
            | _ => Some (PGR_OK, t1)
            end
        | _ => g_ign_fail (b "invalid value") t
        end
    end
  with g_ignore_array_loop (n : nat) (t : gtok) {struct n} : option (pgr * gtok) :=
    match n with
    | O => None
    | S n' =>
        let finish t :=
          match g_expect n' T_ARRE t with
          | None => None
          | Some (true, t') => Some (PGR_OK, t')
          | Some (false, t') => g_ign_fail (b "invalid array") t'
          end in
        if tid_eqb (gk_id t) T_ARRE then finish t
        else match g_ignore_value n' t with
             | None => None
             | Some (PGR_OK, t1) =>
                 match g_expect n' T_COMMA t1 with
                 | None => None
                 | Some (true, t2) => g_ignore_array_loop n' t2
                 | Some (false, t2) => finish t2
                 end
             | Some (r, t1) => Some (r, t1)
             end
    end
  with g_ignore_object_loop (n : nat) (t : gtok) {struct n} : option (pgr * gtok) :=
    match n with
    | O => None
    | S n' =>
        let finish t :=
          match g_expect n' T_OBJE t with
          | None => None
          | Some (true, t') => Some (PGR_OK, t')
          | Some (false, t') => g_ign_fail (b "invalid object") t'
          end in
        if tid_eqb (gk_id t) T_OBJE then finish t
        else match g_expect n' T_STRING t with
             | None => None
             | Some (false, t1) => g_ign_fail (b "expected field name") t1
             | Some (true, t1) =>
                 match g_expect n' T_COLON t1 with
                 | None => None
                 | Some (false, t2) => g_ign_fail (b "expected colon") t2
                 | Some (true, t2) =>
                     match g_ignore_value n' t2 with
                     | None => None
                     | Some (PGR_OK, t3) =>
                         match g_expect n' T_COMMA t3 with
                         | None => None
                         | Some (true, t4) => g_ignore_object_loop n' t4
                         | Some (false, t4) => finish t4
                         end
                     | Some (r, t3) => Some (r, t3)
                     end
                 end
             end
    end.

  (** ** Readers (see [Read.v]) *)
  Definition gres (A : Type) : Type := option (pgr * A * gtok).

  Definition g_fail {A} (c : error_code) (msg : bytes) (v : A) (t : gtok) : gres A :=
    Some (PGR_ERROR, v, g_error c msg t).

  (** json-number.hh:145-154 and 169-178 *)
  Definition g_read_prim (n : nat) (p : prim) (t : gtok) (v : pval) : gres pval :=
    match gk_id t with
    | T_NIL => Some (PGR_NIL, v, t)
    | id =>
        match p with
        | PBool =>
            match id with
            | T_BTRUE | T_BFALSE =>
                let? t1 := g_next n t in Some (PGR_OK, VBool (tid_eqb id T_BTRUE), t1)
            | _ => g_fail PGERR_INVALID_VALUE (b "invalid boolean value") v t
            end
        | _ =>
            match id with
            | T_NUMBER =>
                let v' := string_to_prim p (t_val (gk_cur t)) in
                let? t1 := g_next n t in Some (PGR_OK, v', t1)
            | _ => g_fail PGERR_INVALID_VALUE (b "invalid numeric value") v t
            end
        end
    end.

  (** json-number.hh:117-125 *)
  Definition g_read_fieldnum (n : nat) (p : prim) (t : gtok) (em : bool) (v : pval) : gres val :=
    match g_read_prim n p t (pzero p) with
    | None => None
    | Some (PGR_NIL, _, t1) => Some (PGR_NIL, VField em v, t1)
    | Some (r, temp, t1) => Some (r, VField false temp, t1)
    end.

  (** json-string.hh:50-58 *)
  Definition g_read_string (n : nat) (t : gtok) (v : bytes) : gres bytes :=
    match gk_id t with
    | T_NIL => Some (PGR_NIL, v, t)
    | _ =>
        let value := t_val (gk_cur t) in
        match g_expect n T_STRING t with
        | None => None
        | Some (false, t1) => g_fail PGERR_INVALID_VALUE (b "invalid string value") v t1
        | Some (true, t1) => Some (PGR_OK, value, t1)
        end
    end.

  (** json-string.hh:157-165 *)
  Definition g_read_strfield (n : nat) (t : gtok) (null : bool) (s : bytes) : gres val :=
    match g_read_string n t [] with
    | None => None
    | Some (r, temp, t1) =>
        let is_nil := match r with PGR_NIL => true | _ => false end in
        let '(null', s') := sf_assign_string temp (sf_set_empty is_nil (null, s)) in
        Some (r, VStr null' s', t1)
    end.

  (** json-base64.hh:60-101 *)
  Definition g_read_b64 (n : nat) (t : gtok) (v : bytes) : gres val :=
    match gk_id t with
    | T_NIL => Some (PGR_NIL, VB64 v, t)
    | T_STRING =>
        let text := t_val (gk_cur t) in
        match g_next n t with
        | None => None
        | Some t1 =>
            let '(o, bad) := g_b64_decode pc (cstr text) in
            let t2 := if bad then g_error PGERR_INVALID_OBJECT (b "invalid base64 data") t1 else t1 in
            Some (PGR_OK, VB64 (v ++ o), t2)
        end
    | _ => g_fail PGERR_INVALID_OBJECT (b "invalid string") (VB64 v) t
    end.

  (** json-array.hh:45-58 *)
  Fixpoint g_array_loop (n : nat) (nf : nat) (rd : gtok -> val -> gres val) (d : val)
           (t : gtok) (l : list val) {struct n} : gres (list val) :=
    match n with
    | O => None
    | S n' =>
        match rd t d with
        | None => None
        | Some (PGR_ERROR, _, t1) => Some (PGR_ERROR, l, t1)
        | Some (r, x, t1) =>
            let l1 := match r with PGR_OK => l ++ [x] | _ => l end in
            match g_expect nf T_COMMA t1 with
            | None => None
            | Some (true, t2) => g_array_loop n' nf rd d t2 l1
            | Some (false, t2) =>
                match g_expect nf T_ARRE t2 with
                | None => None
                | Some (true, t3) => Some (PGR_OK, l1, t3)
                | Some (false, t3) => g_fail PGERR_INVALID_ARRAY (b "invalid array") l1 t3
                end
            end
        end
    end.

  (** json-array.hh:38-61 *)
  Definition g_read_array (n : nat) (rd : gtok -> val -> gres val) (d : val)
             (t : gtok) (l : list val) : gres (list val) :=
    match gk_id t with
    | T_NIL => Some (PGR_NIL, l, t)
    | _ =>
        match g_expect n T_ARRS t with
        | None => None
        | Some (false, t1) => g_fail PGERR_INVALID_ARRAY (b "invalid array") l t1
        | Some (true, t1) =>
            match g_expect n T_ARRE t1 with
            | None => None
            | Some (true, t2) => Some (PGR_OK, l, t2)
            | Some (false, t2) => g_array_loop n n rd d t2 l
            end
        end
    end.

  (** json.hh:41-58 *)
  Fixpoint g_object_loop (n : nat) (nf : nat)
           (rf : bytes -> gtok -> list val -> gres (list val))
           (t : gtok) (vs : list val) {struct n} : gres (list val) :=
    match n with
    | O => None
    | S n' =>
        let name := t_val (gk_cur t) in
        match g_expect nf T_STRING t with
        | None => None
        | Some (false, t1) => g_fail PGERR_INVALID_NAME (b "object key must be string") vs t1
        | Some (true, t1) =>
            match g_expect nf T_COLON t1 with
            | None => None
            | Some (false, t2) =>
                g_fail PGERR_INVALID_SEPARATOR (b "field name and value must be separated by ':'") vs t2
            | Some (true, t2) =>
                match rf name t2 vs with
                | None => None
                | Some (PGR_ERROR, vs1, t3) => Some (PGR_ERROR, vs1, t3)
                | Some (r, vs1, t3) =>
                    match (match r with PGR_OK => Some (PGR_OK, t3) | _ => g_ignore_value nf t3 end) with
                    | None => None
                    | Some (PGR_ERROR, t4) => Some (PGR_ERROR, vs1, t4)
                    | Some (_, t4) =>
                        match g_expect nf T_COMMA t4 with
                        | None => None
                        | Some (true, t5) => g_object_loop n' nf rf t5 vs1
                        | Some (false, t5) =>
                            match g_expect nf T_OBJE t5 with
                            | None => None
                            | Some (true, t6) => Some (PGR_OK, vs1, t6)
                            | Some (false, t6) =>
                                g_fail PGERR_INVALID_OBJECT (b "invalid JSON object") vs1 t6
                            end
                        end
                    end
                end
            end
        end
    end.

  (** json.hh:33-61 *)
  Definition g_read_object (n : nat) (rf : bytes -> gtok -> list val -> gres (list val))
             (t : gtok) (vs : list val) : gres (list val) :=
    match gk_id t with
    | T_NIL => Some (PGR_NIL, vs, t)
    | _ =>
        match g_expect n T_OBJS t with
        | None => None
        | Some (false, t1) => g_fail PGERR_INVALID_OBJECT (b "objects must start with '{'") vs t1
        | Some (true, t1) =>
            match g_expect n T_OBJE t1 with
            | None => None
            | Some (true, t2) => Some (PGR_OK, vs, t2)
            | Some (false, t2) => g_object_loop n n rf t2 vs
            end
        end
    end.

  (** code.txt:69-85 *)
  Definition g_read_member (g : gencode) (rds : list (gtok -> val -> gres val))
             (name : bytes) (t : gtok) (vs : list val) : gres (list val) :=
    match select_member g name with
    | None => Some (PGR_NIL, vs, t)
    | Some k =>
        match nth_error rds k, nth_error vs k with
        | Some rd, Some v =>
            match rd t v with
            | None => None
            | Some (r, v', t1) => Some (r, set_nth k v' vs, t1)
            end
        | _, _ => Some (PGR_NIL, vs, t)
        end
    end.

  Definition g_map {A B} (f : A -> B) (r : gres A) : gres B :=
    match r with
    | None => None
    | Some (s, v, t) => Some (s, f v, t)
    end.

  (** [json<T>::read] *)
  Fixpoint g_read (n : nat) (ty0 : ty) {struct ty0} : gtok -> val -> gres val :=
    match ty0 with
    | TPrim p => fun t v =>
        match v with VPrim x => g_map VPrim (g_read_prim n p t x) | _ => Some (PGR_ERROR, v, t) end
    | TField p => fun t v =>
        match v with VField em x => g_read_fieldnum n p t em x | _ => Some (PGR_ERROR, v, t) end
    | TStr => fun t v =>
        match v with VStr null s => g_read_strfield n t null s | _ => Some (PGR_ERROR, v, t) end
    | TB64 => fun t v =>
        match v with VB64 s => g_read_b64 n t s | _ => Some (PGR_ERROR, v, t) end
    | TRep t' => fun t v =>
        match v with
        | VList l => g_map VList (g_read_array n (g_read n t') (dflt t') t l)
        | _ => Some (PGR_ERROR, v, t)
        end
    | TMsg ms g => fun t v =>
        match v with
        | VMsg vs => g_map VMsg (g_read_object n (g_read_member g (map (g_read n) ms)) t vs)
        | _ => Some (PGR_ERROR, v, t)
        end
    end.

  (** json.hh:74-87, json-array.hh:84-98 *)
  Definition g_deserialize (n : nat) (ty0 : ty) (v : val) (s : ST) (po : option params)
    : option (bool * val * option params) :=
    let po1 := clear_params po in
    match g_make n s (p_err (ctx_params po)) with
    | None => None
    | Some t =>
        match g_read n ty0 t v with
        | None => None
        | Some (PGR_OK, v', _) => Some (true, v', po1)
        | Some (_, v', t') => Some (false, v', params_set_err po1 (gk_err t'))
        end
    end.
End Gen.

(** ** Iterators

    What [iterator_istream<I>] needs of an iterator.  [None] is undefined
    behaviour. *)
Record iter_ops (IT : Type) := IO {
  it_eq : IT -> IT -> bool;
  it_deref : IT -> option ascii;
  it_incr : IT -> option IT
}.
Arguments it_eq {IT}. Arguments it_deref {IT}. Arguments it_incr {IT}.

(** [iterator_istream<I>] (protogen.hh:157-193). *)
Record iter_istream (IT : Type) := IIS { ii_beg : IT; ii_end : IT; ii_line : Z; ii_col : Z }.
Arguments IIS {IT}. Arguments ii_beg {IT}. Arguments ii_end {IT}. Arguments ii_line {IT}. Arguments ii_col {IT}.

Section Iter.
  Context {IT : Type} (pc : ascii -> Z) (io : iter_ops IT).

  (** protogen.hh:184-192, [skip]; out of fuel is [None]. *)
  Fixpoint ii_skip (fuel : nat) (s : iter_istream IT) : option (iter_istream IT) :=
    match fuel with
    | O => None
    | S f =>
        if it_eq io (ii_beg s) (ii_end s) then Some s
        else let? c := it_deref io (ii_beg s) in
             if Ascii.eqb c LF
             then let? i := it_incr io (ii_beg s) in
                  ii_skip f (IIS i (ii_end s) (ii_line s + 1) 1)
             else Some s
    end.

  (** protogen.hh:161-165 *)
  Definition ii_make (fuel : nat) (first last : IT) : option (iter_istream IT) :=
    ii_skip fuel (IIS first last 1 1).

  (** protogen.hh:166-170 *)
  Definition ii_peek (s : iter_istream IT) : option Z :=
    if it_eq io (ii_beg s) (ii_end s) then Some 0
    else option_map pc (it_deref io (ii_beg s)).

  (** protogen.hh:171-177 *)
  Definition ii_next (fuel : nat) (s : iter_istream IT) : option (iter_istream IT) :=
    if it_eq io (ii_beg s) (ii_end s) then Some s
    else let? i := it_incr io (ii_beg s) in
         ii_skip fuel (IIS i (ii_end s) (ii_line s) (ii_col s + 1)).

  (** protogen.hh:178 *)
  Definition ii_eof (s : iter_istream IT) : bool := it_eq io (ii_beg s) (ii_end s).

  Definition ii_ops (fuel : nat) : stream_ops (iter_istream IT) :=
    SO (iter_istream IT) ii_peek (ii_next fuel) (fun s => Some (ii_eof s)) ii_line ii_col.

  (** The body of the overloads (protogen.hh:639-667) after the iterators exist.
      [fuel] is for the loop that skips line feeds. *)
  Definition deserialize_iter (fuel n : nat) (ty0 : ty) (v : val) (first last : IT) (po : option params)
    : option (bool * val * option params) :=
    let? s := ii_make fuel first last in g_deserialize pc (ii_ops fuel) n ty0 v s po.
End Iter.

(** ** [mem_const_iterator<char>] (protogen.hh:195-221)

    The memory is an array [mem] of bytes; addresses are indices.  [mci_cur] and
    [mci_end] are [cursor] and [end].  Dereferencing outside the array is undefined
    behaviour. *)
Record mem_citer := MCI { mci_cur : nat; mci_end : nat }.

(** protogen.hh:200-202, constructor from pointer and count. *)
Definition mci_make (beg count : nat) : mem_citer := MCI beg (beg + count).

(** protogen.hh:203-207, [operator++]. *)
Definition mci_incr (it : mem_citer) : mem_citer :=
  if Nat.ltb (mci_cur it) (mci_end it)
  then MCI (S (mci_cur it)) (mci_end it) else it.

(** protogen.hh:208-212, [operator*]: [empty] (0) at the end, no load.  The load is
    undefined outside the readable addresses [lo .. hi). *)
Definition mci_deref (lo hi : nat) (mem : bytes) (it : mem_citer) : option ascii :=
  if Nat.leb (mci_end it) (mci_cur it) then Some NUL
  else if Nat.leb lo (mci_cur it) && Nat.ltb (mci_cur it) hi then nth_error mem (mci_cur it) else None.

(** protogen.hh:213-216, [operator==]. *)
Definition mci_eq (x y : mem_citer) : bool := Nat.eqb (mci_cur x) (mci_cur y).

Definition mem_iops (lo hi : nat) (mem : bytes) : iter_ops mem_citer :=
  IO mem_citer mci_eq (mci_deref lo hi mem) (fun i => Some (mci_incr i)).

(** protogen.hh:655-661, [deserialize(const char *in, size_t len, ...)].  Only the
    addresses [inp .. inp + len) are readable. *)
Definition deserialize_mem (pc : ascii -> Z) (fuel n : nat) (ty0 : ty) (v : val) (mem : bytes) (inp len : nat)
           (po : option params) : option (bool * val * option params) :=
  deserialize_iter pc (mem_iops inp (inp + len) mem) fuel n ty0 v
    (mci_make inp len) (mci_make (inp + len) 0) po.

(** ** [std::string::const_iterator] and [std::vector<char>::const_iterator]

    A position in the container; [*] and [++] at the end are undefined. *)
Definition pos_iops (inp : bytes) : iter_ops nat :=
  IO nat Nat.eqb (nth_error inp) (fun i => if Nat.ltb i (length inp) then Some (S i) else None).

(** protogen.hh:649-653 and 663-667. *)
Definition deserialize_container (pc : ascii -> Z) (fuel n : nat) (ty0 : ty) (v : val) (inp : bytes) (po : option params)
  : option (bool * val * option params) :=
  deserialize_iter pc (pos_iops inp) fuel n ty0 v 0%nat (length inp) po.

(** ** [std::istream_iterator<char>]

    [None]: the end-of-stream iterator.  [Some (c, r)]: the character read last and
    what the stream still has.  Construction and [++] extract one character
    ([noskipws], protogen.hh:642) and become the end iterator when that fails.  Two
    iterators that are not at the end are equal (same stream); [*] and [++] at the
    end are undefined. *)
Definition sii_make (rest : bytes) : option (ascii * bytes) :=
  match rest with [] => None | c :: r => Some (c, r) end.

Definition sii_iops : iter_ops (option (ascii * bytes)) :=
  IO (option (ascii * bytes))
    (fun x y => match x, y with None, None => true | Some _, Some _ => true | _, _ => false end)
    (option_map fst)
    (fun x => match x with None => None | Some (_, r) => Some (sii_make r) end).

(** protogen.hh:637-647 *)
Definition deserialize_stream (pc : ascii -> Z) (fuel n : nat) (ty0 : ty) (v : val) (inp : bytes) (po : option params)
  : option (bool * val * option params) :=
  deserialize_iter pc sii_iops fuel n ty0 v (sii_make inp) None po.
