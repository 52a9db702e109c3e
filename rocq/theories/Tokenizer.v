(** Model of [internal::tokenizer] (source/cpp/protogen.hh:289-603). *)
From Verif Require Import Bytes Stream.

(** protogen.hh:35-45. *)
Inductive error_code :=
  | PGERR_OK | PGERR_IGNORE_FAILED | PGERR_MISSING_FIELD | PGERR_INVALID_SEPARATOR
  | PGERR_INVALID_VALUE | PGERR_INVALID_OBJECT | PGERR_INVALID_NAME | PGERR_INVALID_ARRAY.

(** protogen.hh:47-52. *)
Inductive pgr := PGR_OK | PGR_ERROR | PGR_NIL.

(** protogen.hh:54-86, [ErrorInfo]. *)
Record errinfo := EI { e_code : error_code; e_msg : bytes; e_line : Z; e_col : Z }.

(** protogen.hh:60 and 80-85: default constructor and [clear]. *)
Definition err_clear : errinfo := EI PGERR_OK [] 0 0.

(** protogen.hh:255-259. *)
Inductive token_id :=
  | T_NONE | T_EOS | T_OBJS | T_OBJE | T_COLON | T_COMMA | T_STRING | T_ARRS
  | T_ARRE | T_NIL | T_BTRUE | T_BFALSE | T_NUMBER.

Definition tid_eqb (x y : token_id) : bool :=
  match x, y with
  | T_NONE, T_NONE | T_EOS, T_EOS | T_OBJS, T_OBJS | T_OBJE, T_OBJE
  | T_COLON, T_COLON | T_COMMA, T_COMMA | T_STRING, T_STRING | T_ARRS, T_ARRS
  | T_ARRE, T_ARRE | T_NIL, T_NIL | T_BTRUE, T_BTRUE | T_BFALSE, T_BFALSE
  | T_NUMBER, T_NUMBER => true
  | _, _ => false
  end.

(** protogen.hh:261-287. *)
Record token := Tok { t_id : token_id; t_val : bytes; t_line : Z; t_col : Z }.

(** The tokenizer: [current_], [input_] and the error record it refers to
    (protogen.hh:382-384; [error_] aliases [ctx.params.error]). *)
Record tokenizer := TK { tk_cur : token; tk_in : istream; tk_err : errinfo }.

(** ** Lexical functions.  [None] means the fuel is exhausted. *)

(** protogen.hh:392 *)
Definition is_alpha_z (c : Z) : bool :=
  ((65 <=? c) && (c <=? 90)) || ((97 <=? c) && (c <=? 122)).

(** protogen.hh:386-401, [parse_identifier]. *)
Fixpoint parse_identifier (n : nat) (s : istream) (value : bytes) : option (bytes * istream) :=
  match n with
  | O => None
  | S n' =>
      if is_eof s then Some (value, s)
      else let c := is_peek s in
           if is_alpha_z c then parse_identifier n' (is_next s) (value ++ [chr c])
           else Some (value, s)
  end.

(** protogen.hh:458 *)
Definition is_hex_z (c : Z) : bool :=
  ((48 <=? c) && (c <=? 57)) || ((65 <=? c) && (c <=? 70)) || ((97 <=? c) && (c <=? 102)).

(** One digit of [strtol(temp, nullptr, 16)], protogen.hh:463. *)
Definition hex_val (c : Z) : Z :=
  if c <=? 57 then c - 48 else if c <=? 70 then c - 55 else c - 87.

(** protogen.hh:453-463: reads [k] more hexadecimal digits; [None] stands for
    [return false], the stream position being kept for the caller. *)
Fixpoint read_hex (k : nat) (s : istream) (acc : Z) : option Z * istream :=
  match k with
  | O => (Some acc, s)
  | S k' =>
      let s1 := is_next s in
      let c := is_peek s1 in
      if is_hex_z c then read_hex k' s1 (16 * acc + hex_val c) else (None, s1)
  end.

(** protogen.hh:479, [SURROGATE_OFFSET]. *)
Definition SURROGATE_OFFSET : Z := 65536 - Z.shiftl 55296 10 - 56320.

(** protogen.hh:451-510, [parse_escaped_utf8]: new value, new lead, stream, or
    [None] for [return false]. *)
Definition parse_escaped_utf8 (s : istream) (value : bytes) (lead : Z)
  : option (bytes * Z) * istream :=
  match read_hex 4 s 0 with
  | (None, s') => (None, s')
  | (Some cp, s') =>
      if (55296 <=? cp) && (cp <=? 56319) then (Some (value, cp), s')
      else if (56320 <=? cp) && (cp <=? 57343) then
        if lead =? 0 then (None, s')
        else
          let cp2 := Z.shiftl lead 10 + cp + SURROGATE_OFFSET in
          (Some (value ++ [ chr (Z.lor 240 (Z.land (Z.shiftr cp2 18) 7));
                            chr (Z.lor 128 (Z.land (Z.shiftr cp2 12) 63));
                            chr (Z.lor 128 (Z.land (Z.shiftr cp2 6) 63));
                            chr (Z.lor 128 (Z.land cp2 63)) ], 0), s')
      else if (128 <=? cp) && (cp <=? 2047) then
        (Some (value ++ [ chr (Z.lor 192 (Z.land (Z.shiftr cp 6) 31));
                          chr (Z.lor 128 (Z.land cp 63)) ], 0), s')
      else if (2048 <=? cp) && (cp <=? 65535) then
        (Some (value ++ [ chr (Z.lor 224 (Z.land (Z.shiftr cp 12) 15));
                          chr (Z.lor 128 (Z.land (Z.shiftr cp 6) 63));
                          chr (Z.lor 128 (Z.land cp 63)) ], 0), s')
      else (None, s')
  end.

(** Short escapes, protogen.hh:425-432; the character after the backslash. *)
Definition short_escape (c : Z) : option ascii :=
  if c =? 34 then Some (chr 34)           (* double quote *)
  else if c =? 92 then Some (chr 92)      (* backslash *)
  else if c =? 47 then Some (chr 47)      (* slash *)
  else if c =? 98 then Some (chr 8)       (* b *)
  else if c =? 102 then Some (chr 12)     (* f *)
  else if c =? 114 then Some (chr 13)     (* r *)
  else if c =? 110 then Some (chr 10)     (* n *)
  else if c =? 116 then Some (chr 9)      (* t *)
  else None.

(** protogen.hh:410-448: the loop of [parse_string]. *)
Fixpoint parse_string_loop (n : nat) (s : istream) (lead : Z) (value : bytes) (line col : Z)
  : option (token * istream) :=
  match n with
  | O => None
  | S n' =>
      if is_eof s then Some (Tok T_NONE [] line col, s)
      else
        let s1 := is_next s in
        let c := is_peek s1 in
        if c =? 34 then Some (Tok T_STRING value 0 0, is_next s1)
        else if c =? 92 then
          let s2 := is_next s1 in
          let c2 := is_peek s2 in
          match short_escape c2 with
          | Some x => parse_string_loop n' s2 lead (value ++ [x]) line col
          | None =>
              if c2 =? 117 then
                match parse_escaped_utf8 s2 value lead with
                | (Some (value', lead'), s3) => parse_string_loop n' s3 lead' value' line col
                | (None, s3) => Some (Tok T_NONE [] line col, s3)
                end
              else Some (Tok T_NONE [] line col, s2)
          end
        else if c =? 0 then Some (Tok T_NONE [] line col, s1)
        else parse_string_loop n' s1 lead (value ++ [chr c]) line col
  end.

(** protogen.hh:403-449, [parse_string].  The entry test (409) is kept. *)
Definition parse_string (n : nat) (s : istream) : option (token * istream) :=
  if is_peek s =? 34 then parse_string_loop n s 0 [] (is_line s) (is_col s)
  else Some (Tok T_NONE [] (is_line s) (is_col s), s).

(** protogen.hh:530 *)
Definition is_num_z (c : Z) : bool :=
  (c =? 46) || ((48 <=? c) && (c <=? 57)) || (c =? 101) || (c =? 69) || (c =? 43) || (c =? 45).

(** protogen.hh:527-537: the loop of [parse_number]. *)
Fixpoint parse_number_loop (n : nat) (s : istream) (value : bytes) : option (bytes * istream) :=
  match n with
  | O => None
  | S n' =>
      if is_eof s then Some (value, s)
      else let c := is_peek s in
           if is_num_z c then parse_number_loop n' (is_next s) (value ++ [chr c])
           else Some (value, s)
  end.

(** protogen.hh:522-539, [parse_number]. *)
Definition parse_number (n : nat) (s : istream) : option (token * istream) :=
  match parse_number_loop n s [] with
  | Some (v, s') => Some (Tok T_NUMBER v (is_line s) (is_col s), s')
  | None => None
  end.

(** Single-character tokens, protogen.hh:318-329. *)
Definition punct (c : Z) : option token_id :=
  if c =? 123 then Some T_OBJS
  else if c =? 125 then Some T_OBJE
  else if c =? 91 then Some T_ARRS
  else if c =? 93 then Some T_ARRE
  else if c =? 58 then Some T_COLON
  else if c =? 44 then Some T_COMMA
  else None.

(** protogen.hh:312-315 *)
Definition is_ws_z (c : Z) : bool := (c =? 32) || (c =? 9) || (c =? 13) || (c =? 10).

(** protogen.hh:332-342 *)
Definition is_num_start_z (c : Z) : bool := (c =? 45) || ((48 <=? c) && (c <=? 57)).

(** protogen.hh:300-354, [next]: the new current token and the stream after it. *)
Fixpoint next_loop (n : nat) (s : istream) : option (token * istream) :=
  match n with
  | O => None
  | S n' =>
      if is_eof s then Some (Tok T_EOS [] (is_line s) (is_col s), s)
      else
        let c := is_peek s in
        let line := is_line s in
        let col := is_col s in
        if is_ws_z c then next_loop n' (is_next s)
        else match punct c with
        | Some id => Some (Tok id [] line col, is_next s)
        | None =>
            if c =? 34 then parse_string n' s
            else if is_num_start_z c then parse_number n' s
            else match parse_identifier n' s [] with
                 | None => None
                 | Some (v, s') =>
                     if bytes_eqb v (b "true") then Some (Tok T_BTRUE [] line col, s')
                     else if bytes_eqb v (b "false") then Some (Tok T_BFALSE [] line col, s')
                     else if bytes_eqb v (b "null") then Some (Tok T_NIL [] line col, s')
                     else Some (Tok T_NONE [] line col, s')
                 end
        end
  end.

Definition tk_next (n : nat) (t : tokenizer) : option tokenizer :=
  match next_loop n (tk_in t) with
  | Some (tok, s) => Some (TK tok s (tk_err t))
  | None => None
  end.

(** protogen.hh:292-295, constructor: the error record is that of the context. *)
Definition tk_make (n : nat) (s : istream) (err : errinfo) : option tokenizer :=
  tk_next n (TK (Tok T_NONE [] 0 0) s err).

Definition tk_id (t : tokenizer) : token_id := t_id (tk_cur t).

(** protogen.hh:356-364, [expect]. *)
Definition tk_expect (n : nat) (id : token_id) (t : tokenizer) : option (bool * tokenizer) :=
  if tid_eqb (tk_id t) id then
    match tk_next n t with Some t' => Some (true, t') | None => None end
  else Some (false, t).

(** protogen.hh:365-374, [error]: the first error is kept. *)
Definition tk_error (c : error_code) (msg : bytes) (t : tokenizer) : tokenizer :=
  match e_code (tk_err t) with
  | PGERR_OK => TK (tk_cur t) (tk_in t) (EI c msg (t_line (tk_cur t)) (t_col (tk_cur t)))
  | _ => t
  end.

(** ** Skipping values: [ignore_value], [ignore_array], [ignore_object]
    (protogen.hh:541-602).  The C++ compares the [parse_error] results with
    [PGERR_OK]; both enumerations give 0 to OK. *)
Definition ign_fail (msg : bytes) (t : tokenizer) : option (pgr * tokenizer) :=
  Some (PGR_ERROR, tk_error PGERR_IGNORE_FAILED msg t).

Fixpoint ignore_value (n : nat) (t : tokenizer) {struct n} : option (pgr * tokenizer) :=
  match n with
  | O => None
  | S n' =>
      match tk_id t with
      | T_NONE | T_EOS => ign_fail (b "end of stream") t
      | T_OBJS => (* 557-560 *)
          match tk_next n' t with
          | None => None
          | Some t1 => ignore_object_loop n' t1
          end
      | T_ARRS => (* 541-544 *)
          match tk_next n' t with
          | None => None
          | Some t1 => ignore_array_loop n' t1
          end
      | T_STRING | T_NUMBER | T_NIL | T_BTRUE | T_BFALSE =>
          match tk_next n' t with
          | None => None
          | Some t1 =>
              match tk_id t1 with
              | T_NONE | T_EOS => ign_fail (b "end of stream") t1
              | _ => Some (PGR_OK, t1)
              end
          end
      | _ => ign_fail (b "invalid value") t
      end
  end

(** protogen.hh:546-554 *)
with ignore_array_loop (n : nat) (t : tokenizer) {struct n} : option (pgr * tokenizer) :=
  match n with
  | O => None
  | S n' =>
      let finish t :=
        match tk_expect n' T_ARRE t with
        | None => None
        | Some (true, t') => Some (PGR_OK, t')
        | Some (false, t') => ign_fail (b "invalid array") t'
        end in
      if tid_eqb (tk_id t) T_ARRE then finish t
      else match ignore_value n' t with
           | None => None
           | Some (PGR_OK, t1) =>
               match tk_expect n' T_COMMA t1 with
               | None => None
               | Some (true, t2) => ignore_array_loop n' t2
               | Some (false, t2) => finish t2
               end
           | Some (r, t1) => Some (r, t1)
           end
  end

(** protogen.hh:562-574 *)
with ignore_object_loop (n : nat) (t : tokenizer) {struct n} : option (pgr * tokenizer) :=
  match n with
  | O => None
  | S n' =>
      let finish t :=
        match tk_expect n' T_OBJE t with
        | None => None
        | Some (true, t') => Some (PGR_OK, t')
        | Some (false, t') => ign_fail (b "invalid object") t'
        end in
      if tid_eqb (tk_id t) T_OBJE then finish t
      else match tk_expect n' T_STRING t with
           | None => None
           | Some (false, t1) => ign_fail (b "expected field name") t1
           | Some (true, t1) =>
               match tk_expect n' T_COLON t1 with
               | None => None
               | Some (false, t2) => ign_fail (b "expected colon") t2
               | Some (true, t2) =>
                   match ignore_value n' t2 with
                   | None => None
                   | Some (PGR_OK, t3) =>
                       match tk_expect n' T_COMMA t3 with
                       | None => None
                       | Some (true, t4) => ignore_object_loop n' t4
                       | Some (false, t4) => finish t4
                       end
                   | Some (r, t3) => Some (r, t3)
                   end
               end
           end
  end.
