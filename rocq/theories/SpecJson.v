(** Specification of JSON texts (RFC 8259), written independently of the model.

    [jval] is the abstract value of a document.  The grammar is parameterised by
    [strict]: [true] is RFC 8259 restricted to the escapes the library supports
    (no [\u0000]..[\u007f]); [false] is a superset, in which strings may contain
    raw control characters other than NUL and LF and numbers may be any run of
    number characters that starts with a digit or a minus sign. *)
From Verif Require Import Bytes.

Inductive jval :=
  | JNull
  | JBool (x : bool)
  | JNum (text : bytes)                 (* the numeral as written *)
  | JStr (s : bytes)                    (* decoded bytes *)
  | JArr (l : list jval)
  | JObj (l : list (bytes * jval)).

(** ** White space: RFC 8259 section 2 *)
Definition ws_char (c : ascii) : bool :=
  (code c =? 32) || (code c =? 9) || (code c =? 10) || (code c =? 13).
Definition ws (w : bytes) : Prop := forallb ws_char w = true.

(** ** Numbers: RFC 8259 section 6 *)
Definition digit_char (c : ascii) : bool := (48 <=? code c) && (code c <=? 57).
Definition digits1 (d : bytes) : Prop := d <> [] /\ forallb digit_char d = true.
Definition int_part (d : bytes) : Prop :=
  d = b "0" \/ exists c r, d = c :: r /\ digit_char c = true /\ c <> "0"%char
                           /\ forallb digit_char r = true.
Definition frac_part (f : bytes) : Prop := f = [] \/ exists d, f = b "." ++ d /\ digits1 d.
Definition exp_part (e : bytes) : Prop :=
  e = [] \/ exists c s d, e = c :: s ++ d /\ (c = "e"%char \/ c = "E"%char)
                          /\ (s = [] \/ s = b "+" \/ s = b "-") /\ digits1 d.
Definition json_number (s : bytes) : Prop :=
  exists m i f e, s = m ++ i ++ f ++ e /\ (m = [] \/ m = b "-")
                  /\ int_part i /\ frac_part f /\ exp_part e.

(** Superset accepted by the library. *)
Definition num_char (c : ascii) : bool :=
  digit_char c || (code c =? 46) || (code c =? 101) || (code c =? 69)
  || (code c =? 43) || (code c =? 45).
Definition lax_number (s : bytes) : Prop :=
  exists c r, s = c :: r /\ (digit_char c = true \/ c = "-"%char) /\ forallb num_char r = true.

(** ** UTF-8 (RFC 3629) *)
Definition utf8_encode (cp : Z) : bytes :=
  if cp <? 128 then [chr cp]
  else if cp <? 2048 then [chr (192 + cp / 64); chr (128 + cp mod 64)]
  else if cp <? 65536 then
    [chr (224 + cp / 4096); chr (128 + cp / 64 mod 64); chr (128 + cp mod 64)]
  else
    [chr (240 + cp / 262144); chr (128 + cp / 4096 mod 64);
     chr (128 + cp / 64 mod 64); chr (128 + cp mod 64)].

(** Unicode scalar values. *)
Definition scalar (cp : Z) : Prop := 0 <= cp <= 1114111 /\ ~ (55296 <= cp <= 57343).

Inductive utf8 : bytes -> Prop :=
  | utf8_nil : utf8 []
  | utf8_cons cp s : scalar cp -> utf8 s -> utf8 (utf8_encode cp ++ s).

(** ** Strings: RFC 8259 section 7 *)

(** Character denoted by a two-character escape. *)
Inductive short : ascii -> ascii -> Prop :=
  | sh_quote : short (chr 34) (chr 34)
  | sh_backslash : short (chr 92) (chr 92)
  | sh_slash : short (chr 47) (chr 47)
  | sh_b : short "b" (chr 8)
  | sh_f : short "f" (chr 12)
  | sh_n : short "n" (chr 10)
  | sh_r : short "r" (chr 13)
  | sh_t : short "t" (chr 9).

(** Value of a hexadecimal digit. *)
Inductive hexdigit : ascii -> Z -> Prop :=
  | hx_dec c : 48 <= code c <= 57 -> hexdigit c (code c - 48)
  | hx_up c : 65 <= code c <= 70 -> hexdigit c (code c - 55)
  | hx_low c : 97 <= code c <= 102 -> hexdigit c (code c - 87).

Inductive hex4 : bytes -> Z -> Prop :=
  | hex4_intro c1 c2 c3 c4 d1 d2 d3 d4 :
      hexdigit c1 d1 -> hexdigit c2 d2 -> hexdigit c3 d3 -> hexdigit c4 d4 ->
      hex4 [c1; c2; c3; c4] (d1 * 4096 + d2 * 256 + d3 * 16 + d4).

Definition raw_char (strict : bool) (c : ascii) : Prop :=
  code c <> 34 /\ code c <> 92 /\
  if strict then 32 <= code c else code c <> 0 /\ code c <> 10.

(** [jchars strict text s]: the text between the quotes denotes the bytes [s]. *)
Inductive jchars (strict : bool) : bytes -> bytes -> Prop :=
  | jc_nil : jchars strict [] []
  | jc_raw c t s : raw_char strict c -> jchars strict t s -> jchars strict (c :: t) (c :: s)
  | jc_short e c t s : short e c -> jchars strict t s -> jchars strict (chr 92 :: e :: t) (c :: s)
  | jc_u h cp t s : hex4 h cp -> 128 <= cp -> scalar cp -> jchars strict t s ->
      jchars strict (b "\u" ++ h ++ t) (utf8_encode cp ++ s)
  | jc_pair h1 h2 hi lo t s : hex4 h1 hi -> hex4 h2 lo ->
      55296 <= hi <= 56319 -> 56320 <= lo <= 57343 -> jchars strict t s ->
      jchars strict (b "\u" ++ h1 ++ b "\u" ++ h2 ++ t)
             (utf8_encode (65536 + (hi - 55296) * 1024 + (lo - 56320)) ++ s).

Definition jstring (strict : bool) (text s : bytes) : Prop :=
  exists t, text = [chr 34] ++ t ++ [chr 34] /\ jchars strict t s.

(** ** Values, arrays, objects: RFC 8259 sections 3-5 *)
Inductive jtext (strict : bool) : jval -> bytes -> Prop :=
  | jt_null : jtext strict JNull (b "null")
  | jt_true : jtext strict (JBool true) (b "true")
  | jt_false : jtext strict (JBool false) (b "false")
  | jt_num s : (if strict then json_number s else lax_number s) -> jtext strict (JNum s) s
  | jt_str t s : jstring strict t s -> jtext strict (JStr s) t
  | jt_arr0 w : ws w -> jtext strict (JArr []) ([chr 91] ++ w ++ [chr 93])
  | jt_arr l t : jelems strict l t -> jtext strict (JArr l) ([chr 91] ++ t ++ [chr 93])
  | jt_obj0 w : ws w -> jtext strict (JObj []) ([chr 123] ++ w ++ [chr 125])
  | jt_obj l t : jmembers strict l t -> jtext strict (JObj l) ([chr 123] ++ t ++ [chr 125])

(** One or more elements separated by commas. *)
with jelems (strict : bool) : list jval -> bytes -> Prop :=
  | je_one w1 w2 j t : ws w1 -> ws w2 -> jtext strict j t ->
      jelems strict [j] (w1 ++ t ++ w2)
  | je_more w1 w2 j t l u : ws w1 -> ws w2 -> jtext strict j t -> jelems strict l u ->
      jelems strict (j :: l) (w1 ++ t ++ w2 ++ [chr 44] ++ u)

(** One or more members separated by commas. *)
with jmembers (strict : bool) : list (bytes * jval) -> bytes -> Prop :=
  | jm_one w1 w2 w3 w4 k kt j t : ws w1 -> ws w2 -> ws w3 -> ws w4 ->
      jstring strict kt k -> jtext strict j t ->
      jmembers strict [(k, j)] (w1 ++ kt ++ w2 ++ [chr 58] ++ w3 ++ t ++ w4)
  | jm_more w1 w2 w3 w4 k kt j t l u : ws w1 -> ws w2 -> ws w3 -> ws w4 ->
      jstring strict kt k -> jtext strict j t -> jmembers strict l u ->
      jmembers strict ((k, j) :: l) (w1 ++ kt ++ w2 ++ [chr 58] ++ w3 ++ t ++ w4 ++ [chr 44] ++ u).

(** A document: a value surrounded by white space (section 2). *)
Definition jdoc (strict : bool) (j : jval) (text : bytes) : Prop :=
  exists w1 w2 t, text = w1 ++ t ++ w2 /\ ws w1 /\ ws w2 /\ jtext strict j t.

Scheme jtext_mut := Induction for jtext Sort Prop
  with jelems_mut := Induction for jelems Sort Prop
  with jmembers_mut := Induction for jmembers Sort Prop.
Combined Scheme jtext_jelems_jmembers_ind from jtext_mut, jelems_mut, jmembers_mut.
