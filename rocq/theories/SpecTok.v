(** The tokens of a document, stated on its bytes: every text the library takes as
    a token, and nothing else. *)
From Verif Require Import Bytes SpecJson SpecErr.

Inductive jtok :=
  | KLBrace | KRBrace | KLBrack | KRBrack | KColon | KComma
  | KStr (s : bytes)                    (* decoded bytes *)
  | KNum (text : bytes)                 (* the numeral as written *)
  | KTrue | KFalse | KNull.

(** [lchars pend text s]: the text between the quotes denotes the bytes [s].  It is
    the grammar [jchars false] of [SpecJson.v] except that a high surrogate [hi]
    need not be followed by a low one at once: it stays pending ([Some hi]) until
    the next low surrogate, with which it makes a character, another high
    surrogate, which replaces it, another [\u] escape, which drops it, or the end
    of the string, which drops it too.  Plain characters and short escapes may come
    in between. *)
Inductive lchars : option Z -> bytes -> bytes -> Prop :=
  | lc_end pend : lchars pend [] []
  | lc_raw pend c t s : raw_char false c -> lchars pend t s -> lchars pend (c :: t) (c :: s)
  | lc_short pend e c t s : short e c -> lchars pend t s ->
      lchars pend (chr 92 :: e :: t) (c :: s)
  | lc_u pend h cp t s : hex4 h cp -> 128 <= cp -> scalar cp -> lchars None t s ->
      lchars pend (b "\u" ++ h ++ t) (utf8_encode cp ++ s)
  | lc_high pend h hi t s : hex4 h hi -> 55296 <= hi <= 56319 -> lchars (Some hi) t s ->
      lchars pend (b "\u" ++ h ++ t) s
  | lc_low hi h lo t s : hex4 h lo -> 56320 <= lo <= 57343 -> lchars None t s ->
      lchars (Some hi) (b "\u" ++ h ++ t)
             (utf8_encode (65536 + (hi - 55296) * 1024 + (lo - 56320)) ++ s).

(** [tok_text k u x]: the bytes [u], when followed by [x], are the token [k].
    Numbers and words extend as far as they can. *)
Inductive tok_text : jtok -> bytes -> bytes -> Prop :=
  | kt_lbrace x : tok_text KLBrace (b "{") x
  | kt_rbrace x : tok_text KRBrace (b "}") x
  | kt_lbrack x : tok_text KLBrack (b "[") x
  | kt_rbrack x : tok_text KRBrack (b "]") x
  | kt_colon x : tok_text KColon (b ":") x
  | kt_comma x : tok_text KComma (b ",") x
  | kt_str t s x : lchars None t s -> tok_text (KStr s) ([chr 34] ++ t ++ [chr 34]) x
  | kt_num u x : lax_number u -> match x with c :: _ => num_char c = false | [] => True end ->
      tok_text (KNum u) u x
  | kt_true x : match x with c :: _ => letter c = false | [] => True end ->
      tok_text KTrue (b "true") x
  | kt_false x : match x with c :: _ => letter c = false | [] => True end ->
      tok_text KFalse (b "false") x
  | kt_null x : match x with c :: _ => letter c = false | [] => True end ->
      tok_text KNull (b "null") x.

(** [tokens pre post l]: in the document [pre ++ post], [pre] consists of the tokens
    [l] and white space.  Line feeds inside a token do not count. *)
Inductive tokens : bytes -> bytes -> list jtok -> Prop :=
  | ts_start x : tokens [] x []
  | ts_ws pre c x l : tokens pre (c :: x) l -> ws_char c = true -> tokens (pre ++ [c]) x l
  | ts_tok pre u x l k : tokens pre (u ++ x) l -> tok_text k (drop_lf u) (drop_lf x) ->
      tokens (pre ++ u) x (l ++ [k]).
