(** C76: what the text of the lexer of the compiler (the classes InputStream, Token and Tokenizer, proto3.cc:30-483) does, read and executed as C++. *)
From Verif Require Import Bytes ProtoLex ProtoParse CLex CParse CExec HParse HExec LexSrc LexRead LexExec SpecHTok SpecLexText LexTextProofs LexNextProofs.

(** The lexer of a text, as the constructors make it. *)
Theorem C76_start : forall text, lstart (ltext_of proto3_cc) text = Some (memory [] (PS (i_start text) token0 false)).
Proof. exact start_is. Qed.
Print Assumptions C76_start.

(** The functions of InputStream: those of ProtoLex.v. *)
Theorem C76_get : forall F v s, countable (p_src s) ->
  source_call proto3_cc F WIn "get" [] (memory v s) = Out (HI IInt (fst (i_get (p_src s))), memory v (PS (snd (i_get (p_src s))) (p_cur s) (p_ung s))).
Proof. exact source_get. Qed.
Print Assumptions C76_get.

Theorem C76_unget : forall F v s,
  source_call proto3_cc F WIn "unget" [] (memory v s) = as_out (fun i => (HVoid, memory v (PS i (p_cur s) (p_ung s)))) (i_unget (p_src s)).
Proof. exact source_unget. Qed.
Print Assumptions C76_unget.

Theorem C76_skipws : forall F v s, countable (p_src s) ->
  source_call proto3_cc F WIn "skipws" [] (memory v s) = as_out (fun i => (HVoid, memory v (PS i (p_cur s) (p_ung s)))) (i_skipws F (p_src s)).
Proof. exact source_skipws. Qed.
Print Assumptions C76_skipws.

Theorem C76_expect : forall F v s e, countable (p_src s) -> -2147483648 <= e <= 2147483647 ->
  source_call proto3_cc F WIn "expect" [HI IInt e] (memory v s) = as_out (fun x => (HB (fst x), memory v (PS (snd x) (p_cur s) (p_ung s)))) (i_expect e (p_src s)).
Proof. exact source_expect. Qed.
Print Assumptions C76_expect.

Theorem C76_position : forall F v s,
  source_call proto3_cc F WIn "line" [] (memory v s) = Out (HI IInt (i_line (p_src s)), memory v s) /\
  source_call proto3_cc F WIn "column" [] (memory v s) = Out (HI IInt (i_col (p_src s)), memory v s).
Proof. exact source_position. Qed.
Print Assumptions C76_position.

(** [next] and [unget] of Tokenizer: the same token, the same exception, or neither within [F] iterations of some loop. *)
Theorem C76_next : forall F v s, countable (p_src s) -> (25 < F)%nat ->
  source_call proto3_cc F WTok "next" [] (memory v s) = as_out (fun x => (token_obj (fst x), memory v (snd x))) (p_next istate (t_next F F) s).
Proof. exact source_next. Qed.
Print Assumptions C76_next.

Theorem C76_back : forall F v s,
  source_call proto3_cc F WTok "unget" [] (memory v s) = as_out (fun x => (HVoid, memory v (snd x))) (p_unget s).
Proof. exact source_back. Qed.
Print Assumptions C76_back.

(** A whole text: the tokens of any sequence of calls of next and unget. *)
Theorem C76_tokens : forall F l text, Z.of_nat (length text) < 2147483647 -> (25 < F)%nat -> exists s,
  lstart (ltext_of proto3_cc) text = Some s /\
  text_calls (ltext_of proto3_cc) F l s = as_out (map token_obj) (model_calls F l (PS (i_start text) token0 false)).
Proof. exact lexed. Qed.
Print Assumptions C76_tokens.

(** ** Examples *)
Example C76_applies : countable (i_start (b "message A {}")) /\ (25 < 26)%nat /\ Z.of_nat (length (b "message A {}")) < 2147483647.
Proof. cbv. repeat split; try (intros Q; discriminate Q); repeat constructor. Qed.

Example C76_text : ltext_of proto3_cc = the_lex.
Proof. exact the_lex_is. Qed.
Definition lexed_in (t : ltext) (l : list bool) (input : string) : option (out (list hval)) :=
  match lstart t (b input) with Some s => Some (text_calls t 30 l s) | None => None end.
Definition tok (k : tcode) (s : string) (l c : Z) := token_obj (Tok k (b s) l c).

(** Names, keywords, numbers, strings, comments and marks with their places; a token twice; exceptions; a text that keeps a loop busy. *)
Example C76_executed :
  lexed_in the_lex [true; true; true; true; true; true; true; true; true] "message A.b { // x
 int32 n=12;/*y*/ /" = Some (Out [tok KMessage "message" 1 1; tok KQName "A.b" 1 9; tok KBegin "" 1 13; tok (KType FInt32) "int32" 2 2; tok KName "n" 2 8; tok KEqual "" 2 9; tok KInteger "12" 2 10; tok KScolon "" 2 12; tok KEof "" 2 19]) /\
  lexed_in the_lex [true; false; true; true] "<""a""" = Some (Out [tok KLt "" 1 1; tok KLt "" 1 1; tok ProtoLex.KString "a" 1 2]) /\
  lexed_in the_lex [true; false; false] "[" = Some (Thrown (b "Already ungot") 1 1) /\
  lexed_in the_lex [true] " +" = Some (Thrown (b "Invalid symbol") 1 2) /\
  lexed_in the_lex [true] "a..b" = Some (Thrown (b "Invalid identifier") 1 1) /\
  lexed_in the_lex [true] """abc" = Some More.
Proof. vm_compute. repeat split. Qed.

(** Other texts do other things: the line counted at another character, a keyword less, another mark, a line comment that ends at the end, another message. *)
Definition lexed_of (old new : string) (l : list bool) (input : string) : option (out (list hval)) :=
  lexed_in (ltext_of (instead (length (b old)) (b old) (b new) proto3_cc)) l input.
Example C76_tells :
  lexed_of "if (last_ == '\n')" "if (last_ == ' ')" [true; true] "a
b" = Some (Out [tok KName "a" 1 1; tok KName "b" 1 3]) /\
  lexed_in the_lex [true; true] "a
b" = Some (Out [tok KName "a" 1 1; tok KName "b" 2 1]) /\
  lexed_of "{ TOKEN_MESSAGE     , ""message"" }," "" [true] "message" = Some (Out [tok KName "message" 1 1]) /\
  lexed_of "if (cur == '{')" "if (cur == '(')" [true] "{" = Some (Thrown (b "Invalid symbol") 1 1) /\
  lexed_of "type = TOKEN_QNAME" "type = TOKEN_NAME" [true] "a.b" = Some (Out [tok KName "a.b" 1 1]) /\
  lexed_of "if (cur == '\n' || cur == 0) return Token();" "if (cur == '\n' || cur <= 0) return Token();" [true] """abc" = Some (Out [tok KEof "" 1 1]) /\
  lexed_of "is.unget();
            return temp;" "return temp;" [true; true] "a{" = Some (Out [tok KName "a" 1 1; tok KEof "" 1 2]).
Proof. vm_compute. repeat split. Qed.

(** What the reader and the interpreter refuse or convert, also where this text has no use for it: "#" and "##" in a macro, a type, a parameter. *)
Example C76_parts :
  oexpand 9 [OMac (b "M") None [KId (b "x"); KOp (b "#")]] [KId (b "M")] = None /\
  oexpand 9 [OMac (b "M") None [KId (b "x"); KOp (b "##")]] [KId (b "M")] = None /\
  oexpand 9 [OMac (b "M") None [KId (b "x")]] [KId (b "M")] = Some [KId (b "x")] /\
  ltyped [b "auto"] (HB true) = Some (HB true) /\ ltyped [b "auto"] HVoid = None /\
  ctor_type w_const_string_ref (HPtr (b "x")) = Some (HS (b "x")) /\ ctor_type w_const_string_ref (HS (b "x")) = Some (HS (b "x")) /\
  ctor_type w_const_string_ref (HB true) = None /\
  type_num FMessage = 21.
Proof. vm_compute. repeat split. Qed.
