(** The text of the Tokenizer, executed, against ProtoLex.v. *)
From Coq Require Import Lia Arith.
From Verif Require Import Bytes ProtoLex ProtoParse CLex CParse CExec HParse HExec LexSrc LexRead LexExec BaseProofs SpecLexText LexTextProofs.

Section P.
Context (F : nat).
Notation callL := (callL F).
Notation exec w d := (lexec F (l_words the_lex) w (callL d)).
Notation mem v tk s := (LS v tk (stream_obj s)).
Notation members c u := [(b "current", HObj c); (b "ungot", HB u); (b "is", HIn)].

Ltac ev := cbv -[LexTextProofs.callL lwhile Z.add Z.sub Z.leb Z.ltb Z.eqb Z.land int_ok char_of byte_of code cat str_eqb stream_obj i_unget i_get l_words letter_code digit_code].
Ltac evi H := cbv -[LexTextProofs.callL lwhile Z.add Z.sub Z.leb Z.ltb Z.eqb Z.land int_ok char_of byte_of code cat str_eqb stream_obj i_unget i_get l_words letter_code digit_code] in H.
Ltac find := vm_compute; reflexivity.
Ltac fn f := erewrite run_is; [|reflexivity]; cbv [f hf_body hf_ret with_vars v_vars v_tok v_in].
Ltac nx := erewrite seq_next; [|solve [ev; reflexivity]].
Ltac rt := erewrite seq_return; [|solve [ev; reflexivity]].

Lemma byte_char : forall z, byte_of (char_of (byte_of z)) = byte_of z.
Proof. intros z. unfold byte_of, char_of. generalize (chr z). intros c. destruct c as [[|] [|] [|] [|] [|] [|] [|] [|]]; reflexivity. Qed.
Lemma get_range : forall s, countable s -> -2 <= fst (i_get s) <= 255.
Proof.
  intros [r l ln cl u] (A & _). unfold i_get. cbn [i_rest i_last i_line i_col i_ungot] in *.
  destruct u; [exact A|]. destruct r as [|c r]; cbn [fst]; [lia|]. pose proof (code_range c). lia.
Qed.

(** The conditions IS_LETTER, IS_DIGIT of a variable. *)
Definition fn_name := Eval vm_compute in fn_of WTok "name".
Definition fn_qname := Eval vm_compute in fn_of WTok "qname".
Definition fn_integer := Eval vm_compute in fn_of WTok "integer".
Definition fn_string := Eval vm_compute in fn_of WTok "literalString".
Definition fn_comment := Eval vm_compute in fn_of WTok "comment".
Definition fn_next := Eval vm_compute in fn_of WTok "next".

(** What a function makes of the end of its body. *)
Definition final (t : list bytes) (v : list (bytes * hval)) (x : lflow * lst) : out (hval * lst) :=
  let '(fl, s1) := x in obind (sure (lresult t fl)) (fun r => Out (r, with_vars s1 v)).

(** ** Steps *)
Notation ev_ d e s := (leval (l_words the_lex) WTok (callL d) e s).
Notation cond_ d e s := (lcond (l_words the_lex) WTok (callL d) e s).

Lemma eval_bin : forall d op x y s u s1 v s2 r, same op (b "&&") || same op (b "||") = false ->
  ev_ d x s = Out (u, s1) -> ev_ d y s1 = Out (v, s2) -> lbinary op u v = Some r -> ev_ d (EBin op x y) s = Out (r, s2).
Proof. intros d op x y s u s1 v s2 r O A B R. cbn [leval]. rewrite A. cbn [obind]. rewrite O, B. cbn [obind]. rewrite R. reflexivity. Qed.
Lemma eval_set : forall d op x y s v s1 n p, ev_ d y s = Out (v, s1) -> lplace x = Some (n, p) ->
  ev_ d (ESet op x y) s = lassign (l_words the_lex) WTok op n p v s1.
Proof. intros d op x y s v s1 n p A B. cbn [leval]. rewrite A. cbn [obind]. rewrite B. reflexivity. Qed.
Lemma cond_is : forall d e s v s1 x, ev_ d e s = Out (v, s1) -> truth v = Some x -> cond_ d e s = Out (x, s1).
Proof. intros d e s v s1 x A B. unfold lcond. rewrite A. cbn [obind]. rewrite B. reflexivity. Qed.

Lemma eval_and : forall d x y s s1, ev_ d x s = Out (HB true, s1) ->
  ev_ d (EBin (b "&&") x y) s = obind (ev_ d y s1) (fun p => let '(v, s2) := p in obind (sure (truth v)) (fun q => Out (HB q, s2))).
Proof. intros d x y s s1 A. cbn [leval]. rewrite A. reflexivity. Qed.

(** Conditions without effect. *)
Definition tests d e s x := ev_ d e s = Out (HB x, s).
Lemma test_and : forall d e1 e2 s x y, tests d e1 s x -> tests d e2 s y -> tests d (EBin (b "&&") e1 e2) s (x && y).
Proof.
  intros d e1 e2 s x y A B. unfold tests in *. cbn [leval]. rewrite A. cbn [obind].
  change (same (b "&&") (b "&&")) with true. cbn [orb sure truth obind]. destruct x; [rewrite B|]; reflexivity.
Qed.
Lemma test_or : forall d e1 e2 s x y, tests d e1 s x -> tests d e2 s y -> tests d (EBin (b "||") e1 e2) s (x || y).
Proof.
  intros d e1 e2 s x y A B. unfold tests in *. cbn [leval]. rewrite A. cbn [obind].
  change (same (b "||") (b "||")) with true. change (same (b "||") (b "&&")) with false. cbn [orb sure truth obind]. destruct x; [|rewrite B]; reflexivity.
Qed.
Lemma test_not : forall d e s x, tests d e s x -> tests d (EPre (b "!") e) s (negb x).
Proof. intros d e s x A. unfold tests in *. cbn [leval]. change (same (b "!") (b "++")) with false. cbn beta iota. rewrite A. reflexivity. Qed.
Lemma cond_tests : forall d e s x, tests d e s x -> cond_ d e s = Out (x, s).
Proof. intros d e s x A. unfold lcond. rewrite A. reflexivity. Qed.
Ltac tst := first [eapply test_or; tst | eapply test_and; tst | eapply test_not; tst | solve [ev; reflexivity]].

Lemma eval_is : forall d v c u s, assoc v (b "is") = None ->
  ev_ d (EName [b "is"]) (LS v (members c u) s) = Out (HIn, LS v (members c u) s).
Proof. intros d v c u s H. cbn [leval]. unfold lname. cbn [v_vars]. rewrite H. reflexivity. Qed.
Lemma eval_stream : forall d m v c u s, assoc v (b "is") = None ->
  ev_ d (ECall (EDot (EName [b "is"]) m) []) (LS v (members c u) s) = callL d WIn m [] (LS v (members c u) s).
Proof.
  intros d m v c u s H. cbn [leval]. pose proof (eval_is d v c u s H) as E. cbn [leval] in E. rewrite E. reflexivity.
Qed.
Lemma eval_get : forall d v c u s, assoc v (b "is") = None -> countable s ->
  ev_ (S d) (ECall (EDot (EName [b "is"]) (b "get")) []) (mem v (members c u) s)
  = Out (HI IInt (fst (i_get s)), mem v (members c u) (snd (i_get s))).
Proof. intros d v c u s H C. rewrite eval_stream by exact H. exact (get_is F d v (members c u) s C). Qed.
Lemma exec_expr : forall d e s, exec WTok d (TExpr [e]) s = obind (ev_ d e s) (fun x => let '(v, s1) := x in Out (FNext, s1)).
Proof. intros d e s. cbn [lexec]. unfold leffects. cbn [levals]. destruct (ev_ d e s) as [[]| | | |]; reflexivity. Qed.
Lemma exec_var : forall d t x e s v s1 v', ev_ d e s = Out (v, s1) -> ltyped t v = Some v' ->
  exec WTok d (TVar t x None (Some e)) s = Out (FNext, LS ((x, v') :: v_vars s1) (v_tok s1) (v_in s1)).
Proof. intros d t x e s v s1 v' A B. cbn [lexec declared_as]. rewrite A. cbn [obind]. rewrite B. reflexivity. Qed.
Lemma exec_unget : forall d v c u s, assoc v (b "is") = None ->
  exec WTok (S d) (TExpr [ECall (EDot (EName [b "is"]) (b "unget")) []]) (mem v (members c u) s)
  = as_out (fun s' => (FNext, mem v (members c u) s')) (i_unget s).
Proof.
  intros d v c u s H. rewrite exec_expr, eval_stream by exact H. rewrite unget_is. destruct (i_unget s); reflexivity.
Qed.

(** ** name() *)
Lemma name_loop : forall d c u v k fb acc s cv, countable s -> match cv with HI IInt _ | HNone IInt => True | _ => False end ->
  match hf_body fn_name with
  | [_; _; _; TWhile c' st; e1; e2] =>
      obind (obind (lwhile k (lcond (l_words the_lex) WTok (callL (S d)) c') Out (exec WTok (S d) st)
                      (mem [(b "cur", cv); (b "first", HB fb); (b "temp", HS (rev acc))] (members c u) s))
                   (fun x => let '(f, s1) := x in match f with FNext => lseq (exec WTok (S d)) [e1; e2] s1 | _ => Out (f, s1) end))
            (final (hf_ret fn_name) v)
      = as_out (fun x => (HS (fst x), mem v (members c u) (snd x))) (t_name k fb acc s)
  | _ => False
  end.
Proof.
  intros d c u v k. cbv [fn_name hf_body]. induction k as [|k IH]; intros fb acc s cv C V; [reflexivity|].
  rewrite lwhile_S. cbn [t_name]. pose proof (get_count s C) as C1.
  pose proof (eval_get d [(b "cur", cv); (b "first", HB fb); (b "temp", HS (rev acc))] c u s eq_refl C) as G.
  destruct (i_get s) as [ch s1]. cbn [fst snd] in G, C1.
  erewrite cond_is.
  2:{ eapply eval_bin; [reflexivity| |reflexivity|].
      - erewrite eval_set; [|exact G|reflexivity].
        instantiate (1 := mem [(b "cur", HI IInt ch); (b "first", HB fb); (b "temp", HS (rev acc))] (members c u) s1). instantiate (1 := HI IInt ch).
        destruct cv as [| |[]|[]| | | | | | | | | | | | | | | | ]; try contradiction; reflexivity.
      - instantiate (1 := HB (0 <=? ch)). reflexivity. }
  2:{ reflexivity. }
  rewrite Z.leb_antisym. destruct (ch <? 0) eqn:N; cbn [negb obind].
  - rewrite seq_cons, exec_unget by reflexivity. destruct (i_unget s1); reflexivity.
  - rewrite exec_block. rewrite seq_cons. erewrite exec_if.
    2:{ apply cond_tests. tst. }
    change (_ || _) with (fb && negb (letter_code ch) || negb (word_code ch)). 
    destruct (fb && negb (letter_code ch) || negb (word_code ch)); cbn [obind].
    + cbn [lexec obind]. cbv [lleave with_vars v_vars length]. cbn [Nat.sub skipn v_tok v_in].
      rewrite seq_cons, exec_unget by reflexivity. destruct (i_unget s1); reflexivity.
    + nx. erewrite seq_next by (ev; reflexivity).
      rewrite byte_char. exact (IH false (chr ch :: acc) s1 (HI IInt ch) C1 I).
Qed.

Lemma call_final : forall d f fn vs s vars, hfind (l_lexer the_lex) f = Some fn -> lparams (hf_params fn) vs = Some vars ->
  callL (S d) WTok f vs s = obind (lseq (exec WTok d) (hf_body fn) (LS vars (v_tok s) (v_in s))) (final (hf_ret fn) (v_vars s)).
Proof. intros d f fn vs s vars A B. rewrite (call_is F d WTok f fn) by exact A. erewrite run_is by exact B. reflexivity. Qed.

Lemma name_is : forall d v c u s, countable s ->
  callL (S (S d)) WTok (b "name") [] (mem v (members c u) s)
  = as_out (fun x => (HS (fst x), mem v (members c u) (snd x))) (t_name F true [] s).
Proof.
  intros d v c u s C. rewrite (call_final (S d) _ fn_name _ _ []) by find. cbn [v_vars v_tok v_in].
  pose proof (name_loop d c u v F true [] s (HNone IInt) C I) as L. cbv [fn_name hf_body] in L |- *.
  nx. nx. nx. rewrite seq_cons, exec_while. exact L.
Qed.
Lemma name_count : forall k fb acc s x s', countable s -> t_name k fb acc s = POk (x, s') -> countable s'.
Proof.
  induction k as [|k IH]; intros fb acc s x s' C; [discriminate|]. cbn [t_name]. pose proof (get_count s C) as C1.
  destruct (i_get s) as [ch s1]. cbn [snd] in C1.
  destruct (ch <? 0); [|destruct (_ || _); [|apply IH; exact C1]];
    (destruct (i_unget s1) eqn:U; cbn [pbind]; try discriminate; intros [= <- <-]; exact (unget_count _ _ C1 U)).
Qed.

(** ** integer() *)
Lemma integer_loop : forall d c u v k n0 ln cl acc s, countable s ->
  match hf_body fn_integer with
  | [_; _; TDo st _; _] =>
      obind (obind (lwhile k (fun s => Out (true, s)) Out (exec WTok (S d) st)
                      (mem [(b "tt", token_obj (Tok KInteger (rev acc) ln cl)); (b "first", n0); (b "line", HI IInt ln); (b "column", HI IInt cl)] (members c u) s))
                   (fun x => let '(f, s1) := x in match f with FNext => lseq (exec WTok (S d)) [TReturn (Some (EName [b "tt"]))] s1 | _ => Out (f, s1) end))
            (final (hf_ret fn_integer) v)
      = as_out (fun x => (token_obj (fst x), mem v (members c u) (snd x))) (t_integer k ln cl acc s)
  | _ => False
  end.
Proof.
  intros d c u v k n0 ln cl. cbv [fn_integer hf_body]. induction k as [|k IH]; intros acc s C; [reflexivity|].
  rewrite lwhile_S. cbn [t_integer obind]. pose proof (get_count s C) as C1.
  pose proof (eval_get d [(b "tt", token_obj (Tok KInteger (rev acc) ln cl)); (b "first", n0); (b "line", HI IInt ln); (b "column", HI IInt cl)] c u s eq_refl C) as G.
  destruct (i_get s) as [ch s1]. cbn [fst snd] in G, C1.
  rewrite exec_block. rewrite seq_cons. erewrite exec_var; [|exact G|reflexivity]. cbn [obind v_vars v_tok v_in].
  rewrite seq_cons. erewrite exec_if.
  2:{ apply cond_tests. tst. }
  change (negb _) with (negb (digit_code ch)). destruct (digit_code ch); cbn [negb obind].
  - erewrite seq_next by (ev; reflexivity). rewrite byte_char. exact (IH (chr ch :: acc) s1 C1).
  - rewrite exec_block. rewrite seq_cons, exec_unget by reflexivity. destruct (i_unget s1); reflexivity.
Qed.
Lemma integer_is : forall d v c u z ln cl s, countable s -> (z =? 0) = false ->
  callL (S (S d)) WTok (b "integer") [HI IInt z; HI IInt ln; HI IInt cl] (mem v (members c u) s)
  = as_out (fun x => (token_obj (fst x), mem v (members c u) (snd x))) (t_integer F ln cl [chr z] s).
Proof.
  intros d v c u z ln cl s C Z0. rewrite (call_final (S d) _ fn_integer _ _ [(b "first", HI IInt z); (b "line", HI IInt ln); (b "column", HI IInt cl)]) by find.
  cbn [v_vars v_tok v_in].
  pose proof (integer_loop d c u v F (HI IInt z) ln cl [chr z] s C) as L. cbv [fn_integer hf_body] in L |- *.
  nx. rewrite seq_cons. erewrite exec_if.
  2:{ apply cond_tests. tst. }
  rewrite Z0. cbn [negb]. erewrite exec_out by (ev; reflexivity). cbn [obind]. rewrite byte_char.
  rewrite seq_cons, exec_do. exact L.
Qed.
Lemma integer_count : forall k ln cl acc s x s', countable s -> t_integer k ln cl acc s = POk (x, s') -> countable s'.
Proof.
  induction k as [|k IH]; intros ln cl acc s x s' C; [discriminate|]. cbn [t_integer]. pose proof (get_count s C) as C1.
  destruct (i_get s) as [ch s1]. cbn [snd] in C1. destruct (digit_code ch); [apply IH; exact C1|].
  destruct (i_unget s1) eqn:U; cbn [pbind]; try discriminate; intros [= <- <-]; exact (unget_count _ _ C1 U).
Qed.

(** ** literalString() *)
Lemma string_loop : forall d c u v k ln cl acc s, countable s ->
  match hf_body fn_string with
  | [_; TDo st _; _] =>
      obind (obind (lwhile k (fun s => Out (true, s)) Out (exec WTok (S d) st)
                      (mem [(b "tt", token_obj (Tok ProtoLex.KString (rev acc) ln cl)); (b "line", HI IInt ln); (b "column", HI IInt cl)] (members c u) s))
                   (fun x => let '(f, s1) := x in match f with FNext => lseq (exec WTok (S d)) [TReturn (Some (EName [b "tt"]))] s1 | _ => Out (f, s1) end))
            (final (hf_ret fn_string) v)
      = as_out (fun x => (token_obj (fst x), mem v (members c u) (snd x))) (t_string k ln cl acc s)
  | _ => False
  end.
Proof.
  intros d c u v k ln cl. cbv [fn_string hf_body]. induction k as [|k IH]; intros acc s C; [reflexivity|].
  rewrite lwhile_S. cbn [t_string obind]. pose proof (get_count s C) as C1.
  pose proof (eval_get d [(b "tt", token_obj (Tok ProtoLex.KString (rev acc) ln cl)); (b "line", HI IInt ln); (b "column", HI IInt cl)] c u s eq_refl C) as G.
  destruct (i_get s) as [ch s1]. cbn [fst snd] in G, C1.
  rewrite exec_block. rewrite seq_cons. erewrite exec_var; [|exact G|reflexivity]. cbn [obind v_vars v_tok v_in].
  rewrite seq_cons. erewrite exec_if.
  2:{ apply cond_tests. tst. }
  destruct ((ch =? 10) || (ch =? 0)); cbn [obind].
  - reflexivity.
  - rewrite seq_cons. erewrite exec_if.
    2:{ apply cond_tests. tst. }
    destruct (ch =? 34); cbn [obind].
    + reflexivity.
    + erewrite seq_next by (ev; reflexivity). rewrite byte_char. exact (IH (chr ch :: acc) s1 C1).
Qed.
Lemma string_is : forall d v c u ln cl s, countable s ->
  callL (S (S d)) WTok (b "literalString") [HI IInt ln; HI IInt cl] (mem v (members c u) s)
  = as_out (fun x => (token_obj (fst x), mem v (members c u) (snd x))) (t_string F ln cl [] s).
Proof.
  intros d v c u ln cl s C. rewrite (call_final (S d) _ fn_string _ _ [(b "line", HI IInt ln); (b "column", HI IInt cl)]) by find.
  cbn [v_vars v_tok v_in].
  pose proof (string_loop d c u v F ln cl [] s C) as L. cbv [fn_string hf_body] in L |- *.
  nx. rewrite seq_cons, exec_do. exact L.
Qed.
Lemma string_count : forall k ln cl acc s x s', countable s -> t_string k ln cl acc s = POk (x, s') -> countable s'.
Proof.
  induction k as [|k IH]; intros ln cl acc s x s' C; [discriminate|]. cbn [t_string]. pose proof (get_count s C) as C1.
  destruct (i_get s) as [ch s1]. cbn [snd] in C1. destruct (_ || _); [intros [= <- <-]; exact C1|].
  destruct (ch =? 34); [intros [= <- <-]; exact C1|apply IH; exact C1].
Qed.

(** ** comment() *)
Definition note_loop (n : nat) : hexpr * hstmt :=
  match hf_body fn_comment with
  | [_; _; TIf _ (TBlock [TWhile c st; _]) (Some (TIf _ (TBlock [TWhile c' st']) _)); _] =>
      match n with O => (c, st) | _ => (c', st') end
  | _ => (EBool false, TBreak)
  end.
Definition line_c := Eval vm_compute in fst (note_loop 0).
Definition line_b := Eval vm_compute in snd (note_loop 0).
Definition block_c := Eval vm_compute in fst (note_loop 1).
Definition block_b := Eval vm_compute in snd (note_loop 1).
Notation notes z t := [(b "cur", HI IInt z); (b "temp", token_obj t)].

Lemma line_loop : forall d c u k z t s, countable s -> exists z' t',
  lwhile k (lcond (l_words the_lex) WTok (callL (S d)) line_c) Out (exec WTok (S d) line_b) (mem (notes z t) (members c u) s)
  = as_out (fun s' => (FNext, mem (notes z' t') (members c u) s')) (t_line_comment k s).
Proof.
  intros d c u k. induction k as [|k IH]; intros z t s C; [exists z, t; reflexivity|].
  rewrite lwhile_S. cbn [t_line_comment]. pose proof (get_count s C) as C1.
  pose proof (eval_get d (notes z t) c u s eq_refl C) as G. destruct (i_get s) as [ch s1]. cbn [fst snd] in G, C1.
  assert (E : lcond (l_words the_lex) WTok (callL (S d)) line_c (mem (notes z t) (members c u) s) = Out (negb (ch =? 10), mem (notes ch t) (members c u) s1)).
  { cbv [line_c]. eapply cond_is.
    - eapply eval_bin; [reflexivity| |reflexivity|].
      + erewrite eval_set; [|exact G|reflexivity]. reflexivity.
      + reflexivity.
    - reflexivity. }
  rewrite E. destruct (ch =? 10); cbn [negb obind].
  - exists ch, t. reflexivity.
  - destruct t as [kc val ln cl]. destruct (IH ch (Tok kc (cat val [chr ch]) ln cl) s1 C1) as (z' & t' & L). exists z', t'. rewrite <- L.
    assert (B : exec WTok (S d) line_b (mem (notes ch (Tok kc val ln cl)) (members c u) s1) = Out (FNext, mem (notes ch (Tok kc (cat val [chr ch]) ln cl)) (members c u) s1)).
    { cbv [line_b]. ev. rewrite byte_char. reflexivity. }
    rewrite B. reflexivity.
Qed.
Lemma line_count : forall k s s', countable s -> t_line_comment k s = POk s' -> countable s'.
Proof.
  induction k as [|k IH]; intros s s' C; [discriminate|]. cbn [t_line_comment]. pose proof (get_count s C) as C1.
  destruct (i_get s) as [ch s1]. cbn [snd] in C1. destruct (ch =? 10); [intros [= <-]; exact C1|apply IH; exact C1].
Qed.

Lemma expect_slash : forall d v c u s, assoc v (b "is") = None -> countable s ->
  ev_ (S (S d)) (ECall (EDot (EName [b "is"]) (b "expect")) [EChr (b "/")]) (mem v (members c u) s)
  = as_out (fun x => (HB (fst x), mem v (members c u) (snd x))) (i_expect 47 s).
Proof.
  intros d v c u s H C. rewrite <- (expect_is F d v (members c u) s 47 C eq_refl).
  cbn [leval]. pose proof (eval_is (S (S d)) v c u (stream_obj s) H) as E. cbn [leval] in E. rewrite E. reflexivity.
Qed.
Lemma block_loop : forall d c u k z t s, countable s -> exists z' t' l,
  lwhile k (lcond (l_words the_lex) WTok (callL (S (S d))) block_c) Out (exec WTok (S (S d)) block_b) (mem (notes z t) (members c u) s)
  = as_out (fun s' => (FReturn (token_obj l), mem (notes z' t') (members c u) s')) (t_block_comment k s).
Proof.
  intros d c u k. induction k as [|k IH]; intros z t s C; [exists z, t, t; reflexivity|].
  rewrite lwhile_S. cbn [t_block_comment]. pose proof (get_count s C) as C1.
  pose proof (eval_get (S d) (notes z t) c u s eq_refl C) as G. destruct (i_get s) as [ch s1]. cbn [fst snd] in G, C1.
  change (lcond (l_words the_lex) WTok (callL (S (S d))) block_c (mem (notes z t) (members c u) s)) with (Out (true, mem (notes z t) (members c u) s)).
  cbn [obind]. cbv [block_b]. rewrite exec_block. rewrite seq_cons, exec_expr. erewrite eval_set; [|exact G|reflexivity].
  match goal with |- context [lassign ?a1 ?a2 ?a3 ?a4 ?a5 ?a6 ?a7] =>
    change (lassign a1 a2 a3 a4 a5 a6 a7) with (Out (HI IInt ch, mem (notes ch t) (members c u) s1)) end. cbn [obind].
  destruct t as [kc val ln cl].
  assert (B : forall s2, countable s2 -> exists z' t' l,
    obind (obind (lseq (exec WTok (S (S d))) (match block_b with TBlock [_; _; _; e] => [e] | _ => [] end) (mem (notes ch (Tok kc val ln cl)) (members c u) s2))
                 (fun x => let '(f, s1) := x in Out (f, lleave (mem (notes z (Tok kc val ln cl)) (members c u) s) s1)))
          (fun y => let '(f, s2) := y in
             match f with
             | FNext | FContinue => obind (Out s2) (fun s3 => lwhile k (lcond (l_words the_lex) WTok (callL (S (S d))) block_c) Out (exec WTok (S (S d)) block_b) s3)
             | FBreak => Out (FNext, s2)
             | FReturn v => Out (FReturn v, s2)
             end)
    = as_out (fun s' => (FReturn (token_obj l), mem (notes z' t') (members c u) s')) (t_block_comment k s2)).
  { intros s2 C2. destruct (IH ch (Tok kc (cat val [chr ch]) ln cl) s2 C2) as (z' & t' & l & L). exists z', t', l. rewrite <- L.
    cbv [block_b]. erewrite seq_next by (ev; rewrite byte_char; reflexivity). reflexivity. }
  destruct (ch =? 42) eqn:N.
  - rewrite seq_cons. cbn [lexec]. unfold lcond at 1. 
    assert (T : ev_ (S (S d)) (EBin (b "==") (EName [b "cur"]) (EChr (b "*"))) (mem (notes ch (Tok kc val ln cl)) (members c u) s1)
                = Out (HB true, mem (notes ch (Tok kc val ln cl)) (members c u) s1)).
    { ev. rewrite N. reflexivity. }
    pose proof (expect_slash d (notes ch (Tok kc val ln cl)) c u s1 eq_refl C1) as X. pose proof (expect_count 47 s1) as XC.
    match goal with |- context [leval _ _ _ (EBin ?op ?x ?y) ?s] =>
      assert (E : leval (l_words the_lex) WTok (callL (S (S d))) (EBin op x y) s = as_out (fun p0 => (HB (fst p0), mem (notes ch (Tok kc val ln cl)) (members c u) (snd p0))) (i_expect 47 s1)) end.
    { etransitivity; [exact (eval_and _ _ _ _ _ T)|]. etransitivity; [apply (Logic.f_equal (fun r => obind r _)); exact X|].
      destruct (i_expect 47 s1); reflexivity. }
    rewrite E. destruct (i_expect 47 s1) as [[[] s2]| | |] eqn:EX; cbn [as_out obind pbind fst snd sure truth].
    + do 3 eexists. reflexivity.
    + assert (Q : (ch <? 0) = false) by (apply Z.eqb_eq in N; subst; reflexivity).
      rewrite seq_cons. erewrite exec_if.
      2:{ apply cond_tests. tst. }
      rewrite Q. cbn [obind]. exact (B s2 (XC _ _ C1 eq_refl)).
    + exists 0, token0, token0. reflexivity.
    + exists 0, token0, token0. reflexivity.
    + exists 0, token0, token0. reflexivity.
  - rewrite seq_cons.
    match goal with |- context [exec WTok (S (S d)) ?st ?s] => assert (E : exec WTok (S (S d)) st s = Out (FNext, s)) by (ev; rewrite N; reflexivity) end.
    rewrite E. cbn [obind]. rewrite seq_cons. erewrite exec_if.
    2:{ apply cond_tests. tst. }
    destruct (ch <? 0); cbn [obind].
    + do 3 eexists. exact (eq_refl : _ = as_out (fun s' => (FReturn (token_obj token0), mem (notes ch (Tok kc val ln cl)) (members c u) s')) (POk s1)).
    + exact (B s1 C1).
Unshelve. all: exact token0 || exact 0.
Qed.
Lemma block_count : forall k s s', countable s -> t_block_comment k s = POk s' -> countable s'.
Proof.
  induction k as [|k IH]; intros s s' C; [discriminate|]. cbn [t_block_comment]. pose proof (get_count s C) as C1.
  destruct (i_get s) as [ch s1]. cbn [snd] in C1. destruct (ch =? 42).
  - destruct (i_expect 47 s1) as [[[] s2]| | |] eqn:E; cbn [pbind]; try discriminate.
    + intros [= <-]. exact (expect_count _ _ _ _ C1 E).
    + apply IH. exact (expect_count _ _ _ _ C1 E).
  - destruct (ch <? 0); [intros [= <-]; exact C1|apply IH; exact C1].
Qed.

Lemma comment_is : forall d v c u s, countable s -> exists l,
  callL (S (S (S d))) WTok (b "comment") [] (mem v (members c u) s) = as_out (fun s' => (token_obj l, mem v (members c u) s')) (t_comment F s).
Proof.
  intros d v c u s C. rewrite (call_final (S (S d)) _ fn_comment _ _ []) by find. cbn [v_vars v_tok v_in].
  cbv [fn_comment hf_body]. unfold t_comment. pose proof (get_count s C) as C1.
  pose proof (eval_get (S d) [(b "temp", token_obj (Tok KComment [] 1 1))] c u s eq_refl C) as G. destruct (i_get s) as [ch s1]. cbn [fst snd] in G, C1.
  erewrite seq_next by (ev; reflexivity). rewrite seq_cons. erewrite exec_var; [|exact G|reflexivity]. cbn [obind v_vars v_tok v_in].
  rewrite seq_cons. erewrite exec_if.
  2:{ apply cond_tests. tst. }
  destruct (ch =? 47); [|erewrite exec_if; [|apply cond_tests; tst]; destruct (ch =? 42)]; cbn [obind].
  - rewrite exec_block, seq_cons, exec_while. destruct (line_loop (S d) c u F ch (Tok KComment [] 1 1) s1 C1) as (z' & t' & L).
    cbv [line_c line_b] in L. exists t'. etransitivity; [apply (Logic.f_equal (fun z => obind (obind (obind (obind z _) _) _) _)); exact L|].
    destruct t'. destruct (t_line_comment F s1); reflexivity.
  - rewrite exec_block, seq_cons, exec_while. destruct (block_loop d c u F ch (Tok KComment [] 1 1) s1 C1) as (z' & t' & l & L).
    cbv [block_c block_b] in L. exists l. etransitivity; [apply (Logic.f_equal (fun z => obind (obind (obind (obind z _) _) _) _)); exact L|].
    destruct (t_block_comment F s1); reflexivity.
  - exists token0. reflexivity.
Qed.
Lemma comment_count : forall k s s', countable s -> t_comment k s = POk s' -> countable s'.
Proof.
  intros k s s' C. unfold t_comment. pose proof (get_count s C) as C1. destruct (i_get s) as [ch s1]. cbn [snd] in C1.
  destruct (ch =? 47); [apply line_count; exact C1|]. destruct (ch =? 42); [apply block_count; exact C1|]. intros [= <-]. exact C1.
Qed.

(** ** qname() *)
Lemma seq_two : forall ex a a' r s,
  lseq ex (a :: a' :: r) s =
  obind (obind (ex a s) (fun x => let '(f, s1) := x in match f with FNext => ex a' s1 | _ => Out (f, s1) end))
        (fun x => let '(f, s2) := x in match f with FNext => lseq ex r s2 | _ => Out (f, s2) end).
Proof. intros ex a a' r s. rewrite seq_cons. destruct (ex a s) as [[[] s1]| | | |]; reflexivity. Qed.
Lemma exec_var_is : forall d t x e s,
  exec WTok d (TVar t x None (Some e)) s =
  obind (ev_ d e s) (fun p => let '(v, s1) := p in obind (sure (ltyped t v)) (fun v' => Out (FNext, LS ((x, v') :: v_vars s1) (v_tok s1) (v_in s1)))).
Proof. intros d t x e s. cbn [lexec declared_as]. destruct (ev_ d e s) as [[v s1]| | | |]; try reflexivity. cbn [obind]. destruct (ltyped t v); reflexivity. Qed.

Definition q_loop : hexpr * hstmt := match hf_body fn_qname with [_; _; TWhile c st; _; _; _] => (c, st) | _ => (EBool false, TBreak) end.
Definition q_c := Eval vm_compute in fst q_loop.
Definition q_b := Eval vm_compute in snd q_loop.
Definition q_unget : hstmt := TExpr [ECall (EDot (EName [b "is"]) (b "unget")) []].
Notation qvars t nm ln cl := [(b "name", HS nm); (b "type", HI IInt t); (b "line", HI IInt ln); (b "column", HI IInt cl)].
Notation qtype q := (if q then 23 else 2).

Lemma qname_loop : forall d c u ln cl k (q : bool) nm s, countable s ->
  obind (lwhile k (lcond (l_words the_lex) WTok (callL (S (S d))) q_c) Out (exec WTok (S (S d)) q_b) (mem (qvars (qtype q) nm ln cl) (members c u) s))
        (fun x => let '(f, s1) := x in match f with FNext => exec WTok (S (S d)) q_unget s1 | _ => Out (f, s1) end)
  = as_out (fun x : bool * bytes * istate => (FNext, mem (qvars (qtype (fst (fst x))) (snd (fst x)) ln cl) (members c u) (snd x))) (t_qname_loop F k ln cl q nm s).
Proof.
  intros d c u ln cl k. induction k as [|k IH]; intros q nm s C; [reflexivity|].
  rewrite lwhile_S. cbn [t_qname_loop]. pose proof (get_count s C) as C1.
  pose proof (eval_get (S d) (qvars (qtype q) nm ln cl) c u s eq_refl C) as G. destruct (i_get s) as [ch s1]. cbn [fst snd] in G, C1.
  assert (E : lcond (l_words the_lex) WTok (callL (S (S d))) q_c (mem (qvars (qtype q) nm ln cl) (members c u) s) = Out (ch =? 46, mem (qvars (qtype q) nm ln cl) (members c u) s1)).
  { cbv [q_c]. eapply cond_is; [eapply eval_bin; [reflexivity|exact G|reflexivity|reflexivity]|reflexivity]. }
  rewrite E. clear E. destruct (ch =? 46); cbn [obind].
  - cbv [q_b]. rewrite exec_block.
    match goal with |- context [lseq ?ex (?st :: _) ?s] => assert (E : ex st s = Out (FNext, mem (qvars 23 nm ln cl) (members c u) s1)) by (ev; reflexivity) end.
    rewrite (seq_next _ _ _ _ _ E). clear E. rewrite seq_cons, exec_var_is.
    match goal with |- context [leval ?a ?w ?cc ?e ?s] => change (leval a w cc e s) with (callL (S (S d)) WTok (b "name") [] s) end.
    rewrite (name_is d _ c u s1 C1). pose proof (name_count F true [] s1) as NC. destruct (t_name F true [] s1) as [[cur s2]| | |]; try reflexivity.
    specialize (NC cur s2 C1 eq_refl). cbn [as_out obind fst snd sure v_vars v_tok v_in pbind].
    match goal with |- context [sure ?z] => change (sure z) with (Out (HS cur)) end. cbn [obind].
    rewrite seq_cons. destruct cur as [|c0 cur].
    + reflexivity.
    + match goal with |- context [exec WTok (S (S d)) ?st ?s] => assert (E : exec WTok (S (S d)) st s = Out (FNext, s)) by reflexivity end.
      rewrite E. clear E. cbn [obind].
      match goal with |- context [lseq ?ex (?st :: _) ?s] => assert (E : ex st s = Out (FNext, mem ((b "cur", HS (c0 :: cur)) :: qvars 23 (cat nm ["."%char]) ln cl) (members c u) s2)) by (ev; reflexivity) end.
      rewrite (seq_next _ _ _ _ _ E). clear E.
      match goal with |- context [lseq ?ex (?st :: _) ?s] => assert (E : ex st s = Out (FNext, mem ((b "cur", HS (c0 :: cur)) :: qvars 23 (cat (cat nm ["."%char]) (c0 :: cur)) ln cl) (members c u) s2)) by (ev; reflexivity) end.
      rewrite (seq_next _ _ _ _ _ E). clear E.
      replace (cat (cat nm ["."%char]) (c0 :: cur)) with (nm ++ "."%char :: c0 :: cur) by (unfold cat; rewrite <- app_assoc; reflexivity).
      exact (IH true (nm ++ "."%char :: c0 :: cur) s2 NC).
  - etransitivity; [apply exec_unget; reflexivity|]. destruct (i_unget s1); reflexivity.
Qed.
Lemma qloop_count : forall k ln cl q nm s x s', countable s -> t_qname_loop F k ln cl q nm s = POk (x, s') -> countable s'.
Proof.
  induction k as [|k IH]; intros ln cl q nm s x s' C; [discriminate|]. cbn [t_qname_loop]. pose proof (get_count s C) as C1.
  destruct (i_get s) as [ch s1]. cbn [snd] in C1. destruct (ch =? 46).
  - pose proof (name_count F true [] s1) as NC. destruct (t_name F true [] s1) as [[cur s2]| | |]; cbn [pbind]; try discriminate.
    specialize (NC cur s2 C1 eq_refl). destruct cur; [discriminate|]. apply IH. exact NC.
  - destruct (i_unget s1) eqn:U; cbn [pbind]; try discriminate; intros [= <- <-]; exact (unget_count _ _ C1 U).
Qed.

(** The loop over KEYWORDS. *)
Definition k_for : hexpr * list hexpr * hstmt :=
  match hf_body fn_qname with [_; _; _; _; TIf _ (TBlock [TFor _ c p st]) _; _] => (c, p, st) | _ => (EBool false, [], TBreak) end.
Definition k_c := Eval vm_compute in fst (fst k_for).
Definition k_p := Eval vm_compute in snd (fst k_for).
Definition k_b := Eval vm_compute in snd k_for.
Definition entry (kc : bytes * tcode) : hval := HObj [(b "code", HI IInt (token_num (snd kc))); (b "keyword", HPtr (fst kc))].
Lemma table_is : l_words the_lex = map entry keywords ++ [HObj [(b "code", HI IInt 0); (b "keyword", HNull)]].
Proof. vm_compute. reflexivity. Qed.
Definition k_at : hexpr := EIndex (EName [b "KEYWORDS"]) (EName [b "i"]).
Lemma eval_at : forall d v tk n e s, nth_error (l_words the_lex) n = Some e -> assoc v (b "KEYWORDS") = None -> assoc tk (b "KEYWORDS") = None ->
  ev_ d k_at (LS ((b "i", HI IInt (Z.of_nat n)) :: v) tk s) = Out (e, LS ((b "i", HI IInt (Z.of_nat n)) :: v) tk s).
Proof.
  intros d v tk n e s H A B. unfold k_at. cbn [leval]. unfold lname. cbn [v_vars lmembers v_tok assoc].
  change (same (b "i") (b "KEYWORDS")) with false. change (same (b "KEYWORDS") (b "KEYWORDS")) with true. change (same (b "i") (b "i")) with true. cbn beta iota. rewrite A, B.
  cbn [ready sure obind]. cbn [v_vars assoc]. change (same (b "i") (b "i")) with true. cbn [ready sure obind]. unfold inside. rewrite Nat2Z.id, H.
  assert (L : (n < length (l_words the_lex))%nat) by (apply nth_error_Some; rewrite H; discriminate).
  destruct (0 ?= Z.of_nat n) eqn:Z0; [| |apply Z.compare_gt_iff in Z0; lia];
    (destruct (Z.of_nat n ?= Z.of_nat (length (l_words the_lex))) eqn:Z1;
       [apply Z.compare_eq_iff in Z1; lia|reflexivity|apply Z.compare_gt_iff in Z1; lia]).
Qed.
Lemma eval_at_dot : forall d m v tk n l x s, nth_error (l_words the_lex) n = Some (HObj l) -> assoc v (b "KEYWORDS") = None -> assoc tk (b "KEYWORDS") = None ->
  assoc l m = Some x ->
  ev_ d (EDot k_at m) (LS ((b "i", HI IInt (Z.of_nat n)) :: v) tk s) = Out (x, LS ((b "i", HI IInt (Z.of_nat n)) :: v) tk s).
Proof.
  intros d m v tk n l x s H A B X.
  change (ev_ d (EDot k_at m) (LS ((b "i", HI IInt (Z.of_nat n)) :: v) tk s))
    with (obind (ev_ d k_at (LS ((b "i", HI IInt (Z.of_nat n)) :: v) tk s)) (fun p => let '(v, s1) := p in match v with HObj l => obind (sure (assoc l m)) (fun x => Out (x, s1)) | _ => Bad end)).
  rewrite (eval_at d v tk n _ s H A B). cbn [obind]. rewrite X. reflexivity.
Qed.

Lemma keyword_loop : forall d c u ln cl nm s l pre k, keywords = pre ++ l -> (forall kc, In kc l -> cstr (fst kc) = fst kc) -> (length l < k)%nat ->
  exists z, lwhile k (lcond (l_words the_lex) WTok (callL d) k_c) (leffects (l_words the_lex) WTok (callL d) k_p) (exec WTok d k_b)
              (mem ((b "i", HI IInt (Z.of_nat (length pre))) :: qvars 2 nm ln cl) (members c u) s)
            = Out (FNext, mem ((b "i", HI IInt z) :: qvars (token_num (keyword l nm)) nm ln cl) (members c u) s).
Proof.
  intros d c u ln cl nm s l. induction l as [|[w t] l IH]; intros pre k K W N; (destruct k as [|k]; [inversion N|]); rewrite lwhile_S.
  - exists (Z.of_nat (length pre)).
    assert (H : nth_error (l_words the_lex) (length pre) = Some (HObj [(b "code", HI IInt 0); (b "keyword", HNull)])).
    { rewrite table_is, K, app_nil_r, nth_error_app2; rewrite map_length; [rewrite Nat.sub_diag; reflexivity|lia]. }
    cbv [k_c]. erewrite cond_is.
    2:{ eapply eval_bin; [reflexivity|exact (eval_at_dot d (b "keyword") (qvars 2 nm ln cl) (members c u) (length pre) _ _ (stream_obj s) H eq_refl eq_refl eq_refl)|reflexivity|reflexivity]. }
    2:{ reflexivity. }
    reflexivity.
  - assert (H : nth_error (l_words the_lex) (length pre) = Some (entry (w, t))).
    { rewrite table_is, K, nth_error_app1 by (rewrite map_length, app_length; cbn [length]; lia). rewrite map_app, nth_error_app2; rewrite map_length; [rewrite Nat.sub_diag; reflexivity|lia]. }
    assert (C : lcond (l_words the_lex) WTok (callL d) k_c (mem ((b "i", HI IInt (Z.of_nat (length pre))) :: qvars 2 nm ln cl) (members c u) s)
                = Out (true, mem ((b "i", HI IInt (Z.of_nat (length pre))) :: qvars 2 nm ln cl) (members c u) s)).
    { cbv [k_c]. eapply (cond_is _ _ _ (HB true)); [|reflexivity].
      eapply eval_bin; [reflexivity|exact (eval_at_dot d (b "keyword") (qvars 2 nm ln cl) (members c u) (length pre) _ _ (stream_obj s) H eq_refl eq_refl eq_refl)|reflexivity|reflexivity]. }
    rewrite C. clear C. cbn [obind keyword].
    assert (T : lcond (l_words the_lex) WTok (callL d) (EBin (b "==") (EName [b "name"]) (EDot k_at (b "keyword"))) (mem ((b "i", HI IInt (Z.of_nat (length pre))) :: qvars 2 nm ln cl) (members c u) s)
                = Out (bytes_eqb nm w, mem ((b "i", HI IInt (Z.of_nat (length pre))) :: qvars 2 nm ln cl) (members c u) s)).
    { eapply cond_is.
      - eapply eval_bin; [reflexivity|reflexivity|exact (eval_at_dot d (b "keyword") (qvars 2 nm ln cl) (members c u) (length pre) _ _ (stream_obj s) H eq_refl eq_refl eq_refl)|reflexivity].
      - cbn [truth]. unfold str_eqb. pose proof (W (w, t) (or_introl eq_refl)) as Q. cbn [fst] in Q |- *. rewrite Q. reflexivity. }
    cbv [k_b]. rewrite exec_block, seq_cons. erewrite exec_if by exact T.
    destruct (bytes_eqb nm w).
    + exists (Z.of_nat (length pre)). rewrite exec_block, seq_cons, exec_expr.
      erewrite eval_set; [|exact (eval_at_dot d (b "code") (qvars 2 nm ln cl) (members c u) (length pre) _ _ (stream_obj s) H eq_refl eq_refl eq_refl)|reflexivity].
      reflexivity.
    + cbn [obind]. destruct (IH (pre ++ [(w, t)]) k) as (z & L).
      { rewrite K, <- app_assoc. reflexivity. }
      { intros kc I. apply W. right. exact I. }
      { cbn [length] in N. lia. }
      exists z. rewrite <- L. rewrite app_length. cbn [length]. rewrite Nat2Z.inj_add. change (Z.of_nat 1) with 1.
      assert (O : int_ok (Z.of_nat (length pre) + 1) = true).
      { assert (Q : (length keywords = length pre + S (length l))%nat) by (rewrite K, app_length; reflexivity). apply int_ok_iff. cbn in Q. lia. }
      cbv [lleave with_vars v_vars length]. cbn [Nat.sub skipn v_tok v_in].
      assert (A : leffects (l_words the_lex) WTok (callL d) k_p (mem ((b "i", HI IInt (Z.of_nat (length pre))) :: qvars 2 nm ln cl) (members c u) s)
                  = Out (mem ((b "i", HI IInt (Z.of_nat (length pre) + 1)) :: qvars 2 nm ln cl) (members c u) s)).
      { clear - O. revert O. generalize (Z.of_nat (length pre)). intros z0 O. cbv [k_p]. cbv -[LexTextProofs.callL Z.add int_ok stream_obj l_words]. rewrite O. reflexivity. }
      exact (Logic.f_equal (fun r => obind r (fun s3 => lwhile k (lcond (l_words the_lex) WTok (callL d) k_c) (leffects (l_words the_lex) WTok (callL d) k_p) (exec WTok d k_b) s3)) A).
Qed.
Lemma keywords_plain : forall kc, In kc keywords -> cstr (fst kc) = fst kc.
Proof.
  assert (H : forallb (fun kc => bytes_eqb (cstr (fst kc)) (fst kc)) keywords = true) by reflexivity.
  intros kc I. rewrite forallb_forall in H. apply BaseProofs.bytes_eqb_true. exact (H kc I).
Qed.
Lemma qname_is : forall d v c u ln cl s, countable s -> (25 < F)%nat ->
  callL (S (S (S d))) WTok (b "qname") [HI IInt ln; HI IInt cl] (mem v (members c u) s)
  = as_out (fun x => (token_obj (fst x), mem v (members c u) (snd x))) (t_qname F ln cl s).
Proof.
  intros d v c u ln cl s C B. rewrite (call_final (S (S d)) _ fn_qname _ _ [(b "line", HI IInt ln); (b "column", HI IInt cl)]) by find.
  cbn [v_vars v_tok v_in]. cbv [fn_qname hf_body]. unfold t_qname. nx.
  rewrite seq_cons, exec_var_is.
  match goal with |- context [leval ?a ?w ?cc ?e ?s] => change (leval a w cc e s) with (callL (S (S d)) WTok (b "name") [] s) end.
  rewrite (name_is d _ c u s C). pose proof (name_count F true [] s) as NC. destruct (t_name F true [] s) as [[nm s1]| | |]; try reflexivity.
  specialize (NC nm s1 C eq_refl). cbn [as_out obind fst snd sure v_vars v_tok v_in pbind].
  match goal with |- context [sure ?z] => change (sure z) with (Out (HS nm)) end. cbn [obind].
  rewrite seq_two, exec_while. pose proof (qname_loop d c u ln cl F false nm s1 NC) as L. cbv [q_c q_b] in L.
  etransitivity; [apply (Logic.f_equal (fun z => obind (obind z _) _)); exact L|]. clear L.
  destruct (t_qname_loop F F ln cl false nm s1) as [[[q nm2] s2]| | |]; try reflexivity. cbn [as_out obind fst snd pbind].
  destruct q.
  - reflexivity.
  - rewrite seq_cons. erewrite exec_if.
    2:{ apply cond_tests. tst. }
    change (2 =? 2) with true. cbn iota. rewrite exec_block, seq_cons.
    destruct (keyword_loop (S (S d)) c u ln cl nm2 s2 keywords [] F eq_refl keywords_plain B) as (z & L). cbv [k_c k_p k_b] in L.
    match goal with |- context [exec WTok (S (S d)) ?st ?s] => assert (E : exec WTok (S (S d)) st s = Out (FNext, mem (qvars (token_num (keyword keywords nm2)) nm2 ln cl) (members c u) s2)) end.
    { exact (Logic.f_equal (fun r => obind r (fun p => let '(f, s3) := p in Out (f, lleave (mem (qvars 2 nm2 ln cl) (members c u) s2) s3))) L). }
    rewrite E. cbn [obind]. destruct (keyword keywords nm2); reflexivity.
Qed.
Lemma qname_count : forall ln cl s x s', countable s -> t_qname F ln cl s = POk (x, s') -> countable s'.
Proof.
  intros ln cl s x s' C. unfold t_qname. pose proof (name_count F true [] s) as NC. destruct (t_name F true [] s) as [[nm s1]| | |]; cbn [pbind]; try discriminate.
  specialize (NC nm s1 C eq_refl). pose proof (qloop_count F ln cl false nm s1) as QC.
  destruct (t_qname_loop F F ln cl false nm s1) as [[p s2]| | |]; cbn [pbind]; try discriminate. destruct p as [q nm2].
  intros [= <- <-]. exact (QC _ _ NC eq_refl).
Qed.

(** ** next() *)
Definition fields (t : token) : list (bytes * hval) :=
  [(b "code", HI IInt (token_num (t_code t))); (b "value", HS (t_value t)); (b "line", HI IInt (t_line t)); (b "column", HI IInt (t_col t))].
Lemma assign_current : forall d call v c u s m, assoc v (b "current") = None ->
  ev_ d call s = as_out (fun x : token * istate => (token_obj (fst x), mem v (members c u) (snd x))) m ->
  exec WTok d (TExpr [ESet (b "=") (EName [b "current"]) call]) s
  = as_out (fun x => (FNext, mem v (members (fields (fst x)) u) (snd x))) m.
Proof.
  intros d call v c u s m A H. rewrite exec_expr.
  destruct m as [[t s1]| | |]; cbn [as_out fst snd] in *.
  - erewrite eval_set; [|exact H|reflexivity]. unfold lassign, lname, lput. cbn [v_vars]. rewrite A. reflexivity.
  - cbn [leval]. rewrite H. reflexivity.
  - cbn [leval]. rewrite H. reflexivity.
  - cbn [leval]. rewrite H. reflexivity.
Qed.

Definition n_b : hstmt := Eval vm_compute in match hf_body fn_next with [_; _; TWhile _ st; _] => st | _ => TBreak end.
Notation pos ln cl := [(b "column", HI IInt cl); (b "line", HI IInt ln)].
Definition n_last : hstmt := Eval vm_compute in match hf_body fn_next with [_; _; _; e] => e | _ => TBreak end.
Definition after_loop d v (x : lflow * lst) :=
  obind (let '(f, s1) := x in match f with FNext => lseq (exec WTok d) [n_last] s1 | _ => Out (f, s1) end) (final [b "Token"] v).

Ltac step H := match type of H with ?l = _ => match goal with |- context [lexec ?a1 ?a2 ?a3 ?a4 (TExpr ?e) ?m] => change (lexec a1 a2 a3 a4 (TExpr e) m) with l end end; rewrite H.
Ltac stepe H := match type of H with ?l = _ => match goal with |- context [leval ?a1 ?a2 ?a3 ?e ?m] => change (leval a1 a2 a3 e m) with l end end; rewrite H.
Lemma next_loop : forall d v k l1 c1 c s, countable s -> (25 < F)%nat ->
  obind (lwhile k (lcond (l_words the_lex) WTok (callL (S (S (S d)))) (EBool true)) Out (exec WTok (S (S (S d))) n_b) (mem (pos l1 c1) (members c false) s))
        (after_loop (S (S (S d))) v)
  = as_out (fun x => (token_obj (fst x), mem v (members (fields (fst x)) false) (snd x))) (t_next F k s).
Proof.
  intros d v k. set (D := S (S (S d))). induction k as [|k IH]; intros l1 c1 c s C B; [reflexivity|].
  rewrite lwhile_S. cbn [t_next]. change (lcond (l_words the_lex) WTok (callL D) (EBool true) (mem (pos l1 c1) (members c false) s)) with (Out (true, mem (pos l1 c1) (members c false) s)).
  cbn [obind]. cbv [n_b]. rewrite exec_block.
  erewrite seq_next by (ev; reflexivity).
  rewrite seq_cons, exec_expr. rewrite (eval_stream D (b "skipws") (pos l1 c1) c false _ eq_refl : leval _ _ _ (ECall (EDot (EName [[_; _]]) [_; _; _; _; _; _]) []) _ = _).
  unfold D at 1. rewrite (skipws_is F (S d)) by exact C. pose proof (skipws_count F s) as SC. destruct (i_skipws F s) as [s1| | |]; try reflexivity.
  specialize (SC s1 C eq_refl). cbn [as_out obind pbind].
  match goal with |- context [lseq ?ex (?st :: _) ?s] => assert (E : ex st s = Out (FNext, mem (pos (i_line s1) c1) (members c false) s1)) by reflexivity end.
  rewrite (seq_next _ _ _ _ _ E). clear E.
  match goal with |- context [lseq ?ex (?st :: _) ?s] => assert (E : ex st s = Out (FNext, mem (pos (i_line s1) (i_col s1)) (members c false) s1)) by reflexivity end.
  rewrite (seq_next _ _ _ _ _ E). clear E.
  set (ln := i_line s1). set (cl := i_col s1).
  pose proof (get_count s1 SC) as C1. pose proof (eval_get (S (S d)) (pos ln cl) c false s1 eq_refl SC) as G. fold D in G. destruct (i_get s1) as [ch s2]. cbn [fst snd] in G, C1.
  rewrite seq_cons. erewrite exec_var; [|exact G|reflexivity]. cbn [obind v_vars v_tok v_in].
  rewrite seq_cons. erewrite exec_if; [|apply cond_tests; tst].
  destruct (ch <? 0) eqn:N0; cbn [obind]; [reflexivity|].
  rewrite seq_cons. set (V := [(b "cur", HI IInt ch); (b "column", HI IInt cl); (b "line", HI IInt ln)]).
  change ((b "cur", HI IInt ch) :: pos ln cl) with V.
  erewrite exec_if with (x := letter_code ch); [|apply cond_tests; unfold letter_code; tst].
  destruct (letter_code ch) eqn:N1.
  { rewrite exec_block, seq_cons. pose proof (exec_unget (S (S d)) V c false s2 eq_refl) as U. fold D in U.
    step U. clear U.
    pose proof (unget_count s2) as UC. destruct (i_unget s2) as [s3| | |]; try reflexivity. specialize (UC s3 C1 eq_refl). cbn [as_out obind pbind].
    rewrite seq_cons.
    pose proof (assign_current D (ECall (EName [b "qname"]) [EName [b "line"]; EName [b "column"]]) V c false (mem V (members c false) s3) (t_qname F ln cl s3) eq_refl (qname_is d V c false ln cl s3 UC B)) as A.
    step A.
    destruct (t_qname F ln cl s3) as [[t s4]| | |]; reflexivity. }
  erewrite exec_if with (x := digit_code ch); [|apply cond_tests; unfold digit_code; tst].
  destruct (digit_code ch) eqn:N2.
  { assert (Z0 : (ch =? 0) = false) by (destruct (ch =? 0) eqn:Q; [apply Z.eqb_eq in Q; subst ch; discriminate N2|reflexivity]).
    pose proof (assign_current D (ECall (EName [b "integer"]) [EName [b "cur"]; EName [b "line"]; EName [b "column"]]) V c false (mem V (members c false) s2) (t_integer F ln cl [chr ch] s2) eq_refl (integer_is (S d) V c false ch ln cl s2 C1 Z0)) as A.
    step A.
    destruct (t_integer F ln cl [chr ch] s2) as [[t s4]| | |]; reflexivity. }
  erewrite exec_if; [|apply cond_tests; tst].
  destruct (ch =? 47) eqn:N3.
  { rewrite exec_block, seq_cons, exec_expr. destruct (comment_is d V c false s2 C1) as (l & Q). fold D in Q.
    stepe Q.
    pose proof (comment_count F s2) as CC. destruct (t_comment F s2) as [s3| | |]; try reflexivity. specialize (CC s3 C1 eq_refl). cbn [as_out obind pbind].
    exact (IH ln cl c s3 CC B). }
  erewrite exec_if; [|apply cond_tests; tst].
  destruct ((ch =? 10) || (ch =? 13)) eqn:N4.
  { exact (IH ln cl c s2 C1 B). }
  erewrite exec_if; [|apply cond_tests; tst].
  destruct (ch =? 34) eqn:N5.
  { pose proof (assign_current D (ECall (EName [b "literalString"]) [EName [b "line"]; EName [b "column"]]) V c false (mem V (members c false) s2) (t_string F ln cl [] s2) eq_refl (string_is (S d) V c false ln cl s2 C1)) as A.
    step A.
    destruct (t_string F ln cl [] s2) as [[t s4]| | |]; reflexivity. }
  unfold punct_code.
  do 9 (erewrite exec_if; [|apply cond_tests; tst];
        match goal with |- context [obind (if ?x then _ else _) _] => destruct x end; [reflexivity|]).
  reflexivity.
Qed.

End P.
