(** The functions next and unget of the Tokenizer, executed from the text, and the lexer of a text. *)
From Coq Require Import Lia Arith.
From Verif Require Import Bytes ProtoLex ProtoParse CLex CParse CExec HParse HExec LexSrc LexRead LexExec BaseProofs SpecLexText LexTextProofs LexTokProofs.

Lemma obind_after : forall A B C (m : out A) (f : A -> out B) (g : B -> out C), obind (obind m f) g = obind m (fun x => obind (f x) g).
Proof. intros. destruct m; reflexivity. Qed.

Section P.
Context (F : nat).
Notation callL := (callL F).
Notation exec w d := (lexec F (l_words the_lex) w (callL d)).
Notation mem v tk s := (LS v tk (stream_obj s)).
Definition fn_put_back := Eval vm_compute in fn_of WTok "unget".

Lemma next_is : forall d v st, countable (p_src st) -> (25 < F)%nat ->
  callL (S (S (S (S d)))) WTok (b "next") [] (memory v st)
  = as_out (fun x => (token_obj (fst x), memory v (snd x))) (p_next istate (t_next F F) st).
Proof.
  intros d v [s cur ung] C B. unfold memory, p_next. cbn [p_src p_cur p_ung] in *.
  rewrite (call_final F (S (S (S d))) _ fn_next _ _ []) by (vm_compute; reflexivity). cbn [v_vars v_tok v_in]. cbv [fn_next hf_body].
  erewrite seq_next by reflexivity. erewrite seq_next by reflexivity. rewrite seq_cons, exec_while.
  destruct ung.
  - destruct F as [|k]; [lia|]. reflexivity.
  - etransitivity; [|etransitivity; [exact (next_loop F d v F 1 1 (fields cur) s C B)|]].
    + apply obind_after.
    + destruct (t_next F F s) as [[t s']| | |]; reflexivity.
Qed.
Lemma next_count : forall k s x s', countable s -> t_next F k s = POk (x, s') -> countable s'.
Proof.
  induction k as [|k IH]; intros s x s' C; [discriminate|]. cbn [t_next].
  pose proof (skipws_count F s) as SC. destruct (i_skipws F s) as [s1| | |]; cbn [pbind]; try discriminate. specialize (SC s1 C eq_refl).
  pose proof (get_count s1 SC) as C1. destruct (i_get s1) as [ch s2]. cbn [snd] in C1.
  destruct (ch <? 0); [intros [= <- <-]; exact C1|].
  destruct (letter_code ch).
  { pose proof (unget_count s2) as UC. destruct (i_unget s2) as [s3| | |]; cbn [pbind]; try discriminate. intros Q. exact (qname_count F _ _ _ _ _ (UC s3 C1 eq_refl) Q). }
  destruct (digit_code ch); [intros Q; exact (integer_count _ _ _ _ _ _ _ C1 Q)|].
  destruct (ch =? 47).
  { pose proof (comment_count F s2) as CC. destruct (t_comment F s2) as [s3| | |]; cbn [pbind]; try discriminate. intros Q. exact (IH _ _ _ (CC s3 C1 eq_refl) Q). }
  destruct (_ || _); [intros Q; exact (IH _ _ _ C1 Q)|].
  destruct (ch =? 34); [intros Q; exact (string_count _ _ _ _ _ _ _ C1 Q)|].
  destruct (punct_code ch); [intros [= <- <-]; exact C1|discriminate].
Qed.
Lemma put_back_is : forall d v st,
  callL (S d) WTok (b "unget") [] (memory v st) = as_out (fun x => (HVoid, memory v (snd x))) (p_unget st).
Proof.
  intros d v [s cur ung]. unfold memory, p_unget. cbn [p_src p_cur p_ung].
  rewrite (call_final F d _ fn_put_back _ _ []) by (vm_compute; reflexivity). cbn [v_vars v_tok v_in].
  destruct ung; reflexivity.
Qed.
End P.

(** ** From the text *)
Lemma source_is : forall F w f vs s, source_call proto3_cc F w f vs s = callL F 8 w (b f) vs s.
Proof. intros. unfold source_call. rewrite the_lex_is. reflexivity. Qed.
Lemma start_is : forall text, lstart (ltext_of proto3_cc) text = Some (memory [] (PS (i_start text) token0 false)).
Proof. intros. rewrite the_lex_is. reflexivity. Qed.
Lemma start_count : forall text, Z.of_nat (length text) < 2147483647 -> countable (i_start text).
Proof. intros text H. unfold countable, i_start. cbn [i_rest i_last i_line i_col i_ungot]. change (-1 =? 10) with false. cbn iota. lia. Qed.

Lemma source_get : forall F v s, countable (p_src s) ->
  source_call proto3_cc F WIn "get" [] (memory v s) = Out (HI IInt (fst (i_get (p_src s))), memory v (PS (snd (i_get (p_src s))) (p_cur s) (p_ung s))).
Proof. intros F v s C. rewrite source_is. exact (get_is F 7 v (lexer_obj s) (p_src s) C). Qed.
Lemma source_unget : forall F v s,
  source_call proto3_cc F WIn "unget" [] (memory v s) = as_out (fun i => (HVoid, memory v (PS i (p_cur s) (p_ung s)))) (i_unget (p_src s)).
Proof. intros F v s. rewrite source_is. exact (unget_is F 7 v (lexer_obj s) (p_src s)). Qed.
Lemma source_skipws : forall F v s, countable (p_src s) ->
  source_call proto3_cc F WIn "skipws" [] (memory v s) = as_out (fun i => (HVoid, memory v (PS i (p_cur s) (p_ung s)))) (i_skipws F (p_src s)).
Proof. intros F v s C. rewrite source_is. exact (skipws_is F 6 v (lexer_obj s) (p_src s) C). Qed.
Lemma source_expect : forall F v s e, countable (p_src s) -> -2147483648 <= e <= 2147483647 ->
  source_call proto3_cc F WIn "expect" [HI IInt e] (memory v s) = as_out (fun x => (HB (fst x), memory v (PS (snd x) (p_cur s) (p_ung s)))) (i_expect e (p_src s)).
Proof. intros F v s e C I. rewrite source_is. exact (expect_is F 6 v (lexer_obj s) (p_src s) e C (proj2 (int_ok_iff e) I)). Qed.
Lemma source_position : forall F v s,
  source_call proto3_cc F WIn "line" [] (memory v s) = Out (HI IInt (i_line (p_src s)), memory v s) /\
  source_call proto3_cc F WIn "column" [] (memory v s) = Out (HI IInt (i_col (p_src s)), memory v s).
Proof. intros F v s. rewrite !source_is. split; reflexivity. Qed.
Lemma source_next : forall F v s, countable (p_src s) -> (25 < F)%nat ->
  source_call proto3_cc F WTok "next" [] (memory v s) = as_out (fun x => (token_obj (fst x), memory v (snd x))) (p_next istate (t_next F F) s).
Proof. intros F v s C B. rewrite source_is. exact (next_is F 4 v s C B). Qed.
Lemma source_back : forall F v s,
  source_call proto3_cc F WTok "unget" [] (memory v s) = as_out (fun x => (HVoid, memory v (snd x))) (p_unget s).
Proof. intros F v s. rewrite source_is. exact (put_back_is F 7 v s). Qed.

Lemma p_next_count : forall F s x s', countable (p_src s) -> p_next istate (t_next F F) s = POk (x, s') -> countable (p_src s').
Proof.
  intros F [i cur ung] x s' C. unfold p_next. cbn [p_src p_cur p_ung] in *. destruct ung; [intros [= <- <-]; exact C|].
  pose proof (next_count F F i) as N. destruct (t_next F F i) as [[t r]| | |]; try discriminate. intros [= <- <-]. exact (N _ _ C eq_refl).
Qed.
Lemma calls_are : forall F l v s, countable (p_src s) -> (25 < F)%nat ->
  text_calls (ltext_of proto3_cc) F l (memory v s) = as_out (map token_obj) (model_calls F l s).
Proof.
  intros F l v. induction l as [|[|] l IH]; intros s C B; cbn [text_calls model_calls]; [reflexivity| |].
  - change (lcall (ltext_of proto3_cc) F 8 WTok (b "next") []) with (source_call proto3_cc F WTok "next" []). rewrite source_next by assumption. pose proof (p_next_count F s) as N.
    destruct (p_next istate (t_next F F) s) as [[t s']| | |]; try reflexivity. cbn [as_out obind pbind fst snd].
    rewrite IH by (try exact B; exact (N _ _ C eq_refl)). destruct (model_calls F l s'); reflexivity.
  - change (lcall (ltext_of proto3_cc) F 8 WTok (b "unget") []) with (source_call proto3_cc F WTok "unget" []). rewrite source_back. unfold p_unget. destruct (p_ung s); [reflexivity|]. cbn [as_out obind pbind fst snd]. apply IH; assumption.
Qed.
Lemma lexed : forall F l text, Z.of_nat (length text) < 2147483647 -> (25 < F)%nat -> exists s,
  lstart (ltext_of proto3_cc) text = Some s /\
  text_calls (ltext_of proto3_cc) F l s = as_out (map token_obj) (model_calls F l (PS (i_start text) token0 false)).
Proof.
  intros F l text L B. exists (memory [] (PS (i_start text) token0 false)). split; [apply start_is|].
  apply calls_are; [exact (start_count text L)|exact B].
Qed.
