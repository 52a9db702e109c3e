(** The text of the lexer, executed, against ProtoLex.v. *)
From Coq Require Import Lia Arith.
From Verif Require Import Bytes ProtoLex ProtoParse CLex CParse CExec HParse HExec LexSrc LexRead LexExec SpecLexText.

Definition the_lex : ltext := Eval vm_compute in ltext_of proto3_cc.
Lemma the_lex_is : ltext_of proto3_cc = the_lex.
Proof. vm_compute. reflexivity. Qed.

Section P.
Context (F : nat).
Definition callL := lcall the_lex F.
Notation exec w d := (lexec F (l_words the_lex) w (callL d)).
Notation mem v tk s := (LS v tk (stream_obj s)).

Lemma seq_cons : forall ex st r s,
  lseq ex (st :: r) s = obind (ex st s) (fun x => let '(f, s1) := x in match f with FNext => lseq ex r s1 | _ => Out (f, s1) end).
Proof. reflexivity. Qed.
Lemma seq_next : forall ex st r s s1, ex st s = Out (FNext, s1) -> lseq ex (st :: r) s = lseq ex r s1.
Proof. intros. rewrite seq_cons, H. reflexivity. Qed.
Lemma lwhile_S : forall k c next body s,
  lwhile (S k) c next body s =
  obind (c s) (fun x => let '(x, s1) := x in
    if x then obind (body s1) (fun y => let '(f, s2) := y in
      match f with
      | FNext | FContinue => obind (next s2) (fun s3 => lwhile k c next body s3)
      | FBreak => Out (FNext, s2)
      | FReturn v => Out (FReturn v, s2)
      end)
    else Out (FNext, s1)).
Proof. reflexivity. Qed.
Lemma exec_block : forall w d l s, exec w d (TBlock l) s = obind (lseq (exec w d) l s) (fun x => let '(f, s1) := x in Out (f, lleave s s1)).
Proof. reflexivity. Qed.
Lemma exec_while : forall w d c st s,
  exec w d (TWhile c st) s = lwhile F (lcond (l_words the_lex) w (callL d) c) Out (exec w d st) s.
Proof. reflexivity. Qed.
Lemma exec_do : forall w d st s, exec w d (TDo st (EBool true)) s = lwhile F (fun s => Out (true, s)) Out (exec w d st) s.
Proof. reflexivity. Qed.
Lemma exec_if : forall w d c st e s x s1, lcond (l_words the_lex) w (callL d) c s = Out (x, s1) ->
  exec w d (TIf c st e) s = if x then exec w d st s1 else match e with Some st' => exec w d st' s1 | None => Out (FNext, s1) end.
Proof. intros w d c st e s x s1 H. cbn [lexec]. rewrite H. reflexivity. Qed.
Lemma exec_out : forall w d st s r, exec w d st s = r -> forall (k : lflow * lst -> out (lflow * lst)), obind (exec w d st s) k = obind r k.
Proof. intros. subst. reflexivity. Qed.
Lemma seq_return : forall ex st r s v s1, ex st s = Out (FReturn v, s1) -> lseq ex (st :: r) s = Out (FReturn v, s1).
Proof. intros. rewrite seq_cons, H. reflexivity. Qed.

Definition fn_of (w : whose) (f : string) : hfun :=
  match hfind (match w with WIn => l_stream the_lex | WTok => l_lexer the_lex end) (b f) with Some x => x | None => HFun [] [] [] [] end.
Lemma call_is : forall d w f fn vs s, hfind (match w with WIn => l_stream the_lex | WTok => l_lexer the_lex end) f = Some fn ->
  callL (S d) w f vs s = lrun F (l_words the_lex) w (callL d) fn vs s.
Proof. intros d w f fn vs s H. unfold callL. cbn [lcall]. rewrite H. reflexivity. Qed.

Ltac ev := cbv -[callL lwhile Z.add Z.sub Z.leb Z.ltb Z.eqb Z.land int_ok char_of byte_of code cat str_eqb stream_obj i_unget i_get l_words].
Ltac evi H := cbv -[callL lwhile Z.add Z.sub Z.leb Z.ltb Z.eqb Z.land int_ok char_of byte_of code cat str_eqb stream_obj i_unget i_get l_words] in H.
Ltac evs := cbv -[callL lwhile Z.add Z.sub Z.leb Z.ltb Z.eqb Z.land int_ok char_of byte_of code cat str_eqb l_words].

Lemma int_ok_iff : forall z, int_ok z = true <-> -2147483648 <= z <= 2147483647.
Proof. intros z. unfold int_ok. rewrite andb_true_iff, !Z.leb_le. lia. Qed.
Lemma land_code : forall c, Z.land (char_of c) 255 = code c.
Proof. intros c. destruct c as [[|] [|] [|] [|] [|] [|] [|] [|]]; reflexivity. Qed.
Lemma code_range : forall c, 0 <= code c <= 255.
Proof. intros c. destruct c as [[|] [|] [|] [|] [|] [|] [|] [|]]; cbv; split; discriminate. Qed.

(** ** InputStream *)
Lemma get_count : forall s, countable s -> countable (snd (i_get s)).
Proof.
  intros [r l ln cl u] (A & B & C & D & E). unfold i_get. cbn [i_rest i_last i_line i_col i_ungot] in *.
  destruct u; cbn [snd]; [repeat split; cbn [i_rest i_last i_line i_col i_ungot]; lia|].
  destruct r as [|c r]; cbn [snd]; unfold countable; cbn [i_rest i_last i_line i_col i_ungot].
  - destruct (l =? 10); repeat split; change (-2 =? 10) with false; cbn [length] in *; lia.
  - pose proof (code_range c). cbn [length] in *. destruct (l =? 10), (code c =? 10); repeat split; lia.
Qed.
Lemma unget_count : forall s s', countable s -> i_unget s = POk s' -> countable s'.
Proof.
  intros [r l ln cl u] s' C. unfold i_unget. cbn [i_rest i_last i_line i_col i_ungot].
  destruct (0 <=? l); [destruct u; [discriminate|]|]; intros [= <-]; exact C.
Qed.

Definition fn_get := Eval vm_compute in fn_of WIn "get".
Definition fn_unget := Eval vm_compute in fn_of WIn "unget".
Definition fn_skipws := Eval vm_compute in fn_of WIn "skipws".
Definition fn_expect := Eval vm_compute in fn_of WIn "expect".
Ltac find := vm_compute; reflexivity.

Lemma run_is : forall w d f vs s vars, lparams (hf_params f) vs = Some vars ->
  lrun F (l_words the_lex) w (callL d) f vs s =
  obind (lseq (exec w d) (hf_body f) (with_vars s vars))
        (fun x => let '(fl, s1) := x in obind (sure (lresult (hf_ret f) fl)) (fun r => Out (r, with_vars s1 (v_vars s)))).
Proof. intros w d f vs s vars H. unfold lrun. rewrite H. reflexivity. Qed.
Ltac fn f := erewrite run_is; [|reflexivity]; cbv [f hf_body hf_ret with_vars v_vars v_tok v_in].
Ltac nx := erewrite seq_next; [|solve [evs; reflexivity]].
Ltac nxr H := erewrite seq_next; [|solve [evs; rewrite H; evs; reflexivity]].
Ltac rt := erewrite seq_return; [|solve [evs; reflexivity]].
Lemma get_is : forall d v tk s, countable s ->
  callL (S d) WIn (b "get") [] (mem v tk s) = Out (HI IInt (fst (i_get s)), mem v tk (snd (i_get s))).
Proof.
  intros d v tk s C. rewrite (call_is d WIn _ fn_get) by find.
  destruct s as [r l ln cl u]. destruct C as (A & B & C & D & E). cbn [i_rest i_last i_line i_col i_ungot length] in *.
  fn fn_get.
  destruct u; [erewrite seq_return; [|evs; reflexivity]; reflexivity|]. unfold i_get. cbn [i_rest i_last i_line i_col i_ungot].
  nx.
  match goal with |- context [lseq ?ex (?st :: _) ?s] =>
    assert (H : ex st s = Out (FNext, mem [] tk (IS r l (if l =? 10 then ln + 1 else ln) (if l =? 10 then 0 else cl) false))) end.
  { destruct (l =? 10) eqn:N.
    - assert (O1 : int_ok (ln + 1) = true) by (apply int_ok_iff; lia). evs. rewrite N. evs. rewrite O1. evs. reflexivity.
    - evs. rewrite N. reflexivity. }
  rewrite (seq_next _ _ _ _ _ H). clear H.
  destruct r as [|c r].
  - rt. reflexivity.
  - assert (O2 : int_ok ((if l =? 10 then 0 else cl) + 1) = true) by (apply int_ok_iff; cbn [length] in E; destruct (l =? 10); lia).
    destruct (l =? 10); (nx; nxr land_code; nx; nxr O2; rt; reflexivity).
Qed.
Lemma unget_is : forall d v tk s,
  callL (S d) WIn (b "unget") [] (mem v tk s) = as_out (fun s' => (HVoid, mem v tk s')) (i_unget s).
Proof.
  intros d v tk [r l ln cl u]. rewrite (call_is d WIn _ fn_unget) by find. unfold i_unget. cbn [i_rest i_last i_line i_col i_ungot].
  destruct (0 <=? l) eqn:N; [destruct u|]; evs; rewrite N; evs; reflexivity.
Qed.
Ltac use L :=
  match goal with |- context [callL ?d ?w ?f ?a ?s] =>
    let H := fresh in
    eassert (H : callL d w f a s = _) by (eapply L; first [eassumption | lia | ev; reflexivity]); rewrite H; clear H
  end.

(** A call may run deeper. *)
Lemma line_is : forall d v tk s, callL (S d) WIn (b "line") [] (mem v tk s) = Out (HI IInt (i_line s), mem v tk s).
Proof. intros. reflexivity. Qed.
Lemma column_is : forall d v tk s, callL (S d) WIn (b "column") [] (mem v tk s) = Out (HI IInt (i_col s), mem v tk s).
Proof. intros. reflexivity. Qed.

Lemma expect_is : forall d v tk s e, countable s -> int_ok e = true ->
  callL (S (S d)) WIn (b "expect") [HI IInt e] (mem v tk s) = as_out (fun x => (HB (fst x), mem v tk (snd x))) (i_expect e s).
Proof.
  intros d v tk s e C I. rewrite (call_is (S d) WIn _ fn_expect) by find. fn fn_expect.
  unfold i_expect. pose proof (get_is d [(b "expect", HI IInt e)] tk s C) as G. destruct (i_get s) as [ch s1]. cbn [fst snd] in G.
  rewrite seq_cons. erewrite exec_if.
  2:{ ev. evi G. rewrite G. ev. reflexivity. }
  destruct (ch =? e).
  - cbn [negb]. cbn [obind]. rt. reflexivity.
  - cbn [negb]. rewrite exec_block. rewrite seq_cons. pose proof (unget_is d [(b "expect", HI IInt e)] tk s1) as U.
    match goal with |- context [obind (exec WIn (S d) ?st ?s) _] =>
      rewrite (exec_out WIn (S d) st s (as_out (fun s' => (FNext, mem [(b "expect", HI IInt e)] tk s')) (i_unget s1))) end.
    2:{ ev. evi U. rewrite U. destruct (i_unget s1); ev; reflexivity. }
    destruct (i_unget s1) as [s2| | |]; cbn [as_out obind pbind]; reflexivity.
Qed.

Lemma skipws_loop : forall d tk k s, countable s ->
  match hf_body fn_skipws with
  | [TWhile c st] => lwhile k (lcond (l_words the_lex) WIn (callL (S d)) c) Out (exec WIn (S d) st) (mem [] tk s)
                     = as_out (fun s' => (FNext, mem [] tk s')) (i_skipws k s)
  | _ => False
  end.
Proof.
  intros d tk k. cbv [fn_skipws hf_body]. induction k as [|k IH]; intros s C; [reflexivity|].
  rewrite lwhile_S. cbn [i_skipws]. pose proof (get_is d [] tk s C) as G. pose proof (get_count s C) as C1.
  destruct (i_get s) as [ch s1]. cbn [fst snd] in G, C1.
  erewrite (eq_refl : lcond _ _ _ (ENum false 1) _ = Out (true, _)). cbn [obind]. rewrite exec_block.
  erewrite seq_next by (ev; evi G; rewrite G; ev; reflexivity).
  rewrite seq_cons. erewrite exec_if.
  2:{ instantiate (1 := LS [(b "ch", HI IInt ch)] tk (stream_obj s1)). instantiate (1 := negb (ws_code ch)). unfold ws_code. ev.
      destruct (ch =? 32); [ev; reflexivity|]. ev. destruct (ch =? 9); [ev; reflexivity|]. ev.
      destruct (ch =? 10); [ev; reflexivity|]. ev. destruct (ch =? 13); ev; reflexivity. }
  destruct (ws_code ch); cbn [negb obind].
  - apply (IH s1 C1).
  - rewrite exec_block. rewrite seq_cons. pose proof (unget_is d [(b "ch", HI IInt ch)] tk s1) as U.
    match goal with |- context [obind (exec WIn (S d) ?st ?s) _] =>
      rewrite (exec_out WIn (S d) st s (as_out (fun s' => (FNext, mem [(b "ch", HI IInt ch)] tk s')) (i_unget s1))) end.
    2:{ ev. evi U. rewrite U. destruct (i_unget s1); ev; reflexivity. }
    destruct (i_unget s1) as [s2| | |]; reflexivity.
Qed.
Lemma skipws_is : forall d v tk s, countable s ->
  callL (S (S d)) WIn (b "skipws") [] (mem v tk s) = as_out (fun s' => (HVoid, mem v tk s')) (i_skipws F s).
Proof.
  intros d v tk s C. rewrite (call_is (S d) WIn _ fn_skipws) by find. fn fn_skipws. rewrite seq_cons, exec_while.
  pose proof (skipws_loop d tk F s C) as L. cbv [fn_skipws hf_body] in L. rewrite L. destruct (i_skipws F s); reflexivity.
Qed.
Lemma skipws_count : forall k s s', countable s -> i_skipws k s = POk s' -> countable s'.
Proof.
  induction k as [|k IH]; intros s s' C; [discriminate|]. cbn [i_skipws]. pose proof (get_count s C) as C1. destruct (i_get s) as [ch s1].
  cbn [snd] in C1. destruct (ws_code ch); [apply IH; exact C1|apply unget_count; exact C1].
Qed.
Lemma expect_count : forall e s x s', countable s -> i_expect e s = POk (x, s') -> countable s'.
Proof.
  intros e s x s' C. unfold i_expect. pose proof (get_count s C) as C1. destruct (i_get s) as [ch s1]. cbn [snd] in C1.
  destruct (ch =? e); [intros [= <- <-]; exact C1|]. destruct (i_unget s1) eqn:U; cbn [pbind]; try discriminate. intros [= <- <-].
  exact (unget_count _ _ C1 U).
Qed.
End P.
