(** The functions of the text of protogen.hh against Stream.v and Tokenizer.v: the bounds put together. *)
From Coq Require Import Lia Arith.
From Verif Require Import Bytes Num Stream Tokenizer Template Cpp CLex CParse CExec Unit HdrText HText HParse HExec HTok BaseProofs
  SpecHTok HTokProofs HIgnProofs LexView Termination.

Lemma text_stream : hfunctions (inner_block (header protogen_hh) stream_path) = stream_funs.
Proof. vm_compute. reflexivity. Qed.
Lemma text_tok : hfunctions (inner_block (header protogen_hh) tok_path) = tok_funs.
Proof. vm_compute. reflexivity. Qed.
Lemma text_consts : consts_of (header protogen_hh) = consts.
Proof. vm_compute. reflexivity. Qed.
Lemma text_call_is : forall N ea, text_call N ea = callT N ea.
Proof. intros N ea. unfold text_call, call_of. rewrite text_stream, text_tok, text_consts. reflexivity. Qed.

Lemma room_for : forall N n i, fits i -> (n + length (is_rest i) + 5 <= N)%nat -> room N n i.
Proof. intros N n i F L. repeat split; try lia; apply F. Qed.

Lemma text_next : forall n t t', fits (tk_in t) -> tk_next n t = Some t' -> text_gives OTok "next" [] t (HL RCur []) t'.
Proof.
  intros n t t' F P. exists (n + length (is_rest (tk_in t)) + 5)%nat, 7%nat. intros N d ea cl v out H D. rewrite text_call_is.
  apply (tok_next N ea d n); [exact D|apply room_for; assumption|exact P].
Qed.
Lemma text_peek : forall t, text_gives OTok "peek" [] t (HL RCur []) t.
Proof. intros t. exists 0%nat, 1%nat. intros N d ea cl v out _ D. rewrite text_call_is. apply tok_peek. exact D. Qed.
Lemma text_expect : forall n ty t r t', fits (tk_in t) -> tk_expect n ty t = Some (r, t') ->
  text_gives OTok "expect" [HV (HI ITid (tid_z ty))] t (HV (HB r)) t'.
Proof.
  intros n ty t r t' F P. exists (n + length (is_rest (tk_in t)) + 5)%nat, 8%nat. intros N d ea cl v out H D. rewrite text_call_is.
  apply (tok_expect N ea d n); [exact D|apply room_for; assumption|exact P].
Qed.
Lemma text_error : forall t c m, text_gives OTok "error" [HV (HI IErr (err_z c)); HV (HPtr m)] t (HV (HI IInt (pgr_z PGR_ERROR))) (tk_error c (cstr m) t).
Proof. intros t c m. exists 0%nat, 1%nat. intros N d ea cl v out _ D. rewrite text_call_is. apply tok_error; [exact D|reflexivity]. Qed.
Lemma text_ignore : forall n t r t', fits (tk_in t) -> ignore_value n t = Some (r, t') ->
  text_gives OTok "ignore" [] t (HV (HI IInt (pgr_z r))) t'.
Proof.
  intros n t r t' F P. exists (n + length (is_rest (tk_in t)) + 5)%nat, (2 * n + 9)%nat. intros N d ea cl v out H D. rewrite text_call_is.
  apply (tok_ignore N ea d n); [exact D|apply room_for; assumption|exact P].
Qed.

(** ** The stream *)
Lemma text_in : forall t, fits (tk_in t) ->
  text_gives OIn "eof" [] t (HV (HB (is_eof (tk_in t)))) t /\ text_gives OIn "peek" [] t (HV (HI IInt (is_peek (tk_in t)))) t /\
  text_gives OIn "line" [] t (HV (HI IInt (is_line (tk_in t)))) t /\ text_gives OIn "column" [] t (HV (HI IInt (is_col (tk_in t)))) t /\
  text_gives OIn "next" [] t (HV HVoid) (with_stream t (is_next (tk_in t))) /\
  text_gives OIn "skip" [] t (HV HVoid) (with_stream t (skip_lf (is_rest (tk_in t)) (is_line (tk_in t)) (is_col (tk_in t)))).
Proof.
  intros [cur i e] F. unfold with_stream, mem. cbn [tk_cur tk_in tk_err] in *. repeat split.
  - exists 0%nat, 1%nat. intros N d ea cl v out _ D. rewrite text_call_is. apply at_eof. exact D.
  - exists 0%nat, 1%nat. intros N d ea cl v out _ D. rewrite text_call_is. apply at_peek. exact D.
  - exists 0%nat, 1%nat. intros N d ea cl v out _ D. rewrite text_call_is. apply at_line. exact D.
  - exists 0%nat, 1%nat. intros N d ea cl v out _ D. rewrite text_call_is. apply at_column. exact D.
  - exists (S (length (is_rest i))), 2%nat. intros N d ea cl v out H D. rewrite text_call_is. apply at_next; assumption.
  - exists (S (length (is_rest i))), 2%nat. intros N [|d] ea cl v out H D; [lia|]. rewrite text_call_is.
    pose proof (run_skip N ea d v (tok_val cur) (err_val e) i out H F) as R.
    rewrite (call_own_in N ea d _ _ _ fn_skip) in R by (vm_compute; reflexivity).
    rewrite (call_in N ea d cl _ _ _ fn_skip) by (vm_compute; reflexivity). exact R.
Qed.

(** ** Any input *)
Lemma fits_made : forall inp, Z.of_nat (length inp) <= 2147483646 -> fits (mk_istream inp).
Proof. intros inp H. apply skip_fits. unfold fits. cbn [is_rest is_line is_col]. lia. Qed.
Lemma wf_skip : forall inp l c, wf_is (skip_lf inp l c).
Proof.
  induction inp as [|x r IH]; intros l c; [exact I|]. cbn [skip_lf]. destruct (Ascii.eqb x LF) eqn:E; [apply IH|].
  intros ->. now rewrite Ascii.eqb_refl in E.
Qed.

(** What the constructors do: those of the stream and of the tokenizer, from given objects. *)
Lemma text_made : forall inp cur err, Z.of_nat (length inp) <= 2147483646 ->
  exists n t, tk_make n (mk_istream inp) err = Some t /\ fits (tk_in t) /\
    text_gives OIn "skip" [] (TK cur (IS inp 1 1) err) (HV HVoid) (TK cur (mk_istream inp) err) /\
    text_gives OTok "next" [] (TK cur (mk_istream inp) err) (HL RCur []) t.
Proof.
  intros inp cur err H. pose proof (fits_made inp H) as F.
  assert (W : wf_is (tk_in (TK (Tok T_NONE [] 0 0) (mk_istream inp) err))) by apply wf_skip.
  set (n := (left_len (TK (Tok T_NONE [] 0 0) (mk_istream inp) err) + 2)%nat).
  destruct (tk_next_spec n _ W (le_n _)) as [t [P _]]. exists n, t.
  assert (Q : tk_next n (TK cur (mk_istream inp) err) = Some t) by exact P.
  split; [exact P|]. split.
  - apply later_tnext in P. apply P. exact F.
  - split; [|apply (text_next n); [exact F|exact Q]].
    refine (proj2 (proj2 (proj2 (proj2 (proj2 (text_in (TK cur (IS inp 1 1) err) _)))))). unfold fits. cbn [tk_in is_rest is_line is_col]. lia.
Qed.

Lemma text_ignores : forall t, wf_is (tk_in t) -> fits (tk_in t) ->
  exists n r t', ignore_value n t = Some (r, t') /\ text_gives OTok "ignore" [] t (HV (HI IInt (pgr_z r))) t'.
Proof.
  intros t W F. destruct (proj1 (ignore_total _) t W (le_n _)) as [r [t' [P _]]].
  eexists _, r, t'. split; [exact P|eapply text_ignore; [exact F|exact P]].
Qed.
Lemma text_nexts : forall t, wf_is (tk_in t) -> fits (tk_in t) ->
  exists n t', tk_next n t = Some t' /\ fits (tk_in t') /\ text_gives OTok "next" [] t (HL RCur []) t'.
Proof.
  intros t W F. destruct (tk_next_spec (left_len t + 2) t W (le_n _)) as [t' [P _]]. exists (left_len t + 2)%nat, t'.
  split; [exact P|]. split; [apply later_tnext in P; apply P, F|]. eapply text_next; [exact F|exact P].
Qed.
