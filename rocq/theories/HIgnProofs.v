(** The text of the tokenizer, executed: the next token, [expect], [error] and the skipping of values. *)
From Coq Require Import Lia Arith.
From Verif Require Import Bytes Num Stream Tokenizer Template Cpp CLex CParse CExec Unit HdrText HText HParse HExec HTok BaseProofs
  SpecHTok HTokProofs.

(** ** The stream after a token *)

(** Counters that hold still hold, and no input comes back. *)
Definition later (i j : istream) : Prop := (fits i -> fits j) /\ (length (is_rest j) <= length (is_rest i))%nat.

Lemma later_refl : forall i, later i i.
Proof. split; auto. Qed.
Lemma later_trans : forall i j k, later i j -> later j k -> later i k.
Proof. intros i j k [F L] [F' L']. split; [auto|lia]. Qed.
Lemma later_next : forall i, later i (is_next i).
Proof. intros i. split; [apply next_fits|apply next_shorter]. Qed.
Lemma later_step : forall i j, later (is_next i) j -> later i j.
Proof. intros i j H. eapply later_trans; [apply later_next|exact H]. Qed.

Lemma later_ident : forall n i v v' j, parse_identifier n i v = Some (v', j) -> later i j.
Proof.
  induction n as [|n IH]; intros i v v' j H; [discriminate H|]. cbn [parse_identifier] in H.
  destruct (is_eof i); [injection H as _ <-; apply later_refl|].
  destruct (is_alpha_z (is_peek i)); [apply later_step; eapply IH; exact H|injection H as _ <-; apply later_refl].
Qed.
Lemma later_number : forall n i v v' j, parse_number_loop n i v = Some (v', j) -> later i j.
Proof.
  induction n as [|n IH]; intros i v v' j H; [discriminate H|]. cbn [parse_number_loop] in H.
  destruct (is_eof i); [injection H as _ <-; apply later_refl|].
  destruct (is_num_z (is_peek i)); [apply later_step; eapply IH; exact H|injection H as _ <-; apply later_refl].
Qed.
Lemma later_utf8 : forall i v l r j, parse_escaped_utf8 i v l = (r, j) -> later i j.
Proof. intros i v l r j H. split; intros; [|eapply utf8_shorter; exact H]. eapply utf8_shorter; eassumption. Qed.
Lemma later_string : forall n i lead v line col t j, parse_string_loop n i lead v line col = Some (t, j) -> later i j.
Proof.
  induction n as [|n IH]; intros i lead v line col t j H; [discriminate H|]. cbn [parse_string_loop] in H. cbv zeta in H.
  destruct (is_eof i); [injection H as _ <-; apply later_refl|].
  destruct (is_peek (is_next i) =? 34); [injection H as _ <-; apply later_step, later_next|].
  apply later_step. destruct (is_peek (is_next i) =? 92).
  - apply later_step. destruct (short_escape (is_peek (is_next (is_next i)))); [eapply IH; exact H|].
    destruct (is_peek (is_next (is_next i)) =? 117); [|injection H as _ <-; apply later_refl].
    destruct (parse_escaped_utf8 (is_next (is_next i)) v lead) as [[[v' l']|] k] eqn:U; apply later_utf8 in U.
    + eapply later_trans; [exact U|eapply IH; exact H].
    + injection H as _ <-. exact U.
  - destruct (is_peek (is_next i) =? 0); [injection H as _ <-; apply later_refl|eapply IH; exact H].
Qed.
Lemma later_token : forall n i t j, next_loop n i = Some (t, j) -> later i j.
Proof.
  induction n as [|n IH]; intros i t j H; [discriminate H|]. cbn [next_loop] in H. cbv zeta in H.
  destruct (is_eof i); [injection H as _ <-; apply later_refl|].
  destruct (is_ws_z (is_peek i)); [apply later_step; eapply IH; exact H|].
  destruct (punct (is_peek i)); [injection H as _ <-; apply later_next|].
  destruct (is_peek i =? 34).
  { unfold parse_string in H. destruct (is_peek i =? 34); [eapply later_string; exact H|injection H as _ <-; apply later_refl]. }
  destruct (is_num_start_z (is_peek i)).
  { unfold parse_number in H. destruct (parse_number_loop n i []) as [[v' k]|] eqn:P; [|discriminate].
    injection H as _ <-. eapply later_number; exact P. }
  destruct (parse_identifier n i []) as [[v' k]|] eqn:P; [|discriminate]. apply later_ident in P.
  repeat match type of H with (if ?x then _ else _) = _ => destruct x end; injection H as _ <-; exact P.
Qed.

(** ** Errors *)

Lemma tid_z_eqb : forall x y, (tid_z x =? tid_z y) = tid_eqb x y.
Proof. intros [] []; reflexivity. Qed.
Lemma err_z_ok : forall c, (err_z c =? 0) = match c with PGERR_OK => true | _ => false end.
Proof. intros []; reflexivity. Qed.

Section Q.
Context (N : nat) (ea : bool).
Notation callQ := (callT N ea).
Notation execT cl d := (hexec N consts ea cl (callT N ea d cl)).

Lemma call_tok : forall d cl f args s fn, hfind tok_funs f = Some fn ->
  callQ (S d) cl OTok [f] args s = run_fun N consts ea CTok (callQ d CTok) fn args s.
Proof. intros d cl f args s fn H. unfold callT. cbn [callD]. rewrite H. reflexivity. Qed.
Lemma call_own' : forall d f args s fn, hfind tok_funs f = Some fn ->
  callQ (S d) CTok OName [f] args s = run_fun N consts ea CTok (callQ d CTok) fn args s.
Proof. apply call_own. Qed.

Ltac ev := cbv -[callT while_loop Z.add Z.sub Z.leb Z.ltb Z.eqb Z.shiftl Z.shiftr Z.land Z.lor int_ok char_of byte_of
                 code cast_int str_eqb cat in_val is_rest is_line is_col is_eof is_peek is_next
                 t_id t_val t_line t_col tid_z err_z e_code e_msg e_line e_col tk_cur tk_in tk_err tk_error cstr pgr_z].
Ltac find := vm_compute; reflexivity.
Ltac fn f := eapply run_intro; [try reflexivity|cbv [f hf_body length nesting put_vars s_vars s_cur s_err s_in s_out mem]| | | ].
Ltac nx := eapply seq_next.
Ltac rt := eapply seq_return.
Ltac use L :=
  match goal with |- context [callT ?n ?a ?d ?c ?o ?w ?x ?s] =>
    let H := fresh in
    eassert (H : callT n a d c o w x s = _) by (eapply L; first [eassumption | lia | ev; reflexivity]); rewrite H; clear H
  end.
Ltac std := use (at_builtin N ea); [|vm_compute; reflexivity].

Ltac cond B :=
  match goal with |- hcond _ _ ?cl ?call ?c ?s = _ =>
    assert (HC : hcond consts ea cl call c s = Some (B, s)) by (ev; reflexivity) end.

Lemma run_tnext : forall d n v cur e i o t i', (6 <= d)%nat -> (5 <= N)%nat -> (n <= N)%nat -> (length (is_rest i) < N)%nat -> fits i ->
  next_loop n i = Some (t, i') ->
  run_fun N consts ea CTok (callQ d CTok) fn_tnext [] (HSt v (tok_val cur) e (in_val i) o) =
  Some (HL RCur [], HSt v (tok_val t) e (in_val i') o).
Proof.
  intros d n v cur e i o t i' D M K L F P.
  destruct (next_while N ea d e o n i (Tok T_NONE [] (t_line cur) (t_col cur)) t i' N) as [f [cur' [W Q]]]; try assumption.
  fn fn_tnext.
  - nx; [ev; reflexivity|]. nx; [ev; reflexivity|].
    instantiate (1 := HSt [] (tok_val t) e (in_val i') o). instantiate (1 := GReturn (Some (HL RCur []))).
    destruct Q as [[-> ->]|[-> ->]].
    + rt. rewrite hexec_while. exact W.
    + nx; [rewrite hexec_while; exact W|]. rt. ev.
      use (at_line N ea). ev. use (at_column N ea). ev. 
      match goal with |- context [callT ?n ?a ?d ?c ?o ?w ?x ?s] =>
       let H := fresh in
       eassert (H : callT n a d c o w x s = _) by (eapply at_builtin; [lia|vm_compute; reflexivity|ev; reflexivity|ev; reflexivity]); rewrite H; clear H
      end. ev. reflexivity.
  - reflexivity.
  - reflexivity.
  - reflexivity.
Qed.

(** What every function below asks of the input and of the bounds. *)
Definition room (n : nat) (i : istream) : Prop := (5 <= N)%nat /\ (n <= N)%nat /\ (length (is_rest i) < N)%nat /\ fits i.

Lemma room_later : forall n m i j, (m <= n)%nat -> room n i -> later i j -> room m j.
Proof. intros n m i j H [A [B [C D]]] [E G]. repeat split; try lia; apply E, D. Qed.

Definition fn_tpeek := Eval vm_compute in fn_of tok_funs "peek".
Definition fn_expect := Eval vm_compute in fn_of tok_funs "expect".
Definition fn_error := Eval vm_compute in fn_of tok_funs "error".

Lemma own_next : forall d n t v o t', (7 <= d)%nat -> room n (tk_in t) -> tk_next n t = Some t' ->
  callQ d CTok OName [b "next"] [] (mem v t o) = Some (HL RCur [], mem v t' o).
Proof.
  intros [|d] n [cur i e] v o t' D [A [B [C E]]] P; [lia|]. rewrite (call_own' d _ _ _ fn_tnext) by find.
  unfold tk_next in P. cbn [tk_in tk_err] in *. destruct (next_loop n i) as [[tk j]|] eqn:Q; [|discriminate P]. injection P as <-.
  unfold mem. cbn [tk_cur tk_in tk_err]. apply (run_tnext d n); try assumption. lia.
Qed.
Lemma run_tpeek : forall d v t o, 
  run_fun N consts ea CTok (callQ d CTok) fn_tpeek [] (mem v t o) = Some (HL RCur [], mem v t o).
Proof. intros d v t o. fn fn_tpeek; [rt; ev; reflexivity|reflexivity|reflexivity|reflexivity]. Qed.
Lemma own_peek : forall d v t o, (1 <= d)%nat -> callQ d CTok OName [b "peek"] [] (mem v t o) = Some (HL RCur [], mem v t o).
Proof. intros [|d] v t o D; [lia|]. rewrite (call_own' d _ _ _ fn_tpeek) by find. apply run_tpeek. Qed.

Lemma run_expect : forall d n v t o ty r t', (7 <= d)%nat -> room n (tk_in t) -> tk_expect n ty t = Some (r, t') ->
  run_fun N consts ea CTok (callQ d CTok) fn_expect [HV (HI ITid (tid_z ty))] (mem v t o) = Some (HV (HB r), mem v t' o).
Proof.
  intros d n v t o ty r t' D R P. unfold tk_expect in P.
  destruct (tid_eqb (tk_id t) ty) eqn:Q.
  - destruct (tk_next n t) as [t1|] eqn:X; [|discriminate P]. injection P as <- <-.
    fn fn_expect.
    + rt. eapply if_true; [cond (tid_z (t_id (tk_cur t)) =? tid_z ty); rewrite tid_z_eqb in HC; unfold tk_id in Q; rewrite Q in HC; exact HC|]. eapply block_intro.
      * nx; [ev; use (own_next d n t); ev; reflexivity|]. rt. ev. reflexivity.
      * ev. reflexivity.
    + reflexivity.
    + reflexivity.
    + reflexivity.
  - injection P as <- <-. fn fn_expect.
    + nx; [eapply if_none; cond (tid_z (t_id (tk_cur t)) =? tid_z ty); rewrite tid_z_eqb in HC; unfold tk_id in Q; rewrite Q in HC; exact HC|]. rt. ev. reflexivity.
    + reflexivity.
    + reflexivity.
    + reflexivity.
Qed.
Lemma own_expect : forall d n t ty v o r t', (8 <= d)%nat -> room n (tk_in t) -> tk_expect n ty t = Some (r, t') ->
  callQ d CTok OName [b "expect"] [HV (HI ITid (tid_z ty))] (mem v t o) = Some (HV (HB r), mem v t' o).
Proof. intros [|d] n t ty v o r t' D R P; [lia|]. rewrite (call_own' d _ _ _ fn_expect) by find. eapply run_expect; try eassumption. lia. Qed.

Lemma run_error : forall d v t o c m, 
  run_fun N consts ea CTok (callQ d CTok) fn_error [HV (HI IErr (err_z c)); HV (HPtr m)] (mem v t o) =
  Some (HV (HI IInt 1), mem v (tk_error c (cstr m) t) o).
Proof.
  intros d v t o c m. 
  assert (Q : (e_code (tk_err t) = PGERR_OK /\ tk_error c (cstr m) t = TK (tk_cur t) (tk_in t) (EI c (cstr m) (t_line (tk_cur t)) (t_col (tk_cur t))))
              \/ (match e_code (tk_err t) with PGERR_OK => true | _ => false end = false /\ tk_error c (cstr m) t = t)).
  { unfold tk_error. destruct (e_code (tk_err t)); auto. }
  destruct Q as [[Q ->]|[Q ->]].
  - fn fn_error.
    + nx; [eapply if_none; cond (negb (err_z (e_code (tk_err t)) =? 0)); rewrite err_z_ok, Q in HC; exact HC|]. nx; [ev; reflexivity|]. nx; [ev; reflexivity|]. nx; [ev; reflexivity|]. nx; [ev; reflexivity|].
      rt. ev. reflexivity.
    + reflexivity.
    + reflexivity.
    + reflexivity.
  - fn fn_error.
    + rt. eapply if_true; [cond (negb (err_z (e_code (tk_err t)) =? 0)); rewrite err_z_ok, Q in HC; exact HC|]. ev. reflexivity.
    + reflexivity.
    + reflexivity.
    + reflexivity.
Qed.
Lemma own_error : forall d t c v o m msg, (1 <= d)%nat -> cstr m = msg ->
  callQ d CTok OName [b "error"] [HV (HI IErr (err_z c)); HV (HPtr m)] (mem v t o) =
  Some (HV (HI IInt 1), mem v (tk_error c msg t) o).
Proof. intros [|d] t c v o m msg D <-; [lia|]. rewrite (call_own' d _ _ _ fn_error) by find. apply run_error. Qed.

(** ** Skipping *)
Lemma later_tnext : forall n t t', tk_next n t = Some t' -> later (tk_in t) (tk_in t').
Proof.
  intros n t t' H. unfold tk_next in H. destruct (next_loop n (tk_in t)) as [[k j]|] eqn:P; [|discriminate]. injection H as <-.
  eapply later_token; exact P.
Qed.
Lemma later_expect : forall n ty t r t', tk_expect n ty t = Some (r, t') -> later (tk_in t) (tk_in t').
Proof.
  intros n ty t r t' H. unfold tk_expect in H. destruct (tid_eqb (tk_id t) ty).
  - destruct (tk_next n t) as [t1|] eqn:P; [|discriminate]. injection H as _ <-. eapply later_tnext; exact P.
  - injection H as _ <-. apply later_refl.
Qed.
Lemma in_error : forall c m t, tk_in (tk_error c m t) = tk_in t.
Proof. intros c m t. unfold tk_error. destruct (e_code (tk_err t)); reflexivity. Qed.

Definition fn_iarr := Eval vm_compute in fn_of tok_funs "ignore_array".
Definition fn_iobj := Eval vm_compute in fn_of tok_funs "ignore_object".
Definition fn_ival := Eval vm_compute in fn_of tok_funs "ignore_value".
Definition iarr_c := Eval vm_compute in loop_c (hf_body fn_iarr).
Definition iarr_b := Eval vm_compute in loop_b (hf_body fn_iarr).
Definition iobj_c := Eval vm_compute in loop_c (hf_body fn_iobj).
Definition iobj_b := Eval vm_compute in loop_b (hf_body fn_iobj).

(** The end of both functions. *)
Definition ends (n : nat) (ty : token_id) (m : bytes) (t : tokenizer) (r : pgr) (t' : tokenizer) : Prop :=
  (tk_expect n ty t = Some (true, t') /\ r = PGR_OK) \/
  (exists t1, tk_expect n ty t = Some (false, t1) /\ r = PGR_ERROR /\ t' = tk_error PGERR_IGNORE_FAILED m t1).

Definition skips (n : nat) : Prop := forall t r t', ignore_value n t = Some (r, t') -> room n (tk_in t) ->
  later (tk_in t) (tk_in t') /\
  forall d v o, (2 * n + 8 <= d)%nat -> callQ d CTok OName [b "ignore_value"] [] (mem v t o) = Some (HV (HI IInt (pgr_z r)), mem v t' o).
Definition loops (n : nat) (run : tokenizer -> option (pgr * tokenizer)) (c : hexpr) (st : hstmt) (ty : token_id) (m : bytes) : Prop :=
  forall t r t', run t = Some (r, t') -> room n (tk_in t) ->
  later (tk_in t) (tk_in t') /\
  forall d o k, (2 * n + 8 <= d)%nat -> (n <= k)%nat -> exists f t1,
    while_loop k (hcond consts ea CTok (callQ d CTok) c) Some (execT CTok d 19 st) (mem [] t o) = Some (f, mem [] t1 o) /\
    ((f = GReturn (Some (HV (HI IInt (pgr_z r)))) /\ t1 = t') \/
     (f = GNext /\ room n (tk_in t1) /\ exists j, (j <= n)%nat /\ ends j ty m t1 r t')).

Lemma ends_of : forall n ty m t r t',
  match tk_expect n ty t with
  | None => None
  | Some (true, t') => Some (PGR_OK, t')
  | Some (false, t') => ign_fail m t'
  end = Some (r, t') -> ends n ty m t r t'.
Proof.
  intros n ty m t r t' H. destruct (tk_expect n ty t) as [[[] t1]|] eqn:E; [| |discriminate].
  - injection H as <- <-. left. auto.
  - injection H as <- <-. right. exists t1. auto.
Qed.
Lemma later_ends : forall n ty m t r t', ends n ty m t r t' -> later (tk_in t) (tk_in t').
Proof.
  intros n ty m t r t' [[H _]|[t1 [H [_ ->]]]]; [|rewrite in_error]; eapply later_expect; exact H.
Qed.

Lemma arr_loop : forall n, skips n -> loops n (ignore_array_loop n) iarr_c iarr_b T_ARRE (b "invalid array") ->
  loops (S n) (ignore_array_loop (S n)) iarr_c iarr_b T_ARRE (b "invalid array").
Proof.
  intros n S L t r t' P R. cbn [ignore_array_loop] in P. cbv zeta in P.
  assert (R0 : room n (tk_in t)) by (eapply room_later; [|exact R|apply later_refl]; lia).
  assert (E : forall d o, (1 <= d)%nat -> hcond consts ea CTok (callQ d CTok) iarr_c (mem [] t o) = Some (negb (tid_eqb (tk_id t) T_ARRE), mem [] t o)).
  { intros d o D. rewrite <- tid_z_eqb. ev. use (own_peek d []). ev. reflexivity. }
  destruct (tid_eqb (tk_id t) T_ARRE).
  { apply ends_of in P. split; [eapply later_ends; exact P|]. intros d o [|k] D K; [lia|]. rewrite while_loop_S, E by lia.
    exists GNext, t. split; [reflexivity|]. right. split; [reflexivity|]. split; [exact R|]. exists n. split; [lia|exact P]. }
  destruct (ignore_value n t) as [[r1 t1]|] eqn:V; [|discriminate P]. destruct (S t r1 t1 V R0) as [L1 V1].
  assert (R1 : room n (tk_in t1)) by (eapply room_later; [|exact R|exact L1]; lia).
  assert (B : forall d o, (2 * n + 8 <= d)%nat -> forall fl s2,
     seq_loop (execT CTok d 18) 3 (match iarr_b with TBlock (_ :: l) => l | _ => [] end)
       (mem [(b "result", VarVal (HI IInt (pgr_z r1)))] t1 o) = Some (fl, mem [(b "result", VarVal (HI IInt (pgr_z r1)))] s2 o) ->
     execT CTok d 19 iarr_b (mem [] t o) = Some (fl, mem [] s2 o)).
  { intros d o D fl s2 H. unfold iarr_b. eapply block_intro; [cbv [length]; nx; [ev; use (V1 d []); ev; reflexivity|exact H]|ev; reflexivity]. }
  destruct (match r1 with PGR_OK => true | _ => false end) eqn:O.
  - destruct r1; try discriminate O. destruct (tk_expect n T_COMMA t1) as [[x t2]|] eqn:X; [|discriminate P].
    assert (L2 := later_trans _ _ _ L1 (later_expect _ _ _ _ _ X)).
    assert (R2 : room n (tk_in t2)) by (eapply room_later; [|exact R|exact L2]; lia).
    assert (B2 : forall d o, (2 * n + 8 <= d)%nat -> execT CTok d 19 iarr_b (mem [] t o) = Some (if x then GNext else GBreak, mem [] t2 o)).
    { intros d o D. apply B; [exact D|]. unfold iarr_b. nx; [eapply if_none; ev; reflexivity|].
      destruct x.
      - nx; [eapply if_none; ev; use (own_expect d n t1 T_COMMA); ev; reflexivity|reflexivity].
      - eapply seq_break. eapply if_true; [ev; use (own_expect d n t1 T_COMMA); ev; reflexivity|reflexivity]. }
    destruct x.
    + destruct (L t2 r t' P R2) as [L3 W]. split; [eapply later_trans; eassumption|].
      intros d o [|k] D K; [lia|]. rewrite while_loop_S, E by lia. cbn [negb]. rewrite B2 by lia.
      destruct (W d o k) as [f [t3 [W1 Q]]]; [lia|lia|]. exists f, t3. split; [exact W1|].
      destruct Q as [Q|[Q1 [Q2 [j [J Q3]]]]]; [left; exact Q|right]. split; [exact Q1|]. split.
      * destruct Q2 as [A1 [A2 [A3 A4]]]. destruct R as [_ [R _]]. repeat split; try assumption; apply A4.
      * exists j. split; [lia|exact Q3].
    + apply ends_of in P. split; [eapply later_trans; [exact L2|eapply later_ends; exact P]|].
      intros d o [|k] D K; [lia|]. rewrite while_loop_S, E by lia. cbn [negb]. rewrite B2 by lia.
      exists GNext, t2. split; [reflexivity|]. right. split; [reflexivity|]. split; [eapply room_later; [|exact R|exact L2]; lia|].
      exists n. split; [lia|exact P].
  - assert (r = r1 /\ t' = t1) as [-> ->] by (destruct r1; [discriminate O|injection P as <- <-; auto|injection P as <- <-; auto]).
    split; [exact L1|]. intros d o [|k] D K; [lia|]. rewrite while_loop_S, E by lia. cbn [negb].
    rewrite (B d o ltac:(lia) (GReturn (Some (HV (HI IInt (pgr_z r1))))) t1).
    + exists (GReturn (Some (HV (HI IInt (pgr_z r1))))), t1. auto.
    + unfold iarr_b. destruct r1; [discriminate O|rt; eapply if_true; ev; reflexivity|rt; eapply if_true; ev; reflexivity].
Qed.
Lemma obj_loop : forall n, skips n -> loops n (ignore_object_loop n) iobj_c iobj_b T_OBJE (b "invalid object") ->
  loops (S n) (ignore_object_loop (S n)) iobj_c iobj_b T_OBJE (b "invalid object").
Proof.
  intros n S L t r t' P R. cbn [ignore_object_loop] in P. cbv zeta in P.
  assert (R0 : room n (tk_in t)) by (eapply room_later; [|exact R|apply later_refl]; lia).
  assert (E : forall d o, (1 <= d)%nat -> hcond consts ea CTok (callQ d CTok) iobj_c (mem [] t o) = Some (negb (tid_eqb (tk_id t) T_OBJE), mem [] t o)).
  { intros d o D. rewrite <- tid_z_eqb. ev. use (own_peek d []). ev. reflexivity. }
  destruct (tid_eqb (tk_id t) T_OBJE).
  { apply ends_of in P. split; [eapply later_ends; exact P|]. intros d o [|k] D K; [lia|]. rewrite while_loop_S, E by lia.
    exists GNext, t. split; [reflexivity|]. right. split; [reflexivity|]. split; [exact R|]. exists n. split; [lia|exact P]. }
  destruct (tk_expect n T_STRING t) as [[x t1]|] eqn:X1; [|discriminate P]. assert (L1 := later_expect _ _ _ _ _ X1).
  assert (R1 : room n (tk_in t1)) by (eapply room_later; [|exact R|exact L1]; lia).
  destruct x.
  2: { injection P as <- <-. rewrite in_error. split; [exact L1|]. intros d o [|k] D K; [lia|]. rewrite while_loop_S, E by lia. cbn [negb].
       exists (GReturn (Some (HV (HI IInt (pgr_z PGR_ERROR))))), (tk_error PGERR_IGNORE_FAILED (b "expected field name") t1).
       split; [|left; auto].
       assert (B : execT CTok d 19 iobj_b (mem [] t o) =
                   Some (GReturn (Some (HV (HI IInt (pgr_z PGR_ERROR)))), mem [] (tk_error PGERR_IGNORE_FAILED (b "expected field name") t1) o)).
       { unfold iobj_b. eapply block_intro; [cbv [length]; rt|].
         - eapply if_true; [ev; use (own_expect d n t T_STRING); ev; reflexivity|].
           ev; use (own_error d t1 PGERR_IGNORE_FAILED); ev; reflexivity.
         - ev; reflexivity. }
       rewrite B. reflexivity. }
  destruct (tk_expect n T_COLON t1) as [[x t2]|] eqn:X2; [|discriminate P]. assert (L2 := later_trans _ _ _ L1 (later_expect _ _ _ _ _ X2)).
  assert (R2 : room n (tk_in t2)) by (eapply room_later; [|exact R|exact L2]; lia).
  destruct x.
  2: { injection P as <- <-. rewrite in_error. split; [exact L2|]. intros d o [|k] D K; [lia|]. rewrite while_loop_S, E by lia. cbn [negb].
       exists (GReturn (Some (HV (HI IInt (pgr_z PGR_ERROR))))), (tk_error PGERR_IGNORE_FAILED (b "expected colon") t2).
       split; [|left; auto].
       assert (B : execT CTok d 19 iobj_b (mem [] t o) =
                   Some (GReturn (Some (HV (HI IInt (pgr_z PGR_ERROR)))), mem [] (tk_error PGERR_IGNORE_FAILED (b "expected colon") t2) o)).
       { unfold iobj_b. eapply block_intro; [cbv [length]|].
         - nx; [eapply if_none; ev; use (own_expect d n t T_STRING); ev; reflexivity|]. rt.
           eapply if_true; [ev; use (own_expect d n t1 T_COLON); ev; reflexivity|].
           ev; use (own_error d t2 PGERR_IGNORE_FAILED); ev; reflexivity.
         - ev; reflexivity. }
       rewrite B. reflexivity. }
  destruct (ignore_value n t2) as [[r1 t3]|] eqn:V; [|discriminate P]. destruct (S t2 r1 t3 V R2) as [L3' V1].
  assert (L3 := later_trans _ _ _ L2 L3'). clear L3'.
  assert (R3 : room n (tk_in t3)) by (eapply room_later; [|exact R|exact L3]; lia).
  assert (B : forall d o, (2 * n + 8 <= d)%nat -> forall fl s2,
     seq_loop (execT CTok d 18) 3 (match iobj_b with TBlock (_ :: _ :: _ :: l) => l | _ => [] end)
       (mem [(b "result", VarVal (HI IInt (pgr_z r1)))] t3 o) = Some (fl, mem [(b "result", VarVal (HI IInt (pgr_z r1)))] s2 o) ->
     execT CTok d 19 iobj_b (mem [] t o) = Some (fl, mem [] s2 o)).
  { intros d o D fl s2 H. unfold iobj_b. eapply block_intro; [cbv [length]|].
    - nx; [eapply if_none; ev; use (own_expect d n t T_STRING); ev; reflexivity|].
      nx; [eapply if_none; ev; use (own_expect d n t1 T_COLON); ev; reflexivity|].
      nx; [ev; use (V1 d []); ev; reflexivity|exact H].
    - ev; reflexivity. }
  destruct (match r1 with PGR_OK => true | _ => false end) eqn:O.
  - destruct r1; try discriminate O. destruct (tk_expect n T_COMMA t3) as [[x t4]|] eqn:X; [|discriminate P].
    assert (L4 := later_trans _ _ _ L3 (later_expect _ _ _ _ _ X)).
    assert (R4 : room n (tk_in t4)) by (eapply room_later; [|exact R|exact L4]; lia).
    assert (B2 : forall d o, (2 * n + 8 <= d)%nat -> execT CTok d 19 iobj_b (mem [] t o) = Some (if x then GNext else GBreak, mem [] t4 o)).
    { intros d o D. apply B; [exact D|]. unfold iobj_b. nx; [eapply if_none; ev; reflexivity|].
      destruct x.
      - nx; [eapply if_none; ev; use (own_expect d n t3 T_COMMA); ev; reflexivity|reflexivity].
      - eapply seq_break. eapply if_true; [ev; use (own_expect d n t3 T_COMMA); ev; reflexivity|reflexivity]. }
    destruct x.
    + destruct (L t4 r t' P R4) as [L5 W]. split; [eapply later_trans; eassumption|].
      intros d o [|k] D K; [lia|]. rewrite while_loop_S, E by lia. cbn [negb]. rewrite B2 by lia.
      destruct (W d o k) as [f [t5 [W1 Q]]]; [lia|lia|]. exists f, t5. split; [exact W1|].
      destruct Q as [Q|[Q1 [Q2 [j [J Q3]]]]]; [left; exact Q|right]. split; [exact Q1|]. split.
      * destruct Q2 as [A1 [A2 [A3 A4]]]. destruct R as [_ [R _]]. repeat split; try assumption; apply A4.
      * exists j. split; [lia|exact Q3].
    + apply ends_of in P. split; [eapply later_trans; [exact L4|eapply later_ends; exact P]|].
      intros d o [|k] D K; [lia|]. rewrite while_loop_S, E by lia. cbn [negb]. rewrite B2 by lia.
      exists GNext, t4. split; [reflexivity|]. right. split; [reflexivity|]. split; [eapply room_later; [|exact R|exact L4]; lia|].
      exists n. split; [lia|exact P].
  - assert (r = r1 /\ t' = t3) as [-> ->] by (destruct r1; [discriminate O|injection P as <- <-; auto|injection P as <- <-; auto]).
    split; [exact L3|]. intros d o [|k] D K; [lia|]. rewrite while_loop_S, E by lia. cbn [negb].
    rewrite (B d o ltac:(lia) (GReturn (Some (HV (HI IInt (pgr_z r1))))) t3).
    + exists (GReturn (Some (HV (HI IInt (pgr_z r1))))), t3. auto.
    + unfold iobj_b. destruct r1; [discriminate O|rt; eapply if_true; ev; reflexivity|rt; eapply if_true; ev; reflexivity].
Qed.

Lemma arr_run : forall n, loops n (ignore_array_loop n) iarr_c iarr_b T_ARRE (b "invalid array") ->
  forall t t1 r t', tk_id t = T_ARRS -> tk_next n t = Some t1 -> ignore_array_loop n t1 = Some (r, t') -> room n (tk_in t) ->
  later (tk_in t) (tk_in t') /\
  forall d v o, (2 * n + 9 <= d)%nat -> callQ d CTok OName [b "ignore_array"] [] (mem v t o) = Some (HV (HI IInt (pgr_z r)), mem v t' o).
Proof.
  intros n W t t1 r t' I X P R. assert (L1 := later_tnext _ _ _ X).
  assert (R1 : room n (tk_in t1)) by (eapply room_later; [|exact R|exact L1]; lia).
  destruct (W t1 r t' P R1) as [L2 W1]. split; [eapply later_trans; eassumption|]. clear W P.
  intros [|d] v o D; [lia|]. rewrite (call_own' d _ _ _ fn_iarr) by find.
  assert (E0 : tk_expect n T_ARRS t = Some (true, t1)) by (unfold tk_expect; rewrite I, X; reflexivity).
  destruct (W1 d o N) as [f [t2 [W2 Q]]]; [lia|apply R|]. clear W1.
  destruct Q as [[-> ->]|[-> [R2 [j [J Q]]]]].
  { fn fn_iarr; [nx; [eapply if_none; ev; use (own_expect d n t T_ARRS); ev; reflexivity|]; rt; rewrite hexec_while; exact W2
      |reflexivity|reflexivity|reflexivity]. }
  assert (R3 : room j (tk_in t2)) by (eapply room_later; [|exact R2|apply later_refl]; lia).
  destruct Q as [[Q ->]|[t3 [Q [-> ->]]]].
  - fn fn_iarr.
    1: {
    nx; [eapply if_none; ev; use (own_expect d n t T_ARRS); ev; reflexivity|]. nx; [rewrite hexec_while; exact W2|].
    nx; [eapply if_none; ev; use (own_expect d j t2 T_ARRE); ev; reflexivity|]. rt. ev. reflexivity. }
    all: reflexivity.
  - fn fn_iarr.
    1: {
    nx; [eapply if_none; ev; use (own_expect d n t T_ARRS); ev; reflexivity|]. nx; [rewrite hexec_while; exact W2|].
    rt. eapply if_true; [ev; use (own_expect d j t2 T_ARRE); ev; reflexivity|].
    ev; use (own_error d t3 PGERR_IGNORE_FAILED); ev; reflexivity. }
    all: reflexivity.
Qed.

Lemma obj_run : forall n, loops n (ignore_object_loop n) iobj_c iobj_b T_OBJE (b "invalid object") ->
  forall t t1 r t', tk_id t = T_OBJS -> tk_next n t = Some t1 -> ignore_object_loop n t1 = Some (r, t') -> room n (tk_in t) ->
  later (tk_in t) (tk_in t') /\
  forall d v o, (2 * n + 9 <= d)%nat -> callQ d CTok OName [b "ignore_object"] [] (mem v t o) = Some (HV (HI IInt (pgr_z r)), mem v t' o).
Proof.
  intros n W t t1 r t' I X P R. assert (L1 := later_tnext _ _ _ X).
  assert (R1 : room n (tk_in t1)) by (eapply room_later; [|exact R|exact L1]; lia).
  destruct (W t1 r t' P R1) as [L2 W1]. split; [eapply later_trans; eassumption|]. clear W P.
  intros [|d] v o D; [lia|]. rewrite (call_own' d _ _ _ fn_iobj) by find.
  assert (E0 : tk_expect n T_OBJS t = Some (true, t1)) by (unfold tk_expect; rewrite I, X; reflexivity).
  destruct (W1 d o N) as [f [t2 [W2 Q]]]; [lia|apply R|]. clear W1.
  destruct Q as [[-> ->]|[-> [R2 [j [J Q]]]]].
  { fn fn_iobj; [nx; [eapply if_none; ev; use (own_expect d n t T_OBJS); ev; reflexivity|]; rt; rewrite hexec_while; exact W2
      |reflexivity|reflexivity|reflexivity]. }
  assert (R3 : room j (tk_in t2)) by (eapply room_later; [|exact R2|apply later_refl]; lia).
  destruct Q as [[Q ->]|[t3 [Q [-> ->]]]].
  - fn fn_iobj.
    1: {
    nx; [eapply if_none; ev; use (own_expect d n t T_OBJS); ev; reflexivity|]. nx; [rewrite hexec_while; exact W2|].
    nx; [eapply if_none; ev; use (own_expect d j t2 T_OBJE); ev; reflexivity|]. rt. ev. reflexivity. }
    all: reflexivity.
  - fn fn_iobj.
    1: {
    nx; [eapply if_none; ev; use (own_expect d n t T_OBJS); ev; reflexivity|]. nx; [rewrite hexec_while; exact W2|].
    rt. eapply if_true; [ev; use (own_expect d j t2 T_OBJE); ev; reflexivity|].
    ev; use (own_error d t3 PGERR_IGNORE_FAILED); ev; reflexivity. }
    all: reflexivity.
Qed.

Ltac pickt E := repeat match goal with
  | |- case_from _ _ (TCase _ :: _) = _ => first [eapply cf_miss; [reflexivity|rewrite E; reflexivity|] | eapply cf_hit; [reflexivity|rewrite E; reflexivity]]
  | |- case_from _ _ [] = _ => reflexivity
  | |- case_from _ _ (_ :: _) = _ => eapply cf_skip; [reflexivity|]
  end.
Ltac labels := repeat match goal with |- seq_loop _ _ (TCase _ :: _) _ = _ => eapply seq_next; [reflexivity|]
                                    | |- seq_loop _ _ (TDefault :: _) _ = _ => eapply seq_next; [reflexivity|] end.

Lemma stops_eq : forall A t (x y : A),
  match tk_id t with T_NONE | T_EOS => x | _ => y end = if (tid_z (t_id (tk_cur t)) =? 0) || (tid_z (t_id (tk_cur t)) =? 1) then x else y.
Proof. intros A t x y. unfold tk_id. destruct (t_id (tk_cur t)); reflexivity. Qed.

Lemma val_step : forall n, skips n ->
  loops n (ignore_array_loop n) iarr_c iarr_b T_ARRE (b "invalid array") ->
  loops n (ignore_object_loop n) iobj_c iobj_b T_OBJE (b "invalid object") -> skips (S n).
Proof.
  intros n _ WA WO t r t' P R. cbn [ignore_value] in P.
  assert (R0 : room n (tk_in t)) by (eapply room_later; [|exact R|apply later_refl]; lia).
  Ltac enter d := intros [|d] v o D; [lia|]; rewrite (call_own' d _ _ _ fn_ival) by find; fn fn_ival.
  Ltac swt E d tac := rt; eapply switch_intro; [ev; use (own_peek d []); ev; reflexivity|ev; reflexivity|vm_compute; reflexivity|pickt E|cbv [length]; labels; tac|ev; reflexivity].
  Ltac fails E d t P := injection P as <- <-; rewrite in_error; split; [apply later_refl|];
      enter d; [swt E d ltac:(rt; ev; use (own_error d t PGERR_IGNORE_FAILED); ev; reflexivity)|reflexivity..].
  Ltac invalid E d t P := injection P as <- <-; rewrite in_error; split; [apply later_refl|];
      enter d; [rt; eapply switch_default; [ev; use (own_peek d []); ev; reflexivity|ev; reflexivity|vm_compute; reflexivity|pickt E
        |cbv [length default_from]; rt; ev; use (own_error d t PGERR_IGNORE_FAILED); ev; reflexivity|ev; reflexivity]|reflexivity..].
  Ltac ends_cond t1 E1 :=
    match goal with |- hcond _ _ ?cl ?call ?c ?s = _ =>
      let H := fresh in
      assert (H : hcond consts ea cl call c s = Some ((tid_z (t_id (tk_cur t1)) =? 0) || (tid_z (t_id (tk_cur t1)) =? 1), s)) by (eapply cond_or; ev; reflexivity);
      rewrite E1 in H; exact H end.
  Ltac scalar E d n t P :=
      let t1 := fresh "t" in let X := fresh "X" in let L := fresh "L" in
      destruct (tk_next n t) as [t1|] eqn:X; [|discriminate P]; assert (L := later_tnext _ _ _ X); rewrite stops_eq in P;
      let E1 := fresh "E" in
      destruct ((tid_z (t_id (tk_cur t1)) =? 0) || (tid_z (t_id (tk_cur t1)) =? 1)) eqn:E1;
      injection P as <- <-; rewrite ?in_error; (split; [exact L|]);
      (enter d; [swt E d ltac:(rt; eapply block_intro; [cbv [length]; nx; [ev; use (own_next d n t); ev; reflexivity|];
         first [nx; [eapply if_none; ends_cond t1 E1|]; rt; ev; reflexivity
               |rt; eapply if_true; [ends_cond t1 E1|]; ev; use (own_error d t1 PGERR_IGNORE_FAILED); ev; reflexivity]
         |ev; reflexivity])|reflexivity..]).
  destruct (tk_id t) eqn:E; assert (E' := E); unfold tk_id in E'.
  - fails E' d t P.
  - fails E' d t P.
  - destruct (tk_next n t) as [t1|] eqn:X; [|discriminate P]. destruct (obj_run n WO t t1 r t' E X P R0) as [L1 V].
    split; [exact L1|]. enter d; [swt E' d ltac:(rt; ev; use (V d []); ev; reflexivity)|reflexivity..].
  - invalid E' d t P.
  - invalid E' d t P.
  - invalid E' d t P.
  - scalar E' d n t P.
  - destruct (tk_next n t) as [t1|] eqn:X; [|discriminate P]. destruct (arr_run n WA t t1 r t' E X P R0) as [L1 V].
    split; [exact L1|]. enter d; [swt E' d ltac:(rt; ev; use (V d []); ev; reflexivity)|reflexivity..].
  - invalid E' d t P.
  - scalar E' d n t P.
  - scalar E' d n t P.
  - scalar E' d n t P.
  - scalar E' d n t P.
Qed.

Lemma skips_all : forall n, skips n /\
  loops n (ignore_array_loop n) iarr_c iarr_b T_ARRE (b "invalid array") /\
  loops n (ignore_object_loop n) iobj_c iobj_b T_OBJE (b "invalid object").
Proof.
  induction n as [|n [V [A O]]].
  - split; [|split]; intros t r t' P; discriminate P.
  - split; [|split]; [apply val_step; assumption|apply arr_loop; assumption|apply obj_loop; assumption].
Qed.

Definition fn_ignore := Eval vm_compute in fn_of tok_funs "ignore".
Lemma run_ignore : forall d n v t o r t', (2 * n + 8 <= d)%nat -> room n (tk_in t) -> ignore_value n t = Some (r, t') ->
  run_fun N consts ea CTok (callQ d CTok) fn_ignore [] (mem v t o) = Some (HV (HI IInt (pgr_z r)), mem v t' o).
Proof.
  intros d n v t o r t' D R P. destruct (proj1 (skips_all n) t r t' P R) as [_ V].
  fn fn_ignore; [rt; ev; use (V d []); ev; reflexivity|reflexivity|reflexivity|reflexivity].
Qed.

(** ** From outside *)
Lemma tok_next : forall d n t cl v o t', (7 <= d)%nat -> room n (tk_in t) -> tk_next n t = Some t' ->
  callQ d cl OTok [b "next"] [] (mem v t o) = Some (HL RCur [], mem v t' o).
Proof.
  intros [|d] n [cur i e] cl v o t' D [A [B [C E]]] P; [lia|]. rewrite (call_tok d _ _ _ _ fn_tnext) by find.
  unfold tk_next in P. cbn [tk_in tk_err] in *. destruct (next_loop n i) as [[tk j]|] eqn:Q; [|discriminate P]. injection P as <-.
  unfold mem. cbn [tk_cur tk_in tk_err]. apply (run_tnext d n); try assumption. lia.
Qed.
Lemma tok_peek : forall d t cl v o, (1 <= d)%nat -> callQ d cl OTok [b "peek"] [] (mem v t o) = Some (HL RCur [], mem v t o).
Proof. intros [|d] t cl v o D; [lia|]. rewrite (call_tok d _ _ _ _ fn_tpeek) by find. apply run_tpeek. Qed.
Lemma tok_expect : forall d n t ty cl v o r t', (8 <= d)%nat -> room n (tk_in t) -> tk_expect n ty t = Some (r, t') ->
  callQ d cl OTok [b "expect"] [HV (HI ITid (tid_z ty))] (mem v t o) = Some (HV (HB r), mem v t' o).
Proof. intros [|d] n t ty cl v o r t' D R P; [lia|]. rewrite (call_tok d _ _ _ _ fn_expect) by find. eapply run_expect; try eassumption. lia. Qed.
Lemma tok_error : forall d t c cl v o m msg, (1 <= d)%nat -> cstr m = msg ->
  callQ d cl OTok [b "error"] [HV (HI IErr (err_z c)); HV (HPtr m)] (mem v t o) =
  Some (HV (HI IInt 1), mem v (tk_error c msg t) o).
Proof. intros [|d] t c cl v o m msg D <-; [lia|]. rewrite (call_tok d _ _ _ _ fn_error) by find. apply run_error. Qed.
Lemma tok_ignore : forall d n t cl v o r t', (2 * n + 9 <= d)%nat -> room n (tk_in t) -> ignore_value n t = Some (r, t') ->
  callQ d cl OTok [b "ignore"] [] (mem v t o) = Some (HV (HI IInt (pgr_z r)), mem v t' o).
Proof. intros [|d] n t cl v o r t' D R P; [lia|]. rewrite (call_tok d _ _ _ _ fn_ignore) by find. apply (run_ignore d n); try assumption. lia. Qed.
End Q.
