(** The result does not depend on line feeds in the input, wherever they are, nor on
    the data after the document. *)
From Verif Require Import Bytes BaseProofs Num Dbl Types Stream Tokenizer Write Read
  LexView LexMono FuelMono Termination RelProofs ReadSim.

(** ** Line feeds *)
Definition same_err (e f : errinfo) : Prop := e_code e = e_code f /\ e_msg e = e_msg f.

Definition same_at (t u : tokenizer) : Prop :=
  same_err (tk_err t) (tk_err u) /\ exists x, pos t x /\ pos u x.

Lemma same_at_id t u : same_at t u -> tk_id t = tk_id u.
Proof.
  intros (_ & x & [_ P] & [_ Q]). destruct (lex x) as [[[id v] r]|]; [|congruence].
  destruct P as (-> & _), Q as (-> & _). reflexivity.
Qed.

(** Values of NONE tokens are not used, but they are empty. *)
Lemma parse_string_none n s lead v line col tok s' :
  parse_string_loop n s lead v line col = Some (tok, s') -> t_id tok = T_NONE -> t_val tok = [].
Proof.
  revert s lead v. induction n as [|n IH]; intros s lead v H; [discriminate|].
  cbn [parse_string_loop] in H. cbv zeta in H.
  destruct (is_eof s). { injection H as <- _. reflexivity. }
  destruct (is_peek (is_next s) =? 34). { injection H as <- _. discriminate. }
  destruct (is_peek (is_next s) =? 92).
  - destruct (short_escape (is_peek (is_next (is_next s)))); [eapply IH; eauto|].
    destruct (is_peek (is_next (is_next s)) =? 117); [|injection H as <- _; reflexivity].
    destruct (parse_escaped_utf8 (is_next (is_next s)) v lead) as [[[v' l']|] s3]; [eapply IH; eauto|].
    injection H as <- _. reflexivity.
  - destruct (is_peek (is_next s) =? 0); [injection H as <- _; reflexivity|]. eapply IH; eauto.
Qed.

Lemma next_loop_none n s tok s' :
  next_loop n s = Some (tok, s') -> t_id tok = T_NONE -> t_val tok = [].
Proof.
  revert s. induction n as [|n IH]; intros s H; [discriminate|].
  cbn [next_loop] in H. cbv zeta in H.
  destruct (is_eof s). { injection H as <- _. reflexivity. }
  destruct (is_ws_z (is_peek s)); [eapply IH; eauto|].
  destruct (punct (is_peek s)) as [id|] eqn:P. { injection H as <- _. reflexivity. }
  destruct (is_peek s =? 34).
  { unfold parse_string in H. destruct (is_peek s =? 34); [eapply parse_string_none; eauto|].
    injection H as <- _. reflexivity. }
  destruct (is_num_start_z (is_peek s)).
  { unfold parse_number in H. destruct (parse_number_loop n s []) as [[v s1]|]; [|discriminate].
    injection H as <- _. discriminate. }
  destruct (parse_identifier n s []) as [[v s1]|]; [|discriminate].
  destruct (bytes_eqb v (b "true")); [injection H as <- _; reflexivity|].
  destruct (bytes_eqb v (b "false")); [injection H as <- _; reflexivity|].
  destruct (bytes_eqb v (b "null")); injection H as <- _; reflexivity.
Qed.

Definition none_val (t : tokenizer) : Prop := tk_id t = T_NONE -> t_val (tk_cur t) = [].

Lemma tk_next_none n t t' : tk_next n t = Some t' -> none_val t'.
Proof.
  unfold tk_next, none_val, tk_id. destruct (next_loop n (tk_in t)) as [[tok s]|] eqn:E; [|discriminate].
  intros H. injection H as <-. simpl. eapply next_loop_none; eauto.
Qed.

Definition same_run (t u : tokenizer) : Prop := same_at t u /\ none_val t /\ none_val u.

Lemma same_run_val t u : same_run t u -> t_val (tk_cur t) = t_val (tk_cur u).
Proof.
  intros ((_ & x & [_ P] & [_ Q]) & N & M). destruct (lex x) as [[[id v] r]|].
  - destruct P as (_ & -> & _), Q as (_ & -> & _). reflexivity.
  - rewrite N, M by assumption. reflexivity.
Qed.

Lemma same_run_next n m t u t1 u1 : same_run t u -> tk_id t <> T_NONE ->
  tk_next n t = Some t1 -> tk_next m u = Some u1 -> same_run t1 u1.
Proof.
  intros (S & _ & _) N A B. pose proof (same_at_id _ _ S) as I.
  destruct S as (E & x & [W P] & [W' Q]).
  destruct (tk_next_any _ _ _ W A) as [P1 E1]. destruct (tk_next_any _ _ _ W' B) as [Q1 F1].
  split; [|split; eapply tk_next_none; eauto].
  split; [now rewrite E1, F1|]. destruct (lex x) as [[[id v] r]|]; [|contradiction].
  destruct P as (_ & _ & V), Q as (_ & _ & V'). rewrite V in P1. rewrite V' in Q1. eauto.
Qed.

Lemma same_run_error c msg t u : same_run t u -> same_run (tk_error c msg t) (tk_error c msg u).
Proof.
  intros ((E & x & P & Q) & N & M).
  split; [|unfold none_val, tk_id in *; rewrite !tk_error_cur; auto].
  split; [|exists x; split; now apply pos_error].
  unfold tk_error. destruct E as [E F]. rewrite <- E.
  destruct (e_code (tk_err t)) eqn:C; unfold same_err; simpl; auto; split; congruence.
Qed.

Definition rerr (po : option params) : option (error_code * bytes) :=
  option_map (fun p => (e_code (p_err p), e_msg (p_err p))) po.

Lemma same_view_result ty0 v inp inp' po : nolf inp = nolf inp' ->
  exists r v' po1 po2, deserialize ty0 v inp po = Some (r, v', po1) /\
    deserialize ty0 v inp' po = Some (r, v', po2) /\ rerr po1 = rerr po2.
Proof.
  intros V.
  destruct (deserialize_total ty0 v inp po) as (r & v1 & po1 & A).
  destruct (deserialize_total ty0 v inp' po) as (s & v2 & po2 & B).
  rewrite A, B. unfold deserialize, deserialize_fuel, tk_make in A, B.
  destruct (tk_next (fuel_for inp) _) as [t|] eqn:Nt; [|discriminate A].
  destruct (tk_next (fuel_for inp') _) as [u|] eqn:Nu; [|discriminate B].
  destruct (mk_istream_spec inp) as [W1 V1]. destruct (mk_istream_spec inp') as [W2 V2].
  pose proof Nt as Nt'. pose proof Nu as Nu'.
  apply tk_next_any in Nt' as [P1 E1]; [|exact W1]. apply tk_next_any in Nu' as [P2 E2]; [|exact W2].
  cbn [tk_in tk_err] in P1, P2, E1, E2. rewrite V1 in P1. rewrite V2, <- V in P2.
  assert (SR : same_run t u).
  { split; [|split; eapply tk_next_none; eauto]. split; [rewrite E1, E2; split; reflexivity|eauto]. }
  destruct (read (fuel_for inp) ty0 t v) as [[[r1 x1] t1]|] eqn:Rt; [|discriminate A].
  destruct (read (fuel_for inp') ty0 u v) as [[[r2 x2] t2]|] eqn:Ru; [|discriminate B].
  destruct (read_rel same_run) with (n := fuel_for inp) (m := fuel_for inp') (ty0 := ty0)
    (t := t) (u := u) (v := v) (x := x1) (y := x2) (r := r1) (s := r2) (t1 := t1) (u1 := t2)
    as (<- & <- & ((SE & _) & _)); auto.
  - intros a c (S & _). now apply same_at_id.
  - apply same_run_val.
  - apply same_run_next.
  - apply same_run_error.
  - destruct SE as [SE SM].
    destruct r1; injection A as <- <- <-; injection B as <- <- <-;
      eexists _, _, _, _; (split; [reflexivity|]); (split; [reflexivity|]);
      destruct po; cbn; try reflexivity; now rewrite SE, SM.
Qed.
