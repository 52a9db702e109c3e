(** More fuel does not change a token; positions reached with any fuel. *)
From Verif Require Import Bytes BaseProofs Stream Tokenizer LexView LexMono.

Lemma parse_identifier_mono n m s v r : (n <= m)%nat ->
  parse_identifier n s v = Some r -> parse_identifier m s v = Some r.
Proof.
  revert m s v. induction n as [|n IH]; intros [|m] s v L H; simpl in *; try discriminate; [lia|].
  destruct (is_eof s); [exact H|]. destruct (is_alpha_z (is_peek s)); [|exact H].
  apply IH; [lia|exact H].
Qed.

Lemma parse_number_loop_mono n m s v r : (n <= m)%nat ->
  parse_number_loop n s v = Some r -> parse_number_loop m s v = Some r.
Proof.
  revert m s v. induction n as [|n IH]; intros [|m] s v L H; simpl in *; try discriminate; [lia|].
  destruct (is_eof s); [exact H|]. destruct (is_num_z (is_peek s)); [|exact H].
  apply IH; [lia|exact H].
Qed.

Lemma parse_string_loop_mono n m s lead v line col r : (n <= m)%nat ->
  parse_string_loop n s lead v line col = Some r -> parse_string_loop m s lead v line col = Some r.
Proof.
  revert m s lead v. induction n as [|n IH]; intros [|m] s lead v L H; try discriminate; [lia|].
  cbn [parse_string_loop] in *. cbv zeta in *.
  destruct (is_eof s); [exact H|]. destruct (is_peek (is_next s) =? 34); [exact H|].
  destruct (is_peek (is_next s) =? 92).
  - destruct (short_escape (is_peek (is_next (is_next s)))).
    + apply IH; [lia|exact H].
    + destruct (is_peek (is_next (is_next s)) =? 117); [|exact H].
      destruct (parse_escaped_utf8 (is_next (is_next s)) v lead) as [[[v' l']|] s3]; [|exact H].
      apply IH; [lia|exact H].
  - destruct (is_peek (is_next s) =? 0); [exact H|]. apply IH; [lia|exact H].
Qed.

Lemma next_loop_mono n m s r : (n <= m)%nat -> next_loop n s = Some r -> next_loop m s = Some r.
Proof.
  revert m s. induction n as [|n IH]; intros [|m] s L H; try discriminate; [lia|].
  cbn [next_loop] in *. cbv zeta in *.
  destruct (is_eof s); [exact H|]. destruct (is_ws_z (is_peek s)). { apply IH; [lia|exact H]. }
  destruct (punct (is_peek s)); [exact H|]. destruct (is_peek s =? 34).
  { unfold parse_string in *. destruct (is_peek s =? 34); [|exact H].
    eapply parse_string_loop_mono; [|exact H]. lia. }
  destruct (is_num_start_z (is_peek s)).
  { unfold parse_number in *. destruct (parse_number_loop n s []) as [[v s']|] eqn:E; [|discriminate].
    rewrite (parse_number_loop_mono n m s [] _) with (2 := E) by lia. exact H. }
  destruct (parse_identifier n s []) as [[v s']|] eqn:E; [|discriminate].
  rewrite (parse_identifier_mono n m s [] _) with (2 := E) by lia. exact H.
Qed.

Lemma tk_next_mono n m t r : (n <= m)%nat -> tk_next n t = Some r -> tk_next m t = Some r.
Proof.
  unfold tk_next. intros L H. destruct (next_loop n (tk_in t)) as [x|] eqn:E; [|discriminate].
  now rewrite (next_loop_mono n m _ _ L E).
Qed.

(** A token read with any fuel is the first token of the rest. *)
Lemma tk_next_any n t t' : wf_is (tk_in t) -> tk_next n t = Some t' ->
  pos t' (vw (tk_in t)) /\ tk_err t' = tk_err t.
Proof.
  intros W H. destruct (tk_next_spec (Nat.max n (left_len t + 2)) t W) as (t2 & E & P & Er); [lia|].
  rewrite (tk_next_mono n _ t _ (Nat.le_max_l _ _) H) in E. injection E as <-. auto.
Qed.

Lemma tid_eqb_true x y : tid_eqb x y = true -> x = y.
Proof. destruct x, y; simpl; congruence. Qed.

Lemma tk_expect_any n id t x t' : wf_is (tk_in t) -> tk_expect n id t = Some (x, t') ->
  (x = true /\ tk_id t = id /\ tk_next n t = Some t' /\ pos t' (vw (tk_in t)) /\ tk_err t' = tk_err t) \/
  (x = false /\ tk_id t <> id /\ t' = t).
Proof.
  unfold tk_expect. intros W H. destruct (tid_eqb (tk_id t) id) eqn:E.
  - destruct (tk_next n t) as [t1|] eqn:N; [|discriminate]. injection H as <- <-. left.
    destruct (tk_next_any _ _ _ W N) as [P Er]. split; [reflexivity|].
    split; [now apply tid_eqb_true|]. auto.
  - injection H as <- <-. right. repeat split; auto. intros Q. rewrite Q in E. destruct id; discriminate.
Qed.
