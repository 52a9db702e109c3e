(** The tokenizer only moves forward. *)
From Verif Require Import Bytes BaseProofs Stream Tokenizer LexView.

(** [s'] is [s] after some number of [is_next]. *)
Inductive adv : istream -> istream -> Prop :=
  | adv_refl s : adv s s
  | adv_step s s' : adv (is_next s) s' -> adv s s'.

Lemma adv_trans a m c : adv a m -> adv m c -> adv a c.
Proof. induction 1; intros; auto. apply adv_step; auto. Qed.

Lemma adv_next s s' : adv s s' -> adv s (is_next s').
Proof. intros H. eapply adv_trans; [exact H|]. apply adv_step, adv_refl. Qed.

Lemma adv_wf s s' : adv s s' -> wf_is s -> wf_is s'.
Proof. induction 1; auto. intros. apply IHadv, is_next_wf; auto. Qed.

Lemma adv_len s s' : adv s s' -> wf_is s -> (length (vw s') <= length (vw s))%nat.
Proof.
  induction 1 as [|s s' A IH]; intros W; [lia|].
  destruct (is_next_spec s W) as [W' V']. specialize (IH W'). rewrite V' in IH.
  destruct (vw s); simpl in *; lia.
Qed.

#[local] Hint Resolve adv_refl adv_step : adv.

Lemma adv_read_hex k s acc o s' : read_hex k s acc = (o, s') -> adv s s'.
Proof.
  revert s acc; induction k; intros s acc H.
  - injection H as _ <-. constructor.
  - rewrite read_hex_S in H. cbv zeta in H. destruct (is_hex_z (is_peek (is_next s))).
    + apply IHk in H. now apply adv_step.
    + injection H as _ <-. auto with adv.
Qed.

Lemma escaped_stream s value lead :
  snd (parse_escaped_utf8 s value lead) = snd (read_hex 4 s 0).
Proof.
  unfold parse_escaped_utf8. destruct (read_hex 4 s 0) as [[cp|] s1]; [|reflexivity].
  destruct ((55296 <=? cp) && (cp <=? 56319)); [reflexivity|].
  destruct ((56320 <=? cp) && (cp <=? 57343)); [destruct (lead =? 0); reflexivity|].
  destruct ((128 <=? cp) && (cp <=? 2047)); [reflexivity|].
  destruct ((2048 <=? cp) && (cp <=? 65535)); reflexivity.
Qed.

Lemma adv_escaped s value lead o s' : parse_escaped_utf8 s value lead = (o, s') -> adv s s'.
Proof.
  intros H. pose proof (escaped_stream s value lead) as E. rewrite H in E. simpl snd in E at 1.
  destruct (read_hex 4 s 0) as [o2 s2] eqn:R. simpl in E. subst s2.
  eapply adv_read_hex; eauto.
Qed.

Lemma adv_string_loop n s lead value line col tok s' :
  parse_string_loop n s lead value line col = Some (tok, s') -> adv s s'.
Proof.
  revert s lead value; induction n; intros s lead value H; simpl in H; [discriminate|].
  destruct (is_eof s). { injection H as _ <-. constructor. }
  destruct (is_peek (is_next s) =? 34). { injection H as _ <-. auto with adv. }
  destruct (is_peek (is_next s) =? 92).
  - destruct (short_escape (is_peek (is_next (is_next s)))).
    { apply IHn in H. auto with adv. }
    destruct (is_peek (is_next (is_next s)) =? 117).
    + destruct (parse_escaped_utf8 (is_next (is_next s)) value lead) as [[[v l]|] s3] eqn:E;
        apply adv_escaped in E.
      * apply IHn in H. apply adv_step, adv_step. eapply adv_trans; eauto.
      * injection H as _ <-. auto with adv.
    + injection H as _ <-. auto with adv.
  - destruct (is_peek (is_next s) =? 0). { injection H as _ <-. auto with adv. }
    apply IHn in H. auto with adv.
Qed.

Lemma adv_number_loop n s acc v s' : parse_number_loop n s acc = Some (v, s') -> adv s s'.
Proof.
  revert s acc; induction n; intros s acc H; simpl in H; [discriminate|].
  destruct (is_eof s). { injection H as _ <-. constructor. }
  destruct (is_num_z (is_peek s)). { apply IHn in H. auto with adv. }
  injection H as _ <-. constructor.
Qed.

Lemma adv_identifier n s acc v s' : parse_identifier n s acc = Some (v, s') -> adv s s'.
Proof.
  revert s acc; induction n; intros s acc H; simpl in H; [discriminate|].
  destruct (is_eof s). { injection H as _ <-. constructor. }
  destruct (is_alpha_z (is_peek s)). { apply IHn in H. auto with adv. }
  injection H as _ <-. constructor.
Qed.

Lemma adv_next_loop n s tok s' : next_loop n s = Some (tok, s') -> adv s s'.
Proof.
  revert s; induction n; intros s H; simpl in H; [discriminate|].
  destruct (is_eof s). { injection H as _ <-. constructor. }
  destruct (is_ws_z (is_peek s)). { apply IHn in H. auto with adv. }
  destruct (punct (is_peek s)). { injection H as _ <-. auto with adv. }
  destruct (is_peek s =? 34).
  { unfold parse_string in H. destruct (is_peek s =? 34).
    - eapply adv_string_loop; eauto.
    - injection H as _ <-. constructor. }
  destruct (is_num_start_z (is_peek s)).
  { unfold parse_number in H. destruct (parse_number_loop n s []) as [[v s1]|] eqn:E; [|discriminate].
    injection H as _ <-. eapply adv_number_loop; eauto. }
  destruct (parse_identifier n s []) as [[v s1]|] eqn:E; [|discriminate].
  apply adv_identifier in E.
  repeat match type of H with (if ?x then _ else _) = _ => destruct x end;
    injection H as _ <-; exact E.
Qed.

(** ** Size of a tokenizer: bytes left, plus one for a pending token. *)
Definition pending (id : token_id) : nat :=
  match id with T_NONE | T_EOS => 0 | _ => 1 end.
Definition msize (t : tokenizer) : nat := (left_len t + pending (tk_id t))%nat.

Lemma tk_next_size n t : wf_is (tk_in t) -> (left_len t + 2 <= n)%nat ->
  exists t', tk_next n t = Some t' /\ wf_is (tk_in t') /\ (msize t' <= left_len t)%nat.
Proof.
  intros W L. destruct (tk_next_spec n t W L) as (t' & E & (W' & P) & _).
  exists t'. split; [exact E|split; [exact W'|]].
  assert (A : (left_len t' <= left_len t)%nat).
  { unfold tk_next in E. destruct (next_loop n (tk_in t)) as [[tok s]|] eqn:N; [|discriminate].
    injection E as <-. apply adv_len; simpl; auto. eapply adv_next_loop; eauto. }
  unfold msize, left_len in *.
  destruct (lex (vw (tk_in t))) as [[[id v] rest]|] eqn:X.
  - destruct P as (-> & _ & V). apply lex_length in X as [X1 X2]. rewrite V in *.
    destruct id; simpl; try lia; (specialize (X2 ltac:(discriminate)); lia).
  - rewrite P. simpl. lia.
Qed.

Lemma tk_expect_size n id t : wf_is (tk_in t) -> (left_len t + 2 <= n)%nat -> pending id = 1%nat ->
  exists x t', tk_expect n id t = Some (x, t') /\ wf_is (tk_in t') /\
               (if x then (msize t' + 1 <= msize t)%nat else t' = t).
Proof.
  intros W L P. unfold tk_expect. destruct (tid_eqb (tk_id t) id) eqn:E.
  - destruct (tk_next_size n t W L) as (t' & -> & W' & S). exists true, t'.
    split; [reflexivity|split; [exact W'|]]. unfold msize in *.
    assert (tk_id t = id) as -> by (destruct (tk_id t), id; simpl in E; congruence). lia.
  - exists false, t. auto.
Qed.
