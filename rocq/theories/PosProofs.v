(** Error positions. *)
From Verif Require Import Bytes BaseProofs Num Dbl Types Stream Tokenizer Write Read
  SpecJson SpecErr SpecPos LexView LexMono FuelMono LexJson Termination RelProofs ErrProofs Samples.

(** [reach s s' mid]: the stream [s] moves to [s'] by consuming [mid]. *)
Definition reach (s s' : istream) (mid : bytes) : Prop :=
  is_rest s = mid ++ is_rest s' /\
  forall p, line_col p (is_line s) (is_col s) -> line_col (p ++ mid) (is_line s') (is_col s').

Lemma reach_refl s : reach s s [].
Proof. split; [reflexivity|]. intros p H. now rewrite app_nil_r. Qed.

Lemma reach_trans s1 s2 s3 m1 m2 : reach s1 s2 m1 -> reach s2 s3 m2 -> reach s1 s3 (m1 ++ m2).
Proof.
  intros [A B] [C D]. split; [now rewrite A, C, app_assoc|]. intros p H. rewrite app_assoc. auto.
Qed.

Lemma line_col_lf p line col : line_col p line col -> line_col (p ++ [LF]) (line + 1) 1.
Proof.
  intros (-> & _). split.
  - rewrite count_occ_app. cbn [count_occ]. destruct (ascii_dec LF LF); [|congruence]. lia.
  - exists (p ++ [LF]), []. split; [now rewrite app_nil_r|]. split; [right; eauto|]. split; [auto|reflexivity].
Qed.

Lemma line_col_char p c line col : c <> LF -> line_col p line col -> line_col (p ++ [c]) line (col + 1).
Proof.
  intros N (-> & q & r & -> & Q & R & ->). split.
  - rewrite (count_occ_app _ (q ++ r)). cbn [count_occ]. destruct (ascii_dec c LF); [congruence|]. lia.
  - exists q, (r ++ [c]). split; [now rewrite app_assoc|]. split; [exact Q|]. split.
    + rewrite in_app_iff. intros [H|[H|[]]]; [auto|congruence].
    + rewrite app_length. simpl. lia.
Qed.

Lemma skip_lf_reach rest : forall line col, exists k,
  rest = repeat LF k ++ is_rest (skip_lf rest line col) /\
  forall p, line_col p line col ->
    line_col (p ++ repeat LF k) (is_line (skip_lf rest line col)) (is_col (skip_lf rest line col)).
Proof.
  induction rest as [|c r IH]; intros line col.
  - exists O. split; [reflexivity|]. intros p H. rewrite app_nil_r. exact H.
  - simpl. destruct (Ascii.eqb_spec c LF) as [->|N].
    + destruct (IH (line + 1) 1) as (k & E & H). exists (S k). split; [simpl; congruence|].
      intros p L. cbn [repeat]. change (LF :: repeat LF k) with ([LF] ++ repeat LF k). rewrite app_assoc. apply H. eapply line_col_lf; eauto.
    + exists O. split; [reflexivity|]. intros p H. rewrite app_nil_r. exact H.
Qed.

Lemma is_next_reach s : wf_is s -> exists mid, reach s (is_next s) mid.
Proof.
  intros W. unfold is_next. destruct (is_rest s) as [|c r] eqn:E.
  - exists []. apply reach_refl.
  - destruct (skip_lf_reach r (is_line s) (is_col s + 1)) as (k & Q & H).
    exists ([c] ++ repeat LF k). split; [rewrite E, Q at 1; reflexivity|].
    intros p L. rewrite app_assoc. apply H. apply line_col_char; [|exact L].
    unfold wf_is in W. rewrite E in W. exact W.
Qed.

(** One white space character. *)
Lemma is_next_reach_ws s : wf_is s -> is_ws_z (is_peek s) = true -> is_eof s = false ->
  exists mid, reach s (is_next s) mid /\ ws mid.
Proof.
  intros W K F. unfold is_next. unfold is_peek, is_eof in *. destruct (is_rest s) as [|c r] eqn:E; [discriminate F|].
  destruct (skip_lf_reach r (is_line s) (is_col s + 1)) as (k & Q & H).
  exists ([c] ++ repeat LF k). split.
  - split; [rewrite E, Q at 1; reflexivity|].
    intros p L. rewrite app_assoc. apply H. apply line_col_char; [|exact L].
    unfold wf_is in W. rewrite E in W. exact W.
  - unfold ws. rewrite forallb_app. apply andb_true_intro. split.
    + simpl. revert K. unfold is_ws_z, ws_char. num_z. lia.
    + clear. induction k; simpl; auto.
Qed.

Lemma parse_identifier_reach n : forall s acc v s', wf_is s -> parse_identifier n s acc = Some (v, s') ->
  exists mid, reach s s' mid.
Proof.
  induction n as [|n IH]; intros s acc v s' W A; [discriminate A|]. simpl in A.
  destruct (is_eof s); [injection A as <- <-; eexists; apply reach_refl|].
  destruct (is_alpha_z (is_peek s)); [|injection A as <- <-; eexists; apply reach_refl].
  destruct (is_next_reach s W) as [m R]. apply IH in A as [m' R']; [|now apply is_next_wf].
  eexists. eapply reach_trans; eauto.
Qed.

Lemma parse_number_reach n : forall s acc v s', wf_is s -> parse_number_loop n s acc = Some (v, s') ->
  exists mid, reach s s' mid.
Proof.
  induction n as [|n IH]; intros s acc v s' W A; [discriminate A|]. simpl in A.
  destruct (is_eof s); [injection A as <- <-; eexists; apply reach_refl|].
  destruct (is_num_z (is_peek s)); [|injection A as <- <-; eexists; apply reach_refl].
  destruct (is_next_reach s W) as [m R]. apply IH in A as [m' R']; [|now apply is_next_wf].
  eexists. eapply reach_trans; eauto.
Qed.

Lemma read_hex_reach k : forall s acc x s', wf_is s -> read_hex k s acc = (x, s') ->
  wf_is s' /\ exists mid, reach s s' mid.
Proof.
  induction k as [|k IH]; intros s acc x s' W A; cbn [read_hex] in A.
  - injection A as <- <-. split; [exact W|]. eexists; apply reach_refl.
  - destruct (is_next_reach s W) as [m R]. pose proof (is_next_wf s W) as W1.
    destruct (is_hex_z (is_peek (is_next s))); [|injection A as <- <-; eauto].
    apply IH in A as (W2 & m' & R'); [|exact W1]. split; [exact W2|]. eexists. eapply reach_trans; eauto.
Qed.

Lemma escaped_reach s value lead x s' : wf_is s -> parse_escaped_utf8 s value lead = (x, s') ->
  wf_is s' /\ exists mid, reach s s' mid.
Proof.
  unfold parse_escaped_utf8. destruct (read_hex 4 s 0) as [[cp|] s1] eqn:E; intros W A.
  - assert (s1 = s').
    { repeat match type of A with context [if ?c then _ else _] => destruct c end; injection A; auto. }
    subst s'. eapply read_hex_reach; eauto.
  - injection A as <- <-. eapply read_hex_reach; eauto.
Qed.

Lemma parse_string_reach n : forall s lead v line col tok s', wf_is s ->
  parse_string_loop n s lead v line col = Some (tok, s') ->
  (exists mid, reach s s' mid) /\
  ((t_line tok = line /\ t_col tok = col) \/ (t_line tok = 0 /\ t_col tok = 0)).
Proof.
  induction n as [|n IH]; intros s lead v line col tok s' W A; [discriminate A|].
  cbn [parse_string_loop] in A.
  destruct (is_eof s); [injection A as <- <-; split; [eexists; apply reach_refl|auto]|].
  destruct (is_next_reach s W) as [m1 R1]. pose proof (is_next_wf s W) as W1.
  set (s1 := is_next s) in *.
  destruct (is_next_reach s1 W1) as [m2 R2]. pose proof (is_next_wf s1 W1) as W2.
  pose proof (reach_trans _ _ _ _ _ R1 R2) as R12.
  destruct (is_peek s1 =? 34); [injection A as <- <-; split; [eauto|auto]|].
  destruct (is_peek s1 =? 92).
  - destruct (short_escape (is_peek (is_next s1))).
    { apply IH in A as [[m R] T]; [|exact W2]. split; [eexists; eapply reach_trans; eauto|exact T]. }
    destruct (is_peek (is_next s1) =? 117); [|injection A as <- <-; split; [eauto|auto]].
    destruct (parse_escaped_utf8 (is_next s1) v lead) as [[[v' l']|] s3] eqn:E;
      apply escaped_reach in E as (W3 & m3 & R3); try exact W2;
      pose proof (reach_trans _ _ _ _ _ R12 R3) as R13.
    + apply IH in A as [[m R] T]; [|exact W3]. split; [eexists; eapply reach_trans; eauto|exact T].
    + injection A as <- <-; split; [eauto|auto].
  - destruct (is_peek s1 =? 0); [injection A as <- <-; split; [eauto|auto]|].
    apply IH in A as [[m R] T]; [|exact W1]. split; [eexists; eapply reach_trans; [exact R1|exact R]|exact T].
Qed.

Lemma at_token_intro s : wf_is s -> is_eof s = true \/ is_ws_z (is_peek s) = false -> at_token (is_rest s).
Proof.
  intros W. unfold wf_is, is_eof, is_peek, at_token in *. destruct (is_rest s) as [|c r]; [auto|].
  intros [H|H]; [discriminate H|]. revert H. unfold is_ws_z, ws_char. num_z. lia.
Qed.

(** The next token: white space is skipped to [s1], the token is read to [s'], and
    its recorded position is that of [s1], or 0:0 for strings. *)
Lemma next_loop_reach n : forall s tok s', wf_is s -> next_loop n s = Some (tok, s') ->
  exists s1 w m, reach s s1 w /\ ws w /\ wf_is s1 /\ at_token (is_rest s1) /\ reach s1 s' m /\
    ((t_line tok = is_line s1 /\ t_col tok = is_col s1) \/
     (t_line tok = 0 /\ t_col tok = 0 /\ at_quote (is_rest s1))).
Proof.
  induction n as [|n IH]; intros s tok s' W A; [discriminate A|]. cbn [next_loop] in A.
  destruct (is_eof s) eqn:F.
  { injection A as <- <-. exists s, [], []. split; [apply reach_refl|]. split; [reflexivity|].
    split; [exact W|]. split; [apply at_token_intro; auto|]. split; [apply reach_refl|]. auto. }
  destruct (is_ws_z (is_peek s)) eqn:K.
  { destruct (is_next_reach_ws s W K F) as (m & R & Hm).
    apply IH in A as (s1 & w & m1 & R1 & Hw & W1 & T & R2 & P); [|now apply is_next_wf].
    exists s1, (m ++ w), m1. split; [eapply reach_trans; eauto|]. split; [now apply ws_app|]. auto. }
  assert (Q : forall m, reach s s' m ->
    ((t_line tok = is_line s /\ t_col tok = is_col s) \/
     (t_line tok = 0 /\ t_col tok = 0 /\ at_quote (is_rest s))) ->
    exists s1 w m, reach s s1 w /\ ws w /\ wf_is s1 /\ at_token (is_rest s1) /\ reach s1 s' m /\
    ((t_line tok = is_line s1 /\ t_col tok = is_col s1) \/
     (t_line tok = 0 /\ t_col tok = 0 /\ at_quote (is_rest s1)))).
  { intros m R P. exists s, [], m. split; [apply reach_refl|]. split; [reflexivity|].
    split; [exact W|]. split; [apply at_token_intro; auto|]. auto. }
  destruct (punct (is_peek s)).
  { injection A as <- <-. destruct (is_next_reach s W) as [m R]. eapply Q; eauto. }
  destruct (is_peek s =? 34) eqn:E34.
  { unfold parse_string in A. rewrite E34 in A. apply parse_string_reach in A as [[m R] P]; [|exact W].
    eapply Q; [exact R|]. destruct P as [P|[P1 P2]]; [auto|right].
    split; [exact P1|]. split; [exact P2|]. unfold at_quote, is_peek, is_eof in *.
    destruct (is_rest s) as [|c r]; [discriminate F|]. rewrite schar_eqb in E34 by lia. lia. }
  destruct (is_num_start_z (is_peek s)).
  { unfold parse_number in A. destruct (parse_number_loop n s []) as [[v s2]|] eqn:E; [|discriminate A].
    injection A as <- <-. apply parse_number_reach in E as [m R]; [|exact W]. eapply Q; eauto. }
  destruct (parse_identifier n s []) as [[v s2]|] eqn:E; [|discriminate A].
  apply parse_identifier_reach in E as [m R]; [|exact W].
  repeat match type of A with (if ?c then _ else _) = _ => destruct c end;
    injection A as <- <-; eapply Q; eauto.
Qed.

(** ** Token texts *)
Lemma lex_str_body l : forall lead value v r, lex_str l lead value = Some (v, r) ->
  exists s, l = s ++ chr 34 :: r /\ lit_body s.
Proof.
  assert (G : forall n l, (length l <= n)%nat -> forall lead value v r,
    lex_str l lead value = Some (v, r) -> exists s, l = s ++ chr 34 :: r /\ lit_body s).
  { clear l. induction n as [|n IH]; intros l L lead value v r H.
    { destruct l; [discriminate H|simpl in L; lia]. }
    destruct l as [|c l]; [discriminate H|]. cbn [lex_str] in H. simpl in L.
    destruct (Z.eqb_spec (code c) 34) as [E|N].
    { injection H as <- <-. exists []. split; [|constructor]. simpl. f_equal. rewrite <- (chr_code c). congruence. }
    destruct (Z.eqb_spec (code c) 92) as [E|N'].
    - assert (c = chr 92) by (rewrite <- (chr_code c); congruence). subst c.
      destruct l as [|e l2]; [discriminate H|]. simpl in L.
      destruct (short_escape (schar e)).
      { apply IH in H as (s & -> & B); [|lia]. exists (chr 92 :: e :: s). split; [reflexivity|now constructor]. }
      destruct (code e =? 117); [|discriminate H].
      destruct l2 as [|h1 [|h2 [|h3 [|h4 r6]]]]; try discriminate H.
      destruct (lex_hex4 h1 h2 h3 h4) eqn:X; [|discriminate H].
      destruct (utf8_step z value lead) as [[v' l']|]; [|discriminate H]. simpl in L.
      apply IH in H as (s & -> & B); [|lia].
      exists (chr 92 :: e :: h1 :: h2 :: h3 :: h4 :: s). split; [reflexivity|].
      unfold lex_hex4 in X.
      destruct (is_hex_z (schar h1)) eqn:H1, (is_hex_z (schar h2)) eqn:H2,
               (is_hex_z (schar h3)) eqn:H3, (is_hex_z (schar h4)) eqn:H4; try discriminate X.
      assert (HX : forall h, is_hex_z (schar h) = true -> code h <> 34 /\ code h <> 92).
      { intros h Hh. unfold is_hex_z, schar in Hh. destruct (Z.ltb_spec (code h) 128); lia. }
      apply HX in H1 as [? ?], H2 as [? ?], H3 as [? ?], H4 as [? ?].
      apply lb_esc. repeat (apply lb_raw; [assumption..|]). exact B.
    - destruct (code c =? 0); [discriminate H|].
      apply IH in H as (s & -> & B); [|lia]. exists (c :: s). split; [reflexivity|now constructor]. }
  eapply G; eauto.
Qed.

Lemma lex_token x id v r : match x with c :: _ => is_ws_c c = false | [] => True end ->
  lex x = Some (id, v, r) -> x = [] \/ exists u, x = u ++ r /\ token_text u r.
Proof.
  destruct x as [|c x]; [auto|]. intros NW H. right. cbn [lex] in H. rewrite NW in H.
  destruct (punct (schar c)) as [k|] eqn:P.
  { injection H as <- <- <-. exists [c]. split; [reflexivity|]. apply tt_punct. unfold punct in P.
    repeat rewrite schar_eqb in P by lia. simpl.
    repeat match type of P with (if ?a =? ?z then _ else _) = _ => destruct (Z.eqb_spec a z); [lia|] end.
    discriminate P. }
  destruct (Z.eqb_spec (code c) 34) as [E|N].
  { destruct (lex_str x 0 []) as [[u w]|] eqn:E2; [|discriminate H]. injection H as <- <- <-.
    apply lex_str_body in E2 as (s & -> & B). exists ([chr 34] ++ s ++ [chr 34]).
    split; [|now constructor]. rewrite <- !app_assoc. simpl. f_equal. rewrite <- (chr_code c). congruence. }
  destruct (is_num_start_z (schar c)) eqn:NS.
  { destruct (span is_num_c (c :: x)) as [u w] eqn:S. injection H as <- <- <-.
    pose proof (BaseProofs.span_app is_num_c (c :: x)) as Q.
    pose proof (span_stops is_num_c (c :: x)) as ST.
    pose proof (span_all is_num_c (c :: x)) as AL. rewrite S in Q, ST, AL. cbn [fst snd] in Q, ST, AL.
    exists u. split; [congruence|]. apply tt_number.
    - assert (exists u', u = c :: u') as [u' ->].
      { cbn [span] in S. assert (is_num_c c = true) as K.
        { revert NS. unfold is_num_c, is_num_z, is_num_start_z. lia. }
        rewrite K in S. destruct (span is_num_c x). injection S as <- <-. eauto. }
      exists c, u'. split; [reflexivity|]. split.
      + revert NS. unfold is_num_start_z, digit_char, schar. destruct (Z.ltb_spec (code c) 128); intros NS.
        * assert (code c = 45 \/ 48 <= code c <= 57) as [K|K] by lia.
          -- right. rewrite <- (chr_code c), K. reflexivity.
          -- left. lia.
        * pose proof (code_range c). lia.
      + simpl in AL. apply andb_prop in AL as [_ AL]. eapply forallb_impl; [|exact AL]. intros y Hy. now rewrite num_char_c.
    - destruct w; [exact I|]. simpl in ST. now rewrite num_char_c. }
  destruct (span is_alpha_c (c :: x)) as [u w] eqn:S.
  pose proof (BaseProofs.span_app is_alpha_c (c :: x)) as Q.
  pose proof (span_stops is_alpha_c (c :: x)) as ST. rewrite S in Q, ST. cbn [fst snd] in Q, ST.
  destruct (keyword u) as [k|] eqn:K; [|discriminate H]. injection H as <- <- <-.
  exists u. split; [congruence|]. apply tt_word.
  - unfold keyword in K.
    destruct (bytes_eqb u (b "true")) eqn:E1; [apply bytes_eqb_true in E1; simpl; auto|].
    destruct (bytes_eqb u (b "false")) eqn:E2; [apply bytes_eqb_true in E2; simpl; auto|].
    destruct (bytes_eqb u (b "null")) eqn:E3; [apply bytes_eqb_true in E3; simpl; auto|discriminate K].
  - destruct w; [exact I|]. simpl in ST. now rewrite letter_alpha.
Qed.

Lemma boundary_ws pre w x : boundary pre (w ++ x) -> ws w -> boundary (pre ++ w) x.
Proof.
  revert pre. induction w as [|c w IH]; intros pre B W; [now rewrite app_nil_r|].
  unfold ws in W. simpl in W. apply andb_prop in W as [Wc W].
  change (c :: w) with ([c] ++ w). rewrite app_assoc. apply IH; [|exact W]. now apply bd_ws.
Qed.

(** ** The invariant *)
Section Invariant.
  Variable inp : bytes.

  Definition good_pos (line col : Z) : Prop :=
    exists pre post, inp = pre ++ post /\ boundary pre post /\ at_token post /\
      (line_col pre line col \/ (line = 0 /\ col = 0 /\ at_quote post)).

  Definition located (s : istream) : Prop :=
    wf_is s /\ exists pre, inp = pre ++ is_rest s /\ line_col pre (is_line s) (is_col s) /\
                           boundary pre (is_rest s).

  Definition inv (t : tokenizer) : Prop :=
    good_pos (t_line (tk_cur t)) (t_col (tk_cur t)) /\
    (tk_id t <> T_NONE -> located (tk_in t)) /\
    (e_code (tk_err t) <> PGERR_OK -> good_pos (e_line (tk_err t)) (e_col (tk_err t))).

  Lemma next_inv n t t1 : located (tk_in t) ->
    (e_code (tk_err t) <> PGERR_OK -> good_pos (e_line (tk_err t)) (e_col (tk_err t))) ->
    tk_next n t = Some t1 -> inv t1.
  Proof.
    intros (W & pre & E & L & B) ER A.
    destruct (tk_next_any _ _ _ W A) as [P Er].
    unfold tk_next in A. destruct (next_loop n (tk_in t)) as [[tok s']|] eqn:N; [|discriminate A].
    injection A as <-. cbn [tk_err tk_in tk_cur] in *.
    apply next_loop_reach in N as (s1 & w & m & [R1 L1] & Hw & W1 & T & [R2 L2] & Q); [|exact W].
    assert (B1 : boundary (pre ++ w) (is_rest s1)).
    { apply boundary_ws; [|exact Hw]. now rewrite <- R1. }
    specialize (L1 _ L). unfold inv. cbn [tk_cur tk_in tk_err]. split; [|split; [|exact ER]].
    - exists (pre ++ w), (is_rest s1). split; [rewrite E, R1; now rewrite app_assoc|].
      split; [exact B1|]. split; [exact T|].
      destruct Q as [[-> ->]|Q]; [left; exact L1|right; tauto].
    - intros NN. destruct P as [W' P]. cbn [tk_in] in W', P. split; [exact W'|].
      exists (pre ++ w ++ m). split; [rewrite E, R1, R2, <- !app_assoc; reflexivity|].
      split; [rewrite app_assoc; now apply L2|].
      assert (V : vw (tk_in t) = nolf (w ++ is_rest s1)) by (unfold vw; now rewrite R1).
      rewrite V, lex_ws in P by exact Hw.
      destruct (lex (nolf (is_rest s1))) as [[[id v] r]|] eqn:LX; [|congruence].
      destruct P as (_ & _ & P). unfold vw in P.
      apply lex_token in LX.
      2:{ unfold wf_is, at_token in W1, T. destruct (is_rest s1) as [|c rr]; [exact I|].
          simpl. unfold not_lf. destruct (Ascii.eqb_spec c LF); [contradiction|]. simpl.
          revert T. unfold ws_char, is_ws_c, is_ws_z. num_z. lia. }
      rewrite app_assoc. destruct LX as [LX|(u & LX & TT)].
      + assert (is_rest s1 = []) as Z1.
        { unfold wf_is in W1. destruct (is_rest s1) as [|c rr]; [reflexivity|]. exfalso.
          simpl in LX. unfold not_lf in LX. destruct (Ascii.eqb_spec c LF); [contradiction|]. discriminate LX. }
        rewrite Z1 in R2. symmetry in R2. apply app_eq_nil in R2 as [-> R2]. rewrite R2, app_nil_r.
        now rewrite Z1 in B1.
      + apply bd_token; [now rewrite <- R2|]. rewrite !drop_lf_nolf, P.
        rewrite R2, nolf_app, P in LX. apply app_inv_tail in LX. now rewrite LX.
  Qed.

  Lemma error_inv c msg t : inv t -> inv (tk_error c msg t).
  Proof.
    intros (A & B & C). unfold tk_error. destruct (e_code (tk_err t)) eqn:E;
      (split; [exact A|split; [exact B|]]); try (rewrite E; exact C). intros _. exact A.
  Qed.
End Invariant.

Lemma error_position ty0 v inp p v' p' : 
  deserialize ty0 v inp (Some p) = Some (false, v', Some p') -> e_code (p_err p') <> PGERR_OK ->
  exists pre post, inp = pre ++ post /\ boundary pre post /\ at_token post /\
    (line_col pre (e_line (p_err p')) (e_col (p_err p')) \/
     (e_line (p_err p') = 0 /\ e_col (p_err p') = 0 /\ at_quote post)).
Proof.
  unfold deserialize, deserialize_fuel. intros A NE.
  destruct (tk_make _ _ _) as [t|] eqn:M; [|discriminate A].
  destruct (read _ ty0 t v) as [[[r1 x] t1]|] eqn:R; [|discriminate A].
  assert (I0 : inv inp t).
  { unfold tk_make in M. eapply next_inv; [| |exact M]; cbn [tk_in tk_err].
    - split; [apply mk_istream_spec|].
      destruct (skip_lf_reach inp 1 1) as (k & E & H). fold (mk_istream inp) in E, H.
      exists (repeat LF k). split; [exact E|].
      assert (L : line_col [] 1 1).
      { split; [reflexivity|]. exists [], []. repeat split; auto. }
      split; [exact (H [] L)|]. apply (boundary_ws []); [constructor|].
      unfold ws. clear. induction k; simpl; auto.
    - rewrite ctx_err. intros C. now elim C. }
  assert (I1 : inv inp t1).
  { eapply read_inv; [| |exact I0|exact R].
    - intros n u u1 (G & L & E) NN N. eapply next_inv; eauto.
    - intros. now apply error_inv. }
  destruct I1 as (_ & _ & I1).
  destruct r1; try discriminate A; injection A as <- <-; cbn [p_err] in *; exact (I1 NE).
Qed.

Lemma C12_string_lemma : exists inp v' p',
  inp = b "{" ++ [LF] ++ b " ""id"": ""3""}" /\
  deserialize outer_ty (dflt outer_ty) inp (Some params_default) = Some (false, v', Some p') /\
  e_code (p_err p') = PGERR_INVALID_VALUE /\ e_line (p_err p') = 0 /\ e_col (p_err p') = 0 /\
  ~ exists pre post, inp = pre ++ post /\ line_col pre (e_line (p_err p')) (e_col (p_err p')).
Proof.
  eexists _, _, _. split; [reflexivity|]. split; [vm_compute; reflexivity|].
  split; [reflexivity|]. split; [reflexivity|]. split; [reflexivity|].
  intros (pre & post & _ & L & _). cbn [p_err e_line] in L. lia.
Qed.
