(** The tokens of [SpecTok.v] are those of the lexer. *)
From Verif Require Import Bytes BaseProofs Stream Tokenizer SpecJson SpecErr SpecPos SpecTok LexView LexJson ErrProofs PosProofs.

Definition tid (k : jtok) : token_id :=
  match k with
  | KLBrace => T_OBJS | KRBrace => T_OBJE | KLBrack => T_ARRS | KRBrack => T_ARRE
  | KColon => T_COLON | KComma => T_COMMA | KStr _ => T_STRING | KNum _ => T_NUMBER
  | KTrue => T_BTRUE | KFalse => T_BFALSE | KNull => T_NIL
  end.
Definition tval (k : jtok) : bytes := match k with KStr s => s | KNum s => s | _ => [] end.

Definition lead_of (pend : option Z) : Z := match pend with None => 0 | Some h => h end.
Definition pend_ok (pend : option Z) : Prop :=
  match pend with None => True | Some h => 55296 <= h <= 56319 end.

(** ** Strings *)
Lemma lex_str_u h1 h2 h3 h4 cp r lead acc : lex_hex4 h1 h2 h3 h4 = Some cp ->
  lex_str (b "\u" ++ [h1; h2; h3; h4] ++ r) lead acc =
  match utf8_step cp acc lead with
  | Some (value', lead') => lex_str r lead' value'
  | None => None
  end.
Proof. intros H. cbn [app b]. simpl. rewrite H. reflexivity. Qed.

Lemma lchars_lex pend t s : lchars pend t s -> pend_ok pend -> forall acc x,
  lex_str (t ++ chr 34 :: x) (lead_of pend) acc = Some (acc ++ s, x).
Proof.
  induction 1 as [pend|pend c t s R H IH|pend e c t s S H IH|pend h cp t s X L SC H IH
                 |pend h hi t s X R H IH|hi h lo t s X R H IH]; intros P acc x.
  - simpl. now rewrite app_nil_r.
  - cbn [app lex_str]. destruct R as (R1 & R2 & R3 & R4).
    destruct (Z.eqb_spec (code c) 34); [contradiction|]. destruct (Z.eqb_spec (code c) 92); [contradiction|].
    destruct (Z.eqb_spec (code c) 0); [contradiction|]. rewrite IH by exact P. now rewrite <- app_assoc.
  - cbn [app lex_str]. rewrite chr92. cbn [Z.eqb Pos.eqb]. destruct (short_lex _ _ S) as (-> & _ & _).
    rewrite IH by exact P. now rewrite <- app_assoc.
  - destruct (hex4_lex _ _ X) as (c1 & c2 & c3 & c4 & -> & LX & RR & _).
    rewrite <- !app_assoc, (lex_str_u _ _ _ _ _ _ _ _ LX), utf8_step_bmp by (try exact SC; lia).
    rewrite (IH I). now rewrite <- app_assoc.
  - destruct (hex4_lex _ _ X) as (c1 & c2 & c3 & c4 & -> & LX & RR & _).
    rewrite <- !app_assoc, (lex_str_u _ _ _ _ _ _ _ _ LX), utf8_step_lead by exact R.
    exact (IH R acc x).
  - destruct (hex4_lex _ _ X) as (c1 & c2 & c3 & c4 & -> & LX & RR & _).
    rewrite <- !app_assoc, (lex_str_u _ _ _ _ _ _ _ _ LX). cbn [lead_of].
    rewrite utf8_step_trail by (try exact R; exact P).
    rewrite (IH I). now rewrite <- app_assoc.
Qed.

Lemma short_of e c : short_escape (schar e) = Some c -> short e c.
Proof.
  unfold short_escape. repeat rewrite schar_eqb by lia.
  assert (K : forall z, 0 <= z < 256 -> code e = z -> e = chr z).
  { intros z R <-. now rewrite chr_code. }
  repeat match goal with
  | |- (if code e =? ?z then _ else _) = _ -> _ =>
      destruct (Z.eqb_spec (code e) z) as [E|_]; [apply (K z) in E; [|lia]; subst e; intros H; injection H as <-; try constructor|]
  end. discriminate.
Qed.

Lemma hexdigit_of c : is_hex_z (schar c) = true -> hexdigit c (hex_val (schar c)).
Proof.
  unfold is_hex_z, hex_val, schar. pose proof (code_range c). destruct (Z.ltb_spec (code c) 128); [|lia].
  intros H1.
  destruct (Z.leb_spec 48 (code c)), (Z.leb_spec (code c) 57); cbn [andb] in *.
  - constructor. lia.
  - destruct (Z.leb_spec 97 (code c)); [|destruct (Z.leb_spec 65 (code c))]; try lia.
    all: destruct (Z.leb_spec (code c) 102), (Z.leb_spec (code c) 70); cbn [andb orb] in *; try lia.
    all: first [replace (code c - 97 + 10) with (code c - 87) by lia|replace (code c - 65 + 10) with (code c - 55) by lia|idtac].
    all: constructor; lia.
  - lia.
  - lia.
Qed.

Lemma hex4_of h1 h2 h3 h4 cp : lex_hex4 h1 h2 h3 h4 = Some cp -> hex4 [h1; h2; h3; h4] cp.
Proof.
  unfold lex_hex4.
  destruct (is_hex_z (schar h1)) eqn:H1, (is_hex_z (schar h2)) eqn:H2,
           (is_hex_z (schar h3)) eqn:H3, (is_hex_z (schar h4)) eqn:H4; try discriminate.
  apply hexdigit_of in H1, H2, H3, H4. cbn [andb]. intros E. injection E as <-.
  match goal with |- hex4 _ ?z => replace z with (hex_val (schar h1) * 4096 + hex_val (schar h2) * 256
     + hex_val (schar h3) * 16 + hex_val (schar h4)) by lia end.
  now constructor.
Qed.

Lemma lex_lchars n : forall l pend acc v r, (length l <= n)%nat -> ~ In LF l -> pend_ok pend ->
  lex_str l (lead_of pend) acc = Some (v, r) ->
  exists t s, l = t ++ chr 34 :: r /\ v = acc ++ s /\ lchars pend t s.
Proof.
  induction n as [|n IH]; intros l pend acc v r L NL P H.
  { destruct l; [discriminate H|simpl in L; lia]. }
  destruct l as [|c l]; [discriminate H|]. cbn [lex_str] in H. simpl in L.
  assert (NL' : ~ In LF l) by (intros K; apply NL; now right).
  assert (NC : code c <> 10) by (intros K; apply NL; left; rewrite <- (chr_code c), K; reflexivity).
  destruct (Z.eqb_spec (code c) 34) as [E|N].
  { injection H as <- <-. exists [], []. split; [|split; [now rewrite app_nil_r|constructor]].
    simpl. f_equal. rewrite <- (chr_code c). congruence. }
  destruct (Z.eqb_spec (code c) 92) as [E|N'].
  - assert (c = chr 92) by (rewrite <- (chr_code c); congruence). subst c.
    destruct l as [|e l2]; [discriminate H|]. simpl in L.
    assert (NL2 : ~ In LF l2) by (intros K; apply NL'; now right).
    destruct (short_escape (schar e)) as [x|] eqn:SE.
    { apply short_of in SE. apply IH in H as (t & s & -> & -> & B); [|lia|assumption..].
      exists (chr 92 :: e :: t), (x :: s). split; [reflexivity|]. split; [now rewrite <- app_assoc|now constructor]. }
    destruct (Z.eqb_spec (code e) 117) as [E117|]; [|discriminate H].
    assert (e = "u"%char) by (rewrite <- (chr_code e), E117; reflexivity). subst e.
    destruct l2 as [|h1 [|h2 [|h3 [|h4 r6]]]]; try discriminate H.
    destruct (lex_hex4 h1 h2 h3 h4) as [cp|] eqn:X; [|discriminate H]. apply hex4_of in X.
    pose proof (hex4_lex _ _ X) as (_ & _ & _ & _ & _ & _ & RR & _).
    assert (NL6 : ~ In LF r6) by (intros K; apply NL2; do 4 right; exact K). simpl in L.
    destruct (Z.leb_spec 55296 cp); [destruct (Z.leb_spec cp 56319); [|destruct (Z.leb_spec cp 57343)]|].
    + rewrite utf8_step_lead in H by lia. change cp with (lead_of (Some cp)) in H.
      apply IH in H as (t & s & -> & -> & B); [|lia|assumption|simpl; lia].
      exists (b "\u" ++ [h1; h2; h3; h4] ++ t), s. split; [reflexivity|]. split; [reflexivity|].
      eapply lc_high; eauto; lia.
    + destruct pend as [hi|].
      * cbn [lead_of] in H. rewrite utf8_step_trail in H by (simpl in P; lia). change 0 with (lead_of None) in H.
        apply IH in H as (t & s & -> & -> & B); [|lia|assumption|simpl; lia].
        exists (b "\u" ++ [h1; h2; h3; h4] ++ t). eexists. split; [reflexivity|]. split; [now rewrite <- app_assoc|].
        apply lc_low; auto; lia.
      * exfalso. revert H. unfold utf8_step. destruct (Z.leb_spec 55296 cp), (Z.leb_spec cp 56319); try lia.
        cbn [andb]. destruct (Z.leb_spec 56320 cp), (Z.leb_spec cp 57343); try lia. cbn [andb lead_of Z.eqb]. discriminate.
    + assert (SC : scalar cp) by (split; lia). rewrite utf8_step_bmp in H by (auto; lia). change 0 with (lead_of None) in H.
      apply IH in H as (t & s & -> & -> & B); [|lia|assumption|exact I].
      exists (b "\u" ++ [h1; h2; h3; h4] ++ t). eexists. split; [reflexivity|]. split; [now rewrite <- app_assoc|].
      apply lc_u; auto; lia.
    + destruct (Z.leb_spec 128 cp).
      * assert (SC : scalar cp) by (split; lia). rewrite utf8_step_bmp in H by (auto; lia). change 0 with (lead_of None) in H.
        apply IH in H as (t & s & -> & -> & B); [|lia|assumption|exact I].
        exists (b "\u" ++ [h1; h2; h3; h4] ++ t). eexists. split; [reflexivity|]. split; [now rewrite <- app_assoc|].
        apply lc_u; auto; lia.
      * exfalso. revert H. unfold utf8_step. destruct (Z.leb_spec 55296 cp), (Z.leb_spec 56320 cp), (Z.leb_spec 128 cp), (Z.leb_spec 2048 cp); try lia.
        cbn [andb]. discriminate.
  - destruct (Z.eqb_spec (code c) 0); [discriminate H|].
    apply IH in H as (t & s & -> & -> & B); [|lia|assumption..].
    exists (c :: t), (c :: s). split; [reflexivity|]. split; [now rewrite <- app_assoc|].
    apply lc_raw; [|exact B]. repeat split; auto.
Qed.

Lemma short_nonul e c : short e c -> c <> NUL.
Proof. destruct 1; discriminate. Qed.

Lemma lchars_nonul pend t s : lchars pend t s -> pend_ok pend -> ~ In NUL s.
Proof.
  induction 1 as [pend|pend c t s R H IH|pend e c t s S H IH|pend h cp t s X L SC H IH
                 |pend h hi t s X R H IH|hi h lo t s X R H IH]; intros P.
  - auto.
  - intros [K|K]; [|now apply IH in K]. destruct R as (_ & _ & R & _). apply R. rewrite K. reflexivity.
  - intros [K|K]; [|now apply IH in K]. now apply short_nonul in S.
  - rewrite in_app_iff. intros [K|K]; [|now apply (IH I) in K]. apply utf8_encode_nonul in K; auto; lia.
  - now apply IH.
  - rewrite in_app_iff. intros [K|K]; [|now apply (IH I) in K]. simpl in P.
    apply utf8_encode_nonul in K; [auto| |lia]. split; lia.
Qed.

Lemma tok_nonul k u x : tok_text k u x -> match k with KStr s => ~ In NUL s | _ => True end.
Proof. destruct 1; try exact I. eapply lchars_nonul; eauto. exact I. Qed.

(** ** Tokens *)
Lemma tok_lex k u x : tok_text k u x -> lex (u ++ x) = Some (tid k, tval k, x).
Proof.
  destruct 1 as [x|x|x|x|x|x|t s x H|u x H S|x S|x S|x S]; try reflexivity.
  - rewrite <- !app_assoc. change ([chr 34] ++ t ++ [chr 34] ++ x) with (chr 34 :: t ++ chr 34 :: x).
    cbn [lex]. change (is_ws_c (chr 34)) with false. change (punct (schar (chr 34))) with (@None token_id).
    rewrite chr34. cbn [Z.eqb Pos.eqb]. change 0 with (lead_of None). rewrite (lchars_lex _ _ _ H I). reflexivity.
  - apply lex_number; [exact H|]. destruct x; [exact I|]. simpl. now rewrite <- num_char_c.
  - apply lex_lit; [auto|]. destruct x; [exact I|]. simpl. now rewrite <- letter_alpha.
  - apply lex_lit; [auto|]. destruct x; [exact I|]. simpl. now rewrite <- letter_alpha.
  - apply lex_lit; [auto|]. destruct x; [exact I|]. simpl. now rewrite <- letter_alpha.
Qed.

Lemma lex_tok x id v r : match x with c :: _ => is_ws_c c = false | [] => True end -> ~ In LF x ->
  lex x = Some (id, v, r) -> x = [] \/ exists k u, x = u ++ r /\ tok_text k u r /\ tid k = id /\ tval k = v.
Proof.
  destruct x as [|c x]; [auto|]. intros NW NL H. right. cbn [lex] in H. rewrite NW in H.
  destruct (punct (schar c)) as [k|] eqn:P.
  { injection H as <- <- <-. unfold punct in P. repeat rewrite schar_eqb in P by lia.
    assert (K : forall z, code c = z -> c = chr z) by (intros z <-; now rewrite chr_code).
    repeat match type of P with (if code c =? ?z then _ else _) = _ =>
      destruct (Z.eqb_spec (code c) z) as [E|_];
        [apply K in E; subst c; injection P as <-|] end; try discriminate P.
    - exists KLBrace, [chr 123]. repeat split; constructor.
    - exists KRBrace, [chr 125]. repeat split; constructor.
    - exists KLBrack, [chr 91]. repeat split; constructor.
    - exists KRBrack, [chr 93]. repeat split; constructor.
    - exists KColon, [chr 58]. repeat split; constructor.
    - exists KComma, [chr 44]. repeat split; constructor. }
  destruct (Z.eqb_spec (code c) 34) as [E|N].
  { destruct (lex_str x 0 []) as [[u w]|] eqn:E2; [|discriminate H]. injection H as <- <- <-.
    apply (lex_lchars (length x) x None []) in E2 as (t & s & -> & -> & B); [|lia| |exact I].
    2:{ intros K. apply NL. now right. }
    exists (KStr s), ([chr 34] ++ t ++ [chr 34]).
    split; [|split; [now constructor|split; reflexivity]].
    rewrite <- !app_assoc. simpl. f_equal. rewrite <- (chr_code c). congruence. }
  destruct (is_num_start_z (schar c)) eqn:NS.
  { assert (T : lex (c :: x) = Some (id, v, r)).
    { cbn [lex]. rewrite NW, P. destruct (Z.eqb_spec (code c) 34); [contradiction|]. rewrite NS. exact H. }
    destruct (span is_num_c (c :: x)) as [u w] eqn:S. injection H as <- <- <-.
    exists (KNum u), u. apply lex_token in T; [|exact NW]. destruct T as [T|(u' & T & TT)]; [discriminate T|].
    pose proof (BaseProofs.span_app is_num_c (c :: x)) as Q.
    pose proof (span_stops is_num_c (c :: x)) as ST.
    pose proof (span_all is_num_c (c :: x)) as AL. rewrite S in Q, ST, AL. cbn [fst snd] in Q, ST, AL.
    split; [congruence|]. split; [|split; reflexivity]. apply kt_num.
    - assert (exists u', u = c :: u') as [u2 ->].
      { cbn [span] in S. assert (is_num_c c = true) as K.
        { revert NS. unfold is_num_c, is_num_z, is_num_start_z. lia. }
        rewrite K in S. destruct (span is_num_c x). injection S as <- <-. eauto. }
      exists c, u2. split; [reflexivity|]. split.
      + revert NS. unfold is_num_start_z, digit_char, schar. destruct (Z.ltb_spec (code c) 128); intros NS.
        * assert (code c = 45 \/ 48 <= code c <= 57) as [K|K] by lia.
          -- right. rewrite <- (chr_code c), K. reflexivity.
          -- left. lia.
        * pose proof (code_range c). lia.
      + simpl in AL. apply andb_prop in AL as [_ AL]. eapply forallb_impl; [|exact AL]. intros y Hy. now rewrite num_char_c.
    - destruct w; [exact I|]. simpl in ST. now rewrite num_char_c. }
  destruct (span is_alpha_c (c :: x)) as [u w] eqn:S.
  pose proof (BaseProofs.span_app is_alpha_c (c :: x)) as Q.
  pose proof (span_stops is_alpha_c (c :: x)) as ST. rewrite S in Q, ST. cbn [fst snd] in Q, ST.
  destruct (keyword u) as [k|] eqn:K; [|discriminate H]. injection H as <- <- <-.
  assert (ST' : match w with c :: _ => letter c = false | [] => True end).
  { destruct w; [exact I|]. simpl in ST. now rewrite letter_alpha. }
  unfold keyword in K.
  destruct (bytes_eqb u (b "true")) eqn:E1.
  { apply bytes_eqb_true in E1. subst u. injection K as <-. exists KTrue, (b "true").
    split; [congruence|]. split; [now constructor|split; reflexivity]. }
  destruct (bytes_eqb u (b "false")) eqn:E2.
  { apply bytes_eqb_true in E2. subst u. injection K as <-. exists KFalse, (b "false").
    split; [congruence|]. split; [now constructor|split; reflexivity]. }
  destruct (bytes_eqb u (b "null")) eqn:E3; [|discriminate K].
  apply bytes_eqb_true in E3. subst u. injection K as <-. exists KNull, (b "null").
  split; [congruence|]. split; [now constructor|split; reflexivity].
Qed.

(** ** All tokens of a text, up to its end or the first text that is no token *)
Definition stop_lex (x : bytes) : Prop :=
  match lex x with None => True | Some (id, _, _) => id = T_EOS end.

Inductive all_toks : bytes -> list jtok -> Prop :=
  | at_stop x : stop_lex x -> all_toks x []
  | at_tok x k r l : lex x = Some (tid k, tval k, r) -> all_toks r l -> all_toks x (k :: l).

Lemma lex_skip c x : is_ws_c c = true -> lex (c :: x) = lex x.
Proof. intros H. cbn [lex]. now rewrite H. Qed.

Lemma lex_kind x id v r : ~ In LF x -> lex x = Some (id, v, r) -> id <> T_EOS ->
  exists k, tid k = id /\ tval k = v /\ ~ In LF r.
Proof.
  induction x as [|c x IH]; intros NL H NE; [injection H as <- <- <-; congruence|].
  destruct (is_ws_c c) eqn:W.
  { rewrite lex_skip in H by exact W. apply IH; auto. intros K. apply NL. now right. }
  apply lex_tok in H; [|exact W|exact NL]. destruct H as [H|(k & u & E & _ & T & V)]; [discriminate H|].
  exists k. split; [exact T|]. split; [exact V|]. intros K. apply NL. rewrite E, in_app_iff. now right.
Qed.

Lemma all_toks_exist x : ~ In LF x -> exists l, all_toks x l.
Proof.
  assert (G : forall n x, (length x <= n)%nat -> ~ In LF x -> exists l, all_toks x l).
  { clear x. induction n as [|n IH]; intros x L NL.
    { destruct x; [|simpl in L; lia]. exists []. constructor. reflexivity. }
    destruct (lex x) as [[[id v] r]|] eqn:E; [|exists []; constructor; unfold stop_lex; now rewrite E].
    assert (D : id = T_EOS \/ id <> T_EOS) by (destruct id; ((left; reflexivity) || (right; discriminate))).
    destruct D as [->|D]; [exists []; constructor; unfold stop_lex; now rewrite E|].
    pose proof (lex_length _ _ _ _ E) as [_ LL]. specialize (LL D).
    destruct (lex_kind _ _ _ _ NL E D) as (k & <- & <- & NR).
    destruct (IH r) as [l A]; [lia|exact NR|]. exists (k :: l). econstructor; eauto. }
  intros NL. eapply G; eauto.
Qed.

Lemma all_toks_lex x y l : lex x = lex y -> all_toks x l -> all_toks y l.
Proof.
  intros E A. destruct A as [x S|x k r l H A].
  - constructor. unfold stop_lex in *. now rewrite <- E.
  - econstructor; [|exact A]. now rewrite <- E.
Qed.

Lemma tokens_all pre post l : tokens pre post l -> forall rest, all_toks (nolf post) rest ->
  all_toks (nolf (pre ++ post)) (l ++ rest).
Proof.
  induction 1 as [x|pre c x l H IH W|pre u x l k H IH T]; intros rest A; [exact A| |].
  - rewrite <- app_assoc. cbn [app]. apply IH. eapply all_toks_lex; [|exact A].
    change (c :: x) with ([c] ++ x). symmetry. apply lex_ws. unfold ws. simpl. now rewrite W.
  - rewrite <- !app_assoc. cbn [app]. apply IH. rewrite !drop_lf_nolf in T. rewrite nolf_app.
    econstructor; [apply tok_lex; exact T|exact A].
Qed.

Lemma all_toks_fun x l1 : all_toks x l1 -> forall l2, all_toks x l2 -> l1 = l2.
Proof.
  induction 1 as [x S|x k r l H A IH]; intros l2 A2; destruct A2 as [x S2|x k2 r2 l2 H2 A2].
  - reflexivity.
  - exfalso. unfold stop_lex in S. rewrite H2 in S. destruct k2; discriminate S.
  - exfalso. unfold stop_lex in S2. rewrite H in S2. destruct k; discriminate S2.
  - rewrite H2 in H. injection H as T V ->. f_equal; [|now apply IH].
    destruct k, k2; try discriminate T; simpl in V; congruence.
Qed.
