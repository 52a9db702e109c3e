(** Lexing of the tokens of the JSON grammar. *)
From Verif Require Import Bytes BaseProofs BitProofs Stream Tokenizer LexView SpecJson.

Lemma chr34 : code (chr 34) = 34. Proof. reflexivity. Qed.
Lemma chr92 : code (chr 92) = 92. Proof. reflexivity. Qed.

(** Equality of byte lists up to arithmetic. *)
Ltac bytes_eq :=
  repeat match goal with
  | |- Some _ = Some _ => f_equal
  | |- (_, _) = (_, _) => f_equal
  | |- ?u ++ _ = ?u ++ _ => f_equal
  | |- _ :: _ = _ :: _ => f_equal
  | |- chr _ = chr _ => apply (f_equal chr); lia
  | |- ?x = ?x => reflexivity
  end.

(** ** Hexadecimal digits *)
Lemma hexdigit_spec c d : hexdigit c d ->
  is_hex_z (schar c) = true /\ hex_val (schar c) = d /\ 0 <= d < 16 /\ code c <> 10.
Proof.
  intros H. assert (E : schar c = code c).
  { inversion H; unfold schar; destruct (Z.ltb_spec (code c) 128); lia. }
  unfold is_hex_z, hex_val. rewrite E. inversion H; subst.
  - destruct (Z.leb_spec (code c) 57); lia.
  - destruct (Z.leb_spec (code c) 57), (Z.leb_spec (code c) 70); lia.
  - destruct (Z.leb_spec (code c) 57), (Z.leb_spec (code c) 70); lia.
Qed.

Lemma hex4_lex h cp : hex4 h cp ->
  exists c1 c2 c3 c4, h = [c1; c2; c3; c4] /\ lex_hex4 c1 c2 c3 c4 = Some cp
    /\ 0 <= cp < 65536 /\ ~ In LF h.
Proof.
  intros H. inversion H as [c1 c2 c3 c4 d1 d2 d3 d4 H1 H2 H3 H4]; subst.
  apply hexdigit_spec in H1 as (A1 & B1 & C1 & D1), H2 as (A2 & B2 & C2 & D2),
    H3 as (A3 & B3 & C3 & D3), H4 as (A4 & B4 & C4 & D4).
  exists c1, c2, c3, c4. split; [reflexivity|]. unfold lex_hex4.
  rewrite A1, A2, A3, A4, B1, B2, B3, B4. simpl andb. cbv iota.
  split; [f_equal; lia|]. split; [lia|].
  assert (code LF = 10) by reflexivity.
  simpl. intros [E|[E|[E|[E|[]]]]]; subst; congruence.
Qed.

(** ** Effect of the escapes *)
Lemma utf8_step_bmp cp value lead : 128 <= cp < 65536 -> scalar cp ->
  utf8_step cp value lead = Some (value ++ utf8_encode cp, 0).
Proof.
  intros R [_ S]. unfold utf8_step, utf8_encode.
  destruct (Z.leb_spec 55296 cp), (Z.leb_spec cp 56319); simpl andb; try lia;
  destruct (Z.leb_spec 56320 cp), (Z.leb_spec cp 57343); simpl andb; try lia;
  (destruct (Z.leb_spec 128 cp); [|lia]);
  (destruct (Z.ltb_spec cp 128); [lia|]);
  destruct (Z.leb_spec cp 2047), (Z.ltb_spec cp 2048); try lia;
  destruct (Z.leb_spec 2048 cp), (Z.leb_spec cp 65535); try lia;
  destruct (Z.ltb_spec cp 65536); try lia; simpl andb; cbv iota;
  rewrite ?land63, ?land31, ?land15, ?shiftr6, ?shiftr12;
  rewrite ?lor192, ?lor128, ?lor224 by lia;
  bytes_eq.
Qed.

Lemma utf8_step_lead cp value lead : 55296 <= cp <= 56319 ->
  utf8_step cp value lead = Some (value, cp).
Proof.
  intros. unfold utf8_step.
  destruct (Z.leb_spec 55296 cp), (Z.leb_spec cp 56319); try lia; reflexivity.
Qed.

Lemma utf8_step_trail hi lo value : 55296 <= hi <= 56319 -> 56320 <= lo <= 57343 ->
  utf8_step lo value hi =
  Some (value ++ utf8_encode (65536 + (hi - 55296) * 1024 + (lo - 56320)), 0).
Proof.
  intros. unfold utf8_step, utf8_encode, SURROGATE_OFFSET.
  destruct (Z.leb_spec 55296 lo), (Z.leb_spec lo 56319); simpl andb; try lia.
  destruct (Z.leb_spec 56320 lo), (Z.leb_spec lo 57343); simpl andb; try lia.
  destruct (Z.eqb_spec hi 0); [lia|]. rewrite !shiftl10.
  set (cp := 65536 + (hi - 55296) * 1024 + (lo - 56320)).
  replace (hi * 1024 + lo + (65536 - 55296 * 1024 - 56320)) with cp by (unfold cp; lia).
  destruct (Z.ltb_spec cp 128); [unfold cp in *; lia|].
  destruct (Z.ltb_spec cp 2048); [unfold cp in *; lia|].
  destruct (Z.ltb_spec cp 65536); [unfold cp in *; lia|].
  assert (cp < 1114112) by (unfold cp; lia).
  clearbody cp. cbv zeta.
  rewrite ?land63, ?land7, ?shiftr6, ?shiftr12, ?shiftr18.
  rewrite ?lor240, ?lor128 by lia.
  bytes_eq.
Qed.

(** ** Strings *)
Lemma short_lex e c : short e c ->
  short_escape (schar e) = Some c /\ code e <> 117 /\ e <> LF.
Proof. destruct 1; repeat split; discriminate. Qed.

Lemma jchars_lex strict t s x acc : jchars strict t s ->
  lex_str (t ++ chr 34 :: x) 0 acc = Some (acc ++ s, x).
Proof.
  intros H. revert acc. induction H as [|c t s R H IH|e c t s S H IH|h cp t s X L SC H IH
                                       |h1 h2 hi lo t s X1 X2 R1 R2 H IH]; intros acc.
  - simpl. rewrite app_nil_r. reflexivity.
  - simpl. destruct R as (R1 & R2 & R3).
    destruct (Z.eqb_spec (code c) 34); [contradiction|].
    destruct (Z.eqb_spec (code c) 92); [contradiction|].
    destruct (Z.eqb_spec (code c) 0).
    + destruct strict; [lia|]. tauto.
    + rewrite IH, <- app_assoc. reflexivity.
  - cbn [app lex_str]. rewrite chr92. apply short_lex in S as (-> & _ & _). simpl.
    rewrite IH, <- app_assoc. reflexivity.
  - apply hex4_lex in X as (c1 & c2 & c3 & c4 & -> & E & R & _).
    change (b "\u" ++ [c1; c2; c3; c4] ++ t) with (chr 92 :: "u"%char :: c1 :: c2 :: c3 :: c4 :: t).
    cbn [app lex_str]. rewrite chr92. simpl Z.eqb. cbv iota.
    change (short_escape (schar "u")) with (@None ascii). cbv iota.
    rewrite E, utf8_step_bmp by (auto; lia). rewrite IH, <- app_assoc. reflexivity.
  - apply hex4_lex in X1 as (c1 & c2 & c3 & c4 & -> & E1 & _).
    apply hex4_lex in X2 as (d1 & d2 & d3 & d4 & -> & E2 & _).
    change (b "\u" ++ [c1; c2; c3; c4] ++ b "\u" ++ [d1; d2; d3; d4] ++ t)
      with (chr 92 :: "u"%char :: c1 :: c2 :: c3 :: c4 :: chr 92 :: "u"%char :: d1 :: d2 :: d3 :: d4 :: t).
    cbn [app lex_str]. rewrite chr92. simpl Z.eqb. cbv iota.
    change (short_escape (schar "u")) with (@None ascii). cbv iota.
    rewrite E1, utf8_step_lead by auto. rewrite E2, utf8_step_trail by auto.
    rewrite IH, <- app_assoc. reflexivity.
Qed.

Lemma jchars_nolf strict t s : jchars strict t s -> ~ In LF t.
Proof.
  assert (code LF = 10) as L10 by reflexivity.
  induction 1 as [|c t s R H IH|e c t s S H IH|h cp t s X L SC H IH
                 |h1 h2 hi lo t s X1 X2 R1 R2 H IH].
  - auto.
  - intros [E|E]; [subst c|auto]. destruct R as (_ & _ & R). destruct strict; lia.
  - apply short_lex in S as (_ & _ & S). intros [E|[E|E]]; [discriminate|auto|auto].
  - apply hex4_lex in X as (? & ? & ? & ? & _ & _ & _ & X).
    rewrite !in_app_iff. intros [[E|[E|[]]]|[E|E]]; try discriminate; auto.
  - apply hex4_lex in X1 as (? & ? & ? & ? & _ & _ & _ & X1).
    apply hex4_lex in X2 as (? & ? & ? & ? & _ & _ & _ & X2).
    rewrite !in_app_iff. intros [[E|[E|[]]]|[E|[[E|[E|[]]]|[E|E]]]]; try discriminate; auto.
Qed.

(** No decoded string contains NUL. *)
Lemma utf8_encode_nonul cp : scalar cp -> 0 < cp -> ~ In NUL (utf8_encode cp).
Proof.
  intros [R _] P. unfold utf8_encode. assert (code NUL = 0) as Z0 by reflexivity.
  assert (N : forall z, z mod 256 <> 0 -> chr z <> NUL).
  { intros z Hz E. apply (f_equal code) in E. rewrite code_chr, Z0 in E. contradiction. }
  destruct (Z.ltb_spec cp 128);
  [|destruct (Z.ltb_spec cp 2048); [|destruct (Z.ltb_spec cp 65536)]];
  simpl; intros H'; intuition (try (eapply N; [|eassumption]; lia)).
Qed.

Lemma jchars_nonul strict t s : jchars strict t s -> ~ In NUL s.
Proof.
  induction 1 as [|c t s R H IH|e c t s S H IH|h cp t s X L SC H IH
                 |h1 h2 hi lo t s X1 X2 R1 R2 H IH].
  - auto.
  - intros [E|E]; [subst c|auto]. destruct R as (_ & _ & R).
    assert (code NUL = 0) by reflexivity. destruct strict; lia.
  - intros [E|E]; [subst c; inversion S|auto].
  - rewrite in_app_iff. intros [E|E]; [|auto].
    apply hex4_lex in X as (_ & _ & _ & _ & _ & _ & X & _).
    eapply utf8_encode_nonul; eauto. lia.
  - rewrite in_app_iff. intros [E|E]; [|auto]. eapply utf8_encode_nonul; [..|exact E].
    + split; lia.
    + lia.
Qed.

Lemma jstring_nolf strict t s : jstring strict t s -> nolf t = t.
Proof.
  intros (u & -> & H). apply jchars_nolf in H. apply nolf_id.
  rewrite !in_app_iff. intros [[E|[]]|[E|[E|[]]]]; try discriminate; auto.
Qed.

Lemma lex_jstring strict t s x : jstring strict t s ->
  lex (t ++ x) = Some (T_STRING, s, x).
Proof.
  intros (u & -> & H). rewrite <- !app_assoc.
  change ([chr 34] ++ u ++ [chr 34] ++ x) with (chr 34 :: u ++ chr 34 :: x).
  cbn [lex]. change (is_ws_c (chr 34)) with false. change (punct (schar (chr 34))) with (@None token_id).
  rewrite chr34. simpl Z.eqb. cbv iota. rewrite (jchars_lex strict u s x [] H). reflexivity.
Qed.

(** ** White space *)
Lemma ws_app u v : ws u -> ws v -> ws (u ++ v).
Proof. unfold ws. intros. rewrite forallb_app. now apply andb_true_intro. Qed.

Lemma ws_char_c c : ws_char c = true -> is_ws_c c = true.
Proof. unfold ws_char, is_ws_c, is_ws_z. num_z. lia. Qed.

Lemma lex_ws w x : ws w -> lex (nolf (w ++ x)) = lex (nolf x).
Proof.
  unfold ws. induction w as [|c w IH]; simpl; intros H; [reflexivity|].
  apply andb_prop in H as [Hc H]. destruct (not_lf c); simpl; [|auto].
  rewrite ws_char_c by assumption. auto.
Qed.

(** ** Punctuation *)
Definition punct_char (c : ascii) : option token_id := punct (schar c).

Lemma lex_punct c id x : punct (schar c) = Some id -> lex (nolf (c :: x)) = Some (id, [], nolf x).
Proof.
  intros H. assert (c <> LF) by (intros ->; discriminate).
  simpl. unfold not_lf. destruct (Ascii.eqb_spec c LF); [contradiction|]. simpl.
  rewrite H. destruct (is_ws_c c) eqn:W; [|reflexivity].
  exfalso. unfold is_ws_c, is_ws_z, punct in *.
  repeat match type of H with (if ?x then _ else _) = _ => destruct x eqn:?; try lia end.
  discriminate.
Qed.

(** ** Numbers *)
Lemma num_char_c c : num_char c = is_num_c c.
Proof. unfold num_char, digit_char, is_num_c, is_num_z. num_z.
  unfold schar. pose proof (code_range c). destruct (Z.ltb_spec (code c) 128); lia. Qed.

Lemma digit_num c : digit_char c = true -> num_char c = true.
Proof. unfold num_char. intros ->. reflexivity. Qed.

Lemma forallb_impl {A} (p q : A -> bool) l :
  (forall x, p x = true -> q x = true) -> forallb p l = true -> forallb q l = true.
Proof.
  intros I. induction l; simpl; auto. rewrite !andb_true_iff. intros []; auto.
Qed.

Lemma json_number_lax s : json_number s -> lax_number s.
Proof.
  intros (m & i & f & e & -> & M & I & F & E).
  assert (NF : forallb num_char f = true).
  { destruct F as [->|(d & -> & _ & D)]; [reflexivity|]. simpl.
    apply forallb_impl with digit_char; auto. apply digit_num. }
  assert (NE : forallb num_char e = true).
  { destruct E as [->|(c & s & d & -> & C & S & _ & D)]; [reflexivity|]. simpl.
    apply andb_true_intro; split; [destruct C as [->| ->]; reflexivity|].
    rewrite forallb_app. apply andb_true_intro; split.
    - destruct S as [->|[->| ->]]; reflexivity.
    - apply forallb_impl with digit_char; auto. apply digit_num. }
  assert (NI : exists c r, i = c :: r /\ digit_char c = true /\ forallb num_char r = true).
  { destruct I as [->|(c & r & -> & C & _ & R)].
    - exists "0"%char, []. auto.
    - exists c, r. repeat split; auto. apply forallb_impl with digit_char; auto. apply digit_num. }
  destruct NI as (c & r & -> & C & R).
  assert (T : forallb num_char (r ++ f ++ e) = true).
  { rewrite !forallb_app, R, NF, NE. reflexivity. }
  destruct M as [->| ->].
  - exists c, (r ++ f ++ e). auto.
  - exists "-"%char, (c :: r ++ f ++ e). split; [reflexivity|]. split; [auto|].
    simpl. rewrite (digit_num c C). exact T.
Qed.

Lemma num_char_nolf s : forallb num_char s = true -> nolf s = s.
Proof.
  intros H. apply nolf_id. intros I. rewrite forallb_forall in H. apply H in I. discriminate.
Qed.

Lemma lax_all s : lax_number s -> forallb num_char s = true.
Proof.
  intros (c & r & -> & C & R). simpl. rewrite R.
  destruct C as [C| ->]; [rewrite (digit_num c C)|]; reflexivity.
Qed.

Lemma lex_number s x : lax_number s -> stops is_num_c x -> lex (s ++ x) = Some (T_NUMBER, s, x).
Proof.
  intros H S. pose proof (lax_all s H) as A.
  destruct H as (c & r & -> & C & R).
  assert (NS : is_num_start_z (schar c) = true /\ is_ws_c c = false /\ punct (schar c) = None
               /\ (code c =? 34) = false).
  { assert (48 <= code c <= 57 \/ code c = 45) as K.
    { destruct C as [C| ->]; [unfold digit_char in C; lia|right; reflexivity]. }
    assert (schar c = code c) as E
      by (unfold schar; pose proof (code_range c); destruct (Z.ltb_spec (code c) 128); lia).
    unfold is_num_start_z, is_ws_c, is_ws_z, punct. rewrite E.
    repeat match goal with |- context [if ?u =? ?v then _ else _] =>
             destruct (Z.eqb_spec u v); [lia|] end. repeat split; lia. }
  destruct NS as (N1 & N2 & N3 & N4).
  simpl app. cbn [lex]. rewrite N2, N3, N4, N1.
  change (c :: r ++ x) with ((c :: r) ++ x).
  rewrite (span_exact is_num_c (c :: r) x); auto.
  apply forallb_impl with num_char; [|exact A]. intros y. now rewrite num_char_c.
Qed.

(** ** Literals *)
Lemma lex_lit v id x : (v, id) = (b "null", T_NIL) \/ (v, id) = (b "true", T_BTRUE)
    \/ (v, id) = (b "false", T_BFALSE) ->
  stops is_alpha_c x -> lex (v ++ x) = Some (id, [], x).
Proof.
  intros H S.
  assert (A : forallb is_alpha_c v = true) by (destruct H as [H|[H|H]]; injection H as -> ->; reflexivity).
  assert (K : keyword v = Some id) by (destruct H as [H|[H|H]]; injection H as -> ->; reflexivity).
  assert (C : exists c r, v = c :: r /\ is_ws_c c = false /\ punct (schar c) = None /\ (code c =? 34) = false
              /\ is_num_start_z (schar c) = false).
  { destruct H as [H|[H|H]]; injection H as -> ->; eexists _, _; repeat split; reflexivity. }
  destruct C as (c & r & E & C1 & C2 & C3 & C4).
  rewrite E. simpl app. cbn [lex]. rewrite C1, C2, C3, C4.
  change (c :: r ++ x) with ((c :: r) ++ x). rewrite <- E.
  rewrite (span_exact is_alpha_c v x A S), K. reflexivity.
Qed.

(** ** What follows a value inside an array or object *)
Definition closer (c : ascii) : Prop := code c = 44 \/ code c = 93 \/ code c = 125.
Definition follow (rest : bytes) : Prop :=
  exists w c r, rest = w ++ c :: r /\ ws w /\ closer c.

Lemma follow_ws w rest : ws w -> follow rest -> follow (w ++ rest).
Proof.
  intros W (w' & c & r & -> & W' & C). exists (w ++ w'), c, r.
  split; [now rewrite app_assoc|]. split; [now apply ws_app|exact C].
Qed.

Lemma follow_head rest : follow rest ->
  exists d r, nolf rest = d :: r /\ (ws_char d = true \/ closer d) /\ d <> LF.
Proof.
  intros (w & c & r & -> & W & C). unfold ws in W.
  induction w as [|d w IH]; simpl in *.
  - assert (c <> LF) by (intros ->; destruct C as [C|[C|C]]; discriminate).
    unfold not_lf. destruct (Ascii.eqb_spec c LF); [contradiction|]. simpl. eauto 6.
  - apply andb_prop in W as [D W]. unfold not_lf. destruct (Ascii.eqb_spec d LF); simpl; eauto 6.
Qed.

Lemma follow_stops rest : follow rest ->
  stops is_num_c (nolf rest) /\ stops is_alpha_c (nolf rest).
Proof.
  intros F. apply follow_head in F as (d & r & -> & C & _). simpl.
  unfold is_num_c, is_alpha_c, is_num_z, is_alpha_z, ws_char, closer in *.
  unfold schar. pose proof (code_range d). destruct (Z.ltb_spec (code d) 128); lia.
Qed.

Lemma follow_lex rest : follow rest ->
  exists id v r, lex (nolf rest) = Some (id, v, r) /\ id <> T_NONE /\ id <> T_EOS.
Proof.
  intros (w & c & r & -> & W & C). rewrite lex_ws by assumption.
  assert (exists id, punct (schar c) = Some id /\ id <> T_NONE /\ id <> T_EOS) as (id & P & N).
  { assert (schar c = code c) as E
      by (unfold schar; destruct (Z.ltb_spec (code c) 128); destruct C as [C|[C|C]]; lia).
    unfold punct. rewrite E. destruct C as [->|[->| ->]]; simpl; eexists; split; eauto;
      split; discriminate. }
  exists id, [], (nolf r). split; [|exact N]. apply lex_punct, P.
Qed.
