(** One call of [Tokenizer::next], and all the tokens of a file. *)
From Verif Require Import Bytes BaseProofs ProtoLex SpecProto PLexProofs.

(** The body of the loop of [t_next] after [skipws]. *)
Definition t_after (F n : nat) (s : istate) : pres (token * istate) :=
  let line := i_line s in
  let col := i_col s in
  let '(cur, s) := i_get s in
  if cur <? 0 then POk (Tok KEof [] line col, s)
  else if letter_code cur then
    let! s := i_unget s in t_qname F line col s
  else if digit_code cur then t_integer F line col [chr cur] s
  else if cur =? 47 then let! s := t_comment F s in t_next F n s
  else if (cur =? 10) || (cur =? 13) then t_next F n s
  else if cur =? 34 then t_string F line col [] s
  else match punct_code cur with
       | Some k => POk (Tok k [] line col, s)
       | None => PThrow (b "Invalid symbol") line col
       end.

Lemma t_next_S F n s : t_next F (S n) s = (let! s := i_skipws F s in t_after F n s).
Proof. reflexivity. Qed.

Lemma blank_span x : exists u v, x = u ++ v /\ Forall blank u /\ stops_at blank v.
Proof.
  destruct (span_dec ws_code x) as (u & v & E & A & B). exists u, v. split; [exact E|]. split.
  - eapply Forall_impl; [|exact A]. intros c H. now apply ws_code_true.
  - destruct v; [exact I|]. cbn in *. intro H. apply B. now apply ws_code_true.
Qed.

Lemma next_blank F n s pre c x : at_ s pre (c :: x) -> blank c -> (length x + 1 < F)%nat ->
  t_next F (S n) s = t_next F (S n) (St_got pre c x).
Proof.
  intros A B L. rewrite !t_next_S. destruct (blank_span x) as (u & v & -> & U & V).
  rewrite app_length in L.
  rewrite (skipws_spec (c :: u) F s pre v A); [|now constructor|exact V|cbn; lia].
  rewrite (skipws_spec u F _ (pre ++ [c]) v (at_got _ _ _) U V); [|lia].
  now rewrite app_snoc.
Qed.

Lemma next_token F n s pre x : at_ s pre x -> stops_at blank x -> (0 < F)%nat ->
  t_next F (S n) s = t_after F n (peeked pre x).
Proof.
  intros A S L. rewrite t_next_S, (skipws_spec [] F s pre x A); auto. now rewrite app_nil_r.
Qed.

Lemma after_char F n pre c x : t_after F n (peeked pre (c :: x)) =
  let line := fst (npos pre) in
  let col := snd (npos pre) in
  let cur := code c in
  let s := St_got pre c x in
  if letter_code cur then t_qname F line col (St_ungot pre c x)
  else if digit_code cur then t_integer F line col [c] s
  else if cur =? 47 then let! s := t_comment F s in t_next F n s
  else if (cur =? 10) || (cur =? 13) then t_next F n s
  else if cur =? 34 then t_string F line col [] s
  else match punct_code cur with
       | Some k => POk (Tok k [] line col, s)
       | None => PThrow (b "Invalid symbol") line col
       end.
Proof.
  unfold t_after. rewrite (get_char _ _ _ _ (at_peeked pre (c :: x))).
  pose proof (code_range c). destruct (Z.ltb_spec (code c) 0); [lia|]. rewrite chr_code, unget_got. reflexivity.
Qed.

Lemma after_slash F n pre x : t_after F n (peeked pre ("/"%char :: x)) =
  let! s := t_comment F (St_got pre "/" x) in t_next F n s.
Proof. rewrite after_char. reflexivity. Qed.

Lemma after_end F n pre : t_after F n (peeked pre []) =
  POk (Tok KEof [] (fst (npos pre)) (snd (npos pre) - 1), St_end pre).
Proof. unfold t_after. rewrite (get_eof _ _ (at_peeked pre [])). reflexivity. Qed.

Lemma get_got pre d c x : i_get (St_got pre d (c :: x)) = (code c, St_got (pre ++ [d]) c x).
Proof. apply get_char, at_got. Qed.
Lemma get_got_end pre d : i_get (St_got pre d []) = (-1, St_end (pre ++ [d])).
Proof. apply get_eof, at_got. Qed.

Lemma slash_not_blank : ~ blank "/"%char.
Proof. vm_compute. intuition discriminate. Qed.

(** Comments and white space are skipped. *)
Lemma next_sep stray sp : sep stray sp -> forall F n s pre x, at_ s pre (sp ++ x) ->
  (length (sp ++ x) < F)%nat -> (length sp <= n)%nat ->
  exists m s', t_next F (S n) s = t_next F (S m) s' /\ at_ s' (pre ++ sp) x /\ (n <= m + length sp)%nat.
Proof.
  induction 1 as [|c sp B S IH|body sp B S IH|body sp B S IH|c sp K C1 C2 S IH];
    intros F n s pre x A L Ln.
  - rewrite app_nil_r. exists n, s. split; [reflexivity|]. split; [exact A|lia].
  - cbn [app length] in *. rewrite (next_blank F n s pre c _ A B) by lia.
    destruct (IH F n (St_got pre c (sp ++ x)) (pre ++ [c]) x (at_got _ _ _)) as (m & s' & E & A' & Lm); [lia|lia|].
    exists m, s'. rewrite app_snoc in A'. split; [exact E|]. split; [exact A'|lia].
  - change (b "//" ++ body ++ LF :: sp) with ("/"%char :: "/"%char :: body ++ LF :: sp) in *.
    cbn [app length] in *. rewrite <- app_assoc in A. cbn [app] in A.
    rewrite !app_length in L, Ln. cbn [length] in L, Ln. rewrite app_length in L. cbn [length] in L.
    rewrite (next_token F n s pre _ A); [|cbn; apply slash_not_blank|lia]. rewrite after_slash.
    unfold t_comment. rewrite get_got.
    replace (code "/" =? 47) with true by reflexivity.
    destruct (line_comment_spec body F _ _ (sp ++ x) (at_got (pre ++ ["/"%char]) "/" _) B) as (s1 & -> & A1); [lia|].
    cbn [pbind]. destruct n as [|n]; [lia|].
    destruct (IH F n s1 _ x A1) as (m & s' & E & A' & Lm); [rewrite app_length; lia|lia|].
    exists m, s'. split; [exact E|]. split.
    + rewrite <- !app_assoc in A'. cbn [app] in A'. exact A'.
    + rewrite app_length. cbn [length]. lia.
  - change (b "/*" ++ body ++ b "*/" ++ sp) with ("/"%char :: "*"%char :: body ++ b "*/" ++ sp) in *.
    cbn [app length] in *. rewrite <- !app_assoc in A. cbn [app] in A.
    rewrite !app_length in L, Ln. rewrite app_length in L.
    replace (length (b "*/")) with 2%nat in L, Ln by reflexivity.
    rewrite (next_token F n s pre _ A); [|cbn; apply slash_not_blank|lia]. rewrite after_slash.
    unfold t_comment. rewrite get_got.
    replace (code "*" =? 47) with false by reflexivity. replace (code "*" =? 42) with true by reflexivity.
    destruct (block_comment_spec body F _ _ (sp ++ x) (at_got (pre ++ ["/"%char]) "*" _) B) as (s1 & -> & A1); [lia|].
    cbn [pbind]. destruct n as [|n]; [lia|].
    destruct (IH F n s1 _ x A1) as (m & s' & E & A' & Lm); [rewrite app_length; lia|lia|].
    exists m, s'. split; [exact E|]. split.
    + rewrite <- !app_assoc in A'. cbn [app] in A'. exact A'.
    + rewrite !app_length. cbn [length]. lia.
  - cbn [app length] in *.
    rewrite (next_token F n s pre _ A); [|cbn; apply slash_not_blank|lia]. rewrite after_slash.
    unfold t_comment. rewrite get_got.
    destruct (Z.eqb_spec (code c) 47); [contradiction|]. destruct (Z.eqb_spec (code c) 42); [contradiction|].
    cbn [pbind]. destruct n as [|n]; [lia|].
    destruct (IH F n _ _ x (at_got (pre ++ ["/"%char]) c _)) as (m & s' & E & A' & Lm); [lia|lia|].
    exists m, s'. split; [exact E|]. split; [|lia]. rewrite <- !app_assoc in A'. exact A'.
Qed.

(** ** Tokens *)
Definition has_dot (w : bytes) : bool := existsb (fun c => Ascii.eqb c ".") w.

Definition code_of (p : piece) : tcode :=
  match p with
  | PcWord w => if has_dot w then KQName else keyword keywords w
  | PcNum _ => KInteger
  | PcStr _ => KString
  | PcSym c => match punct_code (code c) with Some k => k | None => KEof end
  end.
Definition value_of (p : piece) : bytes :=
  match p with PcWord w => w | PcNum ds => ds | PcStr s => s | PcSym _ => [] end.

Lemma ident_no_dot u : ident u -> has_dot u = false.
Proof.
  destruct u as [|c r]; [contradiction|]. intros [A B].
  assert (H : Forall pword (c :: r)) by (constructor; [now left|exact B]). clear A B. unfold has_dot.
  induction H as [|d l W _ IH]; [reflexivity|]. cbn [existsb]. rewrite IH, orb_false_r.
  destruct (Ascii.eqb_spec d "."); [subst; now apply dot_not_word in W|reflexivity].
Qed.

Lemma has_dot_tail u r : ident u -> dot_tail r -> has_dot (u ++ r) = nonempty r.
Proof.
  intros I T. unfold has_dot. rewrite existsb_app. fold (has_dot u). rewrite (ident_no_dot u I).
  destruct T; reflexivity.
Qed.

Lemma sym_facts c : In c (b "={};,<>[]") -> exists k, punct_code (code c) = Some k /\
  letter_code (code c) = false /\ digit_code (code c) = false /\ (code c =? 47) = false /\
  (code c =? 10) || (code c =? 13) = false /\ (code c =? 34) = false /\ ws_code (code c) = false.
Proof.
  intros H. repeat (destruct H as [<-|H]; [eexists; repeat split|]). contradiction.
Qed.

Lemma letter_facts c : pletter c -> letter_code (code c) = true /\ ~ blank c.
Proof. intros H. split; [now apply letter_code_true|]. unfold pletter, blank in *. cbn. lia. Qed.

Lemma digit_facts c : pdigit c -> letter_code (code c) = false /\ digit_code (code c) = true /\ ~ blank c.
Proof.
  intros H. split; [|split].
  - unfold pdigit, letter_code in *. lia.
  - now apply digit_code_true.
  - unfold pdigit, blank in *. cbn. lia.
Qed.

Lemma quote_blank : ~ blank (chr 34).
Proof. unfold blank. rewrite code_chr_small by lia. cbn. lia. Qed.

Lemma after_quote F n pre x : t_after F n (peeked pre (chr 34 :: x)) =
  t_string F (fst (npos pre)) (snd (npos pre)) [] (St_got pre (chr 34) x).
Proof. rewrite after_char. cbn zeta. rewrite code_chr_small by lia. reflexivity. Qed.

Lemma spelling_start p x : piece_ok p -> stops_at blank (spelling p ++ x).
Proof.
  destruct p as [w|ds|s|c]; cbn [piece_ok spelling].
  - intros D. apply dotted_tail in D. destruct D as (u & r & -> & I & T). destruct u as [|c u]; [contradiction|].
    cbn. apply letter_facts. apply I.
  - intros [E H]. destruct H as [|c ds D H]; [contradiction|]. cbn. now apply digit_facts.
  - intros _. cbn. apply quote_blank.
  - intros H. cbn [app stops_at]. rewrite <- ws_code_true. destruct (sym_facts c H) as (k & ?). intuition congruence.
Qed.

Lemma follow_word w x : may_follow (PcWord w) x -> word_end x.
Proof. destruct x as [|c x]; cbn; [auto|]. unfold pword. tauto. Qed.

Lemma after_piece F n pre p x : piece_ok p -> may_follow p x -> (length (spelling p ++ x) < F)%nat ->
  exists s', t_after F n (peeked pre (spelling p ++ x)) =
    POk (Tok (code_of p) (value_of p) (fst (npos pre)) (snd (npos pre)), s') /\ at_ s' (pre ++ spelling p) x.
Proof.
  intros O M L. rewrite app_length in L. destruct p as [w|ds|s|c]; cbn [piece_ok spelling code_of value_of] in *.
  - apply dotted_tail in O. destruct O as (u & r & -> & I & T). rewrite app_length in L.
    pose proof (at_peeked pre ((u ++ r) ++ x)) as A0. rewrite <- app_assoc in A0 |- *.
    pose proof I as I'. destruct u as [|c u]; [contradiction|]. destruct I' as [Lc _].
    change ((c :: u) ++ r ++ x) with (c :: u ++ r ++ x). rewrite after_char. cbn zeta.
    destruct (letter_facts c Lc) as [-> _]. change (St_ungot pre c (u ++ r ++ x)) with (peeked pre ((c :: u) ++ r ++ x)).
    apply follow_word in M. unfold t_qname.
    rewrite (t_name_ident _ _ _ _ (r ++ x) A0 I); [|apply tail_stops; [exact T|now apply word_end_stops]|lia].
    cbn [pbind]. rewrite (qname_loop_spec r T F F _ _ _ _ _ _ x (at_peeked _ _) M) by lia. cbn [pbind orb].
    rewrite (has_dot_tail (c :: u) r I T). eexists. split; [reflexivity|]. rewrite <- app_assoc. apply at_peeked.
  - destruct O as [E D]. destruct D as [|c ds D1 D2]; [contradiction|]. cbn [app]. rewrite after_char. cbn zeta.
    destruct (digit_facts c D1) as (-> & -> & _). cbn [length] in L.
    rewrite (integer_spec ds F _ _ _ _ (pre ++ [c]) x (at_got _ _ _) D2); [|now destruct x|lia].
    cbn [rev app]. rewrite app_snoc. eexists. split; [reflexivity|]. apply at_peeked.
  - cbn [app] in *. rewrite after_quote. cbn [length] in L. rewrite app_length in L. rewrite <- app_assoc. cbn [app].
    destruct (string_spec s F (fst (npos pre)) (snd (npos pre)) [] _ (pre ++ [chr 34]) x (at_got _ _ _) O) as (s' & -> & A);
      [lia|]. eexists. split; [reflexivity|]. rewrite <- app_assoc in A. exact A.
  - cbn [app]. rewrite after_char. cbn zeta. destruct (sym_facts c O) as (k & -> & -> & -> & -> & -> & -> & _).
    eexists. split; [reflexivity|]. apply at_got.
Qed.

(** ** Everything [next] may find.  The result is the token with the text read and to read. *)
Definition open_end (x : bytes) : Prop :=
  exists sp, sep true sp /\
    (x = sp \/ x = sp ++ ["/"%char] \/
     exists body, x = sp ++ b "/*" ++ body /\ ~ occurs (b "*/") body).

Definition known_start (c : ascii) : Prop :=
  blank c \/ pletter c \/ pdigit c \/ code c = 47 \/ code c = 34 \/ In c (b "={};,<>[]").

Inductive lexes (pre x : bytes) : pres (token * bytes * bytes) -> Prop :=
  | lex_piece sp p rest : x = sp ++ spelling p ++ rest -> sep true sp -> piece_ok p -> may_follow p rest ->
      lexes pre x (POk (Tok (code_of p) (value_of p) (fst (npos (pre ++ sp))) (snd (npos (pre ++ sp))),
                        pre ++ sp ++ spelling p, rest))
  | lex_cut sp w c rest : x = sp ++ chr 34 :: w ++ c :: rest -> sep true sp -> Forall str_char w ->
      c = LF \/ c = NUL -> lexes pre x (POk (token0, pre ++ sp ++ chr 34 :: w ++ [c], rest))
  | lex_eof : open_end x ->
      lexes pre x (POk (Tok KEof [] (fst (npos (pre ++ x))) (snd (npos (pre ++ x)) - 1), pre ++ x, []))
  | lex_sym sp c rest : x = sp ++ c :: rest -> sep true sp -> ~ known_start c ->
      lexes pre x (PThrow (b "Invalid symbol") (fst (npos (pre ++ sp))) (snd (npos (pre ++ sp))))
  | lex_ident sp w rest : x = sp ++ w ++ "."%char :: rest -> sep true sp -> dotted w -> stops_at pletter rest ->
      lexes pre x (PThrow (b "Invalid identifier") (fst (npos (pre ++ sp))) (snd (npos (pre ++ sp))))
  | lex_line sp body : x = sp ++ b "//" ++ body -> sep true sp -> ~ In LF body -> lexes pre x PFuel
  | lex_string sp w : x = sp ++ chr 34 :: w -> sep true sp -> Forall str_char w -> lexes pre x PFuel.

Lemma lexes_shift pre sp x r : sep true sp -> lexes (pre ++ sp) x r -> lexes pre (sp ++ x) r.
Proof.
  assert (J : forall sp2, sep true sp -> sep true sp2 -> sep true (sp ++ sp2)).
  { intros sp2 A B. induction A as [|c s A1 A2 IH|body s A1 A2 IH|body s A1 A2 IH|c s A1 A2 A3 A4 IH]; cbn [app];
      [exact B|apply sep_blank| | |apply sep_stray]; auto.
    - rewrite <- !app_assoc. cbn [app]. apply (sep_line true body (s ++ sp2)); auto.
    - rewrite <- !app_assoc. apply (sep_block true body (s ++ sp2)); auto. }
  intros S H. destruct H as [sp2 p rest E S2 O M|sp2 w c rest E S2 O K|E|sp2 c rest E S2 K|sp2 w rest E S2 D K|sp2 body E S2 K|sp2 w E S2 K];
    try subst x.
  - pose proof (lex_piece pre _ (sp ++ sp2) p rest eq_refl (J _ S S2) O M) as H. unfold bytes in *. repeat rewrite <- app_assoc in H. repeat rewrite <- app_assoc. exact H.
  - pose proof (lex_cut pre _ (sp ++ sp2) w c rest eq_refl (J _ S S2) O K) as H. unfold bytes in *. repeat rewrite <- app_assoc in H. repeat rewrite <- app_assoc. exact H.
  - rewrite <- (app_assoc pre sp x). apply lex_eof. destruct E as (sp2 & S2 & E). exists (sp ++ sp2). split; [auto|].
    destruct E as [->|[->|(body & -> & K)]]; [left|right; left|right; right]; [reflexivity|now rewrite app_assoc|].
    exists body. split; [now rewrite <- app_assoc|exact K].
  - pose proof (lex_sym pre _ (sp ++ sp2) c rest eq_refl (J _ S S2) K) as H. unfold bytes in *. repeat rewrite <- app_assoc in H. repeat rewrite <- app_assoc. exact H.
  - pose proof (lex_ident pre _ (sp ++ sp2) w rest eq_refl (J _ S S2) D K) as H. unfold bytes in *. repeat rewrite <- app_assoc in H. repeat rewrite <- app_assoc. exact H.
  - pose proof (lex_line pre _ (sp ++ sp2) body eq_refl (J _ S S2) K) as H. unfold bytes in *. repeat rewrite <- app_assoc in H. exact H.
  - pose proof (lex_string pre _ (sp ++ sp2) w eq_refl (J _ S S2) K) as H. unfold bytes in *. repeat rewrite <- app_assoc in H. exact H.
Qed.

Lemma lexes_at pre x r : lexes pre ([] ++ x) r -> lexes pre x r.
Proof. auto. Qed.

Lemma occurs_dec x : (exists u v, x = u ++ b "*/" ++ v /\ ~ occurs (b "*/") (u ++ b "*")) \/ ~ occurs (b "*/") x.
Proof.
  induction x as [|c x IH].
  - right. intros (u & v & E). destruct u; discriminate E.
  - destruct IH as [(u & v & -> & H)|H].
    + left. destruct (ascii_dec c "*") as [->|N].
      * destruct u as [|d u].
        -- exists ["*"%char], v. split; [reflexivity|]. intros (u' & v' & E).
           destruct u' as [|? [|? [|? ?]]]; discriminate E.
        -- destruct (ascii_dec d "/") as [->|N].
           ++ exists [], (u ++ b "*/" ++ v). split; [reflexivity|].
              intros (u' & v' & E). destruct u' as [|? [|? ?]]; discriminate E.
           ++ exists ("*"%char :: d :: u), v. split; [reflexivity|]. intros (u' & v' & E).
              destruct u' as [|e u']; [injection E as E1 _; congruence|].
              injection E as _ E. apply H. exists u', v'. exact E.
      * exists (c :: u), v. split; [reflexivity|]. intros (u' & v' & E). destruct u' as [|d u'].
        -- injection E as E _. congruence.
        -- injection E as _ E. apply H. exists u', v'. exact E.
    + destruct x as [|d x].
      { right. intros (u & v & E). destruct u as [|? [|? ?]]; discriminate E. }
      destruct (ascii_dec c "*") as [->|N]; [destruct (ascii_dec d "/") as [->|N]|].
      * left. exists [], x. split; [reflexivity|]. intros (u' & v' & E). destruct u' as [|? [|? ?]]; discriminate E.
      * right. intros (u & v & E). destruct u as [|e u]; [injection E as E _; congruence|].
        injection E as _ E. apply H. exists u, v. exact E.
      * right. intros (u & v & E). destruct u as [|e u]; [injection E as E _; congruence|].
        injection E as _ E. apply H. exists u, v. exact E.
Qed.

Lemma lf_dec x : (exists u v, x = u ++ LF :: v /\ ~ In LF u) \/ ~ In LF x.
Proof.
  induction x as [|c x IH]; [right; auto|]. destruct (ascii_dec c LF) as [->|N].
  - left. exists [], x. auto.
  - destruct IH as [(u & v & -> & H)|H].
    + left. exists (c :: u), v. split; [reflexivity|]. intros [E|E]; auto.
    + right. intros [E|E]; auto.
Qed.

Lemma str_dec x : (exists u c v, x = u ++ c :: v /\ Forall str_char u /\ (c = LF \/ c = NUL \/ c = chr 34)) \/
  Forall str_char x.
Proof.
  induction x as [|c x IH]; [right; constructor|].
  destruct (ascii_dec c LF) as [E1|E1]; [left; exists [], c, x; auto|].
  destruct (ascii_dec c NUL) as [E2|E2]; [left; exists [], c, x; auto|].
  destruct (ascii_dec c (chr 34)) as [E3|E3]; [left; exists [], c, x; auto 6|].
  assert (S : str_char c).
  { split; [auto|]. split; [auto|]. intros H. apply E3. apply code_inj. now rewrite code_chr_small by lia. }
  destruct IH as [(u & d & v & -> & A & B)|H].
  - left. exists (c :: u), d, v. auto.
  - right. auto.
Qed.

Lemma word_split c x : pletter c -> exists u r y, c :: x = u ++ r ++ y /\ ident u /\ dot_tail r /\
  (word_end y \/ exists y', y = "."%char :: y' /\ stops_at pletter y').
Proof.
  remember (length x) as k eqn:K. revert c x K.
  induction k as [k IH] using lt_wf_ind. intros c x -> Lc.
  destruct (span_dec word_code x) as (u & v & -> & A & B).
  assert (I : ident (c :: u)).
  { split; [exact Lc|]. eapply Forall_impl; [|exact A]. intros d H. now apply word_code_true. }
  assert (B' : stops_at pword v).
  { destruct v; cbn in *; [exact Logic.I|]. intros H. apply B. now apply word_code_true. }
  destruct v as [|d v].
  { exists (c :: u), [], []. split; [reflexivity|]. split; [exact I|]. split; [constructor|]. left. exact Logic.I. }
  destruct (Z.eq_dec (code d) 46) as [E|E].
  2:{ exists (c :: u), [], (d :: v). split; [reflexivity|]. split; [exact I|]. split; [constructor|].
      left. cbn. intros [W|W]; auto. }
  apply (code_inj _ "."%char) in E. subst d. destruct v as [|e v].
  { exists (c :: u), [], ["."%char]. split; [reflexivity|]. split; [exact I|]. split; [constructor|].
    right. exists []. cbn. auto. }
  destruct (letter_code (code e)) eqn:Le.
  - apply letter_code_true in Le.
    destruct (IH (length v)) with (c := e) (x := v) as (u2 & r2 & y & E & I2 & T2 & Y); auto.
    { rewrite app_length. cbn [length]. lia. }
    exists (c :: u), ("."%char :: u2 ++ r2), y. split; [|split; [exact I|split; [now constructor|exact Y]]].
    cbn [app]. rewrite E. now rewrite <- app_assoc.
  - exists (c :: u), [], ("."%char :: e :: v). split; [reflexivity|]. split; [exact I|]. split; [constructor|].
    right. exists (e :: v). split; [reflexivity|]. cbn. intros H. apply letter_code_true in H. congruence.
Qed.

Lemma sym_dec c : {In c (b "={};,<>[]")} + {~ In c (b "={};,<>[]")}.
Proof. apply in_dec, ascii_dec. Qed.

(** [next] always finds one of these. *)
Lemma lexes_total : forall x pre, exists r, lexes pre x r.
Proof.
  intros x. remember (length x) as k eqn:K. revert x K. induction k as [k IH] using lt_wf_ind. intros x -> pre.
  destruct x as [|c x].
  { eexists. apply lex_eof. exists []. split; [constructor|auto]. }
  destruct (ws_code (code c)) eqn:E1.
  { apply ws_code_true in E1. destruct (IH (length x)) with (x := x) (pre := pre ++ [c]) as (r & H); auto.
    exists r. apply (lexes_shift pre [c] x r); [constructor; [exact E1|constructor]|exact H]. }
  destruct (letter_code (code c)) eqn:E2.
  { apply letter_code_true in E2. destruct (word_split c x E2) as (u & r & y & E & I & T & Y). rewrite E.
    assert (D : dotted (u ++ r)) by (apply dotted_tail; eauto). destruct Y as [Y|(y' & -> & Y)].
    - eexists. apply (lex_piece pre _ [] (PcWord (u ++ r)) y); [cbn [spelling]; now rewrite <- app_assoc|constructor|exact D|].
      cbn. destruct y as [|e y]; [exact Logic.I|]. cbn in Y. unfold pword in Y. tauto.
    - eexists. apply (lex_ident pre _ [] (u ++ r) y'); [now rewrite <- app_assoc|constructor|exact D|exact Y]. }
  destruct (digit_code (code c)) eqn:E3.
  { apply digit_code_true in E3. destruct (span_dec digit_code x) as (u & v & -> & A & B).
    eexists. apply (lex_piece pre _ [] (PcNum (c :: u)) v); [reflexivity|constructor| |].
    - split; [discriminate|]. constructor; [exact E3|]. eapply Forall_impl; [|exact A].
      intros d H. now apply digit_code_true.
    - destruct v as [|d v]; cbn in *; [exact I|]. intros H. apply B. now apply digit_code_true. }
  destruct (Z.eq_dec (code c) 47) as [E4|E4].
  { apply (code_inj _ "/"%char) in E4. subst c. destruct x as [|d x].
    - eexists. apply lex_eof. exists []. split; [constructor|]. right; left; reflexivity.
    - destruct (Z.eq_dec (code d) 47) as [E5|E5]; [|destruct (Z.eq_dec (code d) 42) as [E6|E6]].
      + apply (code_inj _ "/"%char) in E5. subst d. destruct (lf_dec x) as [(u & v & -> & H)|H].
        * destruct (IH (length v)) with (x := v) (pre := pre ++ (b "//" ++ u ++ [LF])) as (r & Hr); auto.
          { cbn [length]. rewrite app_length. cbn [length]. lia. }
          exists r. change ("/" :: "/" :: u ++ LF :: v)%char with (b "//" ++ u ++ LF :: v).
          replace (b "//" ++ u ++ LF :: v) with ((b "//" ++ u ++ [LF]) ++ v) by (rewrite <- !app_assoc; reflexivity).
          apply lexes_shift; [|exact Hr]. apply sep_line; [exact H|constructor].
        * exists PFuel. apply (lex_line pre _ [] x); [reflexivity|constructor|exact H].
      + apply (code_inj _ "*"%char) in E6. subst d. destruct (occurs_dec x) as [(u & v & -> & H)|H].
        * destruct (IH (length v)) with (x := v) (pre := pre ++ (b "/*" ++ u ++ b "*/" ++ [])) as (r & Hr); auto.
          { cbn [length]. rewrite !app_length. cbn [length]. lia. }
          exists r. change ("/" :: "*" :: u ++ b "*/" ++ v)%char with (b "/*" ++ u ++ b "*/" ++ v).
          replace (b "/*" ++ u ++ b "*/" ++ v) with ((b "/*" ++ u ++ b "*/" ++ []) ++ v)
            by (rewrite app_nil_r, <- !app_assoc; reflexivity).
          apply lexes_shift; [|exact Hr]. apply sep_block; [exact H|constructor].
        * eexists. apply lex_eof. exists []. split; [constructor|]. right; right. exists x. split; [reflexivity|exact H].
      + destruct (IH (length x)) with (x := x) (pre := pre ++ ["/"%char; d]) as (r & Hr); auto.
        { cbn [length]. lia. }
        exists r. apply (lexes_shift pre ["/"%char; d] x r); [|exact Hr].
        apply sep_stray; auto. constructor. }
  destruct (Z.eq_dec (code c) 34) as [E5|E5].
  { assert (c = chr 34) as -> by (apply code_inj; now rewrite code_chr_small by lia).
    destruct (str_dec x) as [(u & d & v & -> & A & [D|[D|D]])|A].
    - eexists. apply (lex_cut pre _ [] u d v); [reflexivity|constructor|exact A|auto].
    - eexists. apply (lex_cut pre _ [] u d v); [reflexivity|constructor|exact A|auto].
    - subst d. eexists. apply (lex_piece pre _ [] (PcStr u) v); [|constructor|exact A|exact I].
      cbn [spelling app]. now rewrite <- app_assoc.
    - exists PFuel. apply (lex_string pre _ [] x); [reflexivity|constructor|exact A]. }
  destruct (sym_dec c) as [E6|E6].
  - eexists. apply (lex_piece pre _ [] (PcSym c) x); [reflexivity|constructor|exact E6|exact I].
  - eexists. apply (lex_sym pre _ [] c x); [reflexivity|constructor|]. unfold known_start.
    rewrite <- ws_code_true, <- letter_code_true, <- digit_code_true. rewrite E1, E2, E3. intuition congruence.
Qed.

Definition res_at (r : pres (token * istate)) (q : pres (token * bytes * bytes)) : Prop :=
  match r, q with
  | POk (t, s), POk (t', pre, x) => t = t' /\ at_ s pre x
  | PThrow m l c, PThrow m' l' c' => m = m' /\ l = l' /\ c = c'
  | PFuel, PFuel => True
  | _, _ => False
  end.

(** ... and the model of [next] agrees. *)
Lemma next_lexes F n s pre x q : at_ s pre x -> (length x + 1 < F)%nat -> (length x < n)%nat ->
  lexes pre x q -> res_at (t_next F n s) q.
Proof.
  intros A L Ln H. destruct n as [|n]; [lia|].
  destruct H as [sp p rest E S O M|sp w c rest E S O K|(sp & S & E)|sp c rest E S K|sp w rest E S D K|sp body E S K|sp w E S K].
  - subst x. assert (L1 := L). rewrite app_length in L, Ln.
    destruct (next_sep true sp S F n s pre _ A) as (m & s' & -> & A' & Lm); [lia|lia|].
    rewrite (next_token F m s' _ _ A'); [|now apply spelling_start|lia].
    destruct (after_piece F m (pre ++ sp) p rest O M) as (s2 & -> & A2); [lia|].
    rewrite <- app_assoc in A2. cbn. auto.
  - subst x. rewrite app_length in L, Ln. cbn [length] in L, Ln. rewrite app_length in L, Ln. cbn [length] in L, Ln.
    destruct (next_sep true sp S F n s pre _ A) as (m & s' & -> & A' & Lm);
      [rewrite app_length; cbn [length]; rewrite app_length; cbn [length]; lia|lia|].
    rewrite (next_token F m s' _ _ A'); [|cbn; apply quote_blank|lia]. rewrite after_quote.
    destruct (string_cut w F (fst (npos (pre ++ sp))) (snd (npos (pre ++ sp))) [] _ _ c rest (at_got (pre ++ sp) (chr 34) _) O K)
      as (s2 & -> & A2); [lia|].
    rewrite <- !app_assoc in A2. cbn. auto.
  - assert (X : exists sp y, x = sp ++ y /\ sep true sp /\
       (y = [] \/ y = ["/"%char] \/ exists body, y = b "/*" ++ body /\ ~ occurs (b "*/") body)).
    { destruct E as [->|[->|(body & -> & K)]].
      - exists sp, []. rewrite app_nil_r. auto.
      - exists sp, ["/"%char]. auto.
      - exists sp, (b "/*" ++ body). split; [reflexivity|]. split; [exact S|]. right; right. exists body. auto. }
    clear sp S E. destruct X as (sp & y & -> & S & Y).
    assert (L1 := L). rewrite app_length in L, Ln.
    destruct (next_sep true sp S F n s pre _ A) as (m & s' & -> & A' & Lm); [lia|lia|].
    destruct Y as [->|[->|(body & -> & K)]].
    + rewrite app_nil_r. rewrite (next_token F m s' _ _ A' I); [|lia]. rewrite after_end.
      split; [reflexivity|apply at_end].
    + cbn [length] in L, Ln. rewrite (next_token F m s' _ _ A'); [|cbn; apply slash_not_blank|lia].
      rewrite after_slash. unfold t_comment. rewrite get_got_end.
      replace (-1 =? 47) with false by reflexivity. replace (-1 =? 42) with false by reflexivity. cbn [pbind].
      destruct m as [|m]; [lia|]. rewrite (next_token F m _ _ _ (at_end _) I) by lia. rewrite after_end.
      rewrite <- app_assoc. split; [reflexivity|]. apply at_end.
    + change (length (b "/*" ++ body)) with (2 + length body)%nat in L, Ln.
      rewrite (next_token F m s' _ _ A'); [|cbn; apply slash_not_blank|lia].
      change (b "/*" ++ body) with ("/"%char :: "*"%char :: body).
      rewrite after_slash. unfold t_comment. rewrite get_got.
      replace (code "*" =? 47) with false by reflexivity. replace (code "*" =? 42) with true by reflexivity.
      destruct (block_comment_open body F _ _ (at_got ((pre ++ sp) ++ ["/"%char]) "*" body) K) as (s2 & -> & A2); [lia|].
      cbn [pbind]. destruct m as [|m]; [lia|]. rewrite (next_token F m _ _ _ A2 I) by lia. rewrite after_end.
      rewrite <- !app_assoc. split; [reflexivity|]. apply at_end.
  - subst x. assert (L1 := L). rewrite app_length in L, Ln. cbn [length] in L, Ln.
    destruct (next_sep true sp S F n s pre _ A) as (m & s' & -> & A' & Lm); [lia|lia|].
    unfold known_start in K. rewrite <- ws_code_true, <- letter_code_true, <- digit_code_true in K.
    rewrite (next_token F m s' _ _ A'); [|cbn [stops_at]; rewrite <- ws_code_true; tauto|lia]. rewrite after_char. cbn zeta.
    destruct (letter_code (code c)); [tauto|]. destruct (digit_code (code c)); [tauto|].
    destruct (Z.eqb_spec (code c) 47); [tauto|].
    destruct ((code c =? 10) || (code c =? 13)) eqn:E1.
    { exfalso. apply K. left. unfold ws_code. lia. }
    destruct (Z.eqb_spec (code c) 34); [tauto|].
    destruct (punct_code (code c)) eqn:E2.
    { exfalso. apply K. do 5 right. unfold punct_code in E2.
      repeat match type of E2 with
             | context [code c =? ?z] => destruct (Z.eqb_spec (code c) z) as [E3|E3];
                 [apply (code_inj c (chr z)) in E3; subst c; vm_compute; repeat (first [left; reflexivity|right])|clear E3]
             end. discriminate E2. }
    cbn. auto.
  - subst x. rewrite app_length in L, Ln. rewrite app_length in L, Ln. cbn [length] in L, Ln.
    destruct (next_sep true sp S F n s pre _ A) as (m & s' & -> & A' & Lm); [rewrite !app_length; cbn [length]; lia|lia|].
    apply dotted_tail in D. destruct D as (u & r & -> & I & T). rewrite app_length in L.
    rewrite <- app_assoc in A'. pose proof I as I'. destruct u as [|c u]; [contradiction|]. destruct I' as [Lc _].
    destruct (letter_facts c Lc) as [Lc' Bc].
    rewrite (next_token F m s' _ _ A'); [|exact Bc|lia].
    change ((c :: u) ++ r ++ "."%char :: rest) with (c :: u ++ r ++ "."%char :: rest). rewrite after_char. cbn zeta.
    rewrite Lc'. change (St_ungot (pre ++ sp) c (u ++ r ++ "."%char :: rest)) with
      (peeked (pre ++ sp) ((c :: u) ++ r ++ "."%char :: rest)). unfold t_qname.
    rewrite (t_name_ident _ _ _ _ (r ++ "."%char :: rest) (at_peeked _ _) I);
      [|apply tail_stops; [exact T|cbn; apply dot_not_word]|lia].
    cbn [pbind]. rewrite (qname_loop_bad r T F F _ _ _ _ _ _ rest (at_peeked _ _) K) by lia. cbn. auto.
  - subst x. rewrite app_length in L, Ln. change (length (b "//" ++ body)) with (2 + length body)%nat in L, Ln.
    destruct (next_sep true sp S F n s pre _ A) as (m & s' & -> & A' & Lm);
      [rewrite app_length; change (length (b "//" ++ body)) with (2 + length body)%nat; lia|lia|].
    rewrite (next_token F m s' _ _ A'); [|cbn; apply slash_not_blank|lia].
    change (b "//" ++ body) with ("/"%char :: "/"%char :: body).
    rewrite after_slash. unfold t_comment. rewrite get_got.
    replace (code "/" =? 47) with true by reflexivity.
    rewrite (line_comment_loops body F _ _ (at_got _ _ _) K). exact I.
  - subst x. rewrite app_length in L, Ln. cbn [length] in L, Ln.
    destruct (next_sep true sp S F n s pre _ A) as (m & s' & -> & A' & Lm); [rewrite app_length; cbn [length]; lia|lia|].
    rewrite (next_token F m s' _ _ A'); [|cbn; apply quote_blank|lia]. rewrite after_quote.
    rewrite (string_loops w F _ _ _ _ _ (at_got _ _ _) K). exact I.
Qed.
