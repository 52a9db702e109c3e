(** From the text of the generated classes to its bracketed tokens. *)
From Coq Require Import Lia.
From Verif Require Import Bytes Num Types Cpp SpecCpp CLex CParse BaseProofs NameProofs.

Lemma same_eq x y : same x y = bytes_eqb x y.
Proof.
  revert y. induction x as [|c x IH]; intros [|d y]; cbn [same]; try reflexivity.
  destruct (Ascii.eqb c d) eqn:E.
  - apply Ascii.eqb_eq in E. subst d. rewrite IH. destruct (bytes_eqb x y) eqn:F; symmetry.
    + apply bytes_eqb_true in F. subst y. apply bytes_eqb_refl.
    + apply bytes_eqb_false. apply bytes_eqb_false in F. congruence.
  - apply Ascii.eqb_neq in E. symmetry. apply bytes_eqb_false. congruence.
Qed.
Lemma same_true x y : same x y = true -> x = y.
Proof. rewrite same_eq. apply bytes_eqb_true. Qed.
Lemma same_refl x : same x x = true.
Proof. rewrite same_eq. apply bytes_eqb_refl. Qed.
Lemma same_false x y : x <> y -> same x y = false.
Proof. rewrite same_eq. intros N. now apply bytes_eqb_false. Qed.
Lemma word_id a : is_keyword a = false -> word a = KId a.
Proof.
  unfold word, is_keyword. intros E. assert (F : existsb (same a) cpp_keywords = false).
  { rewrite <- E. generalize cpp_keywords. intros l. induction l as [|x l IH]; [reflexivity|]. cbn [existsb]. now rewrite same_eq, IH. }
  now rewrite F.
Qed.

Definition phases (s : bytes) : bytes := splice (trigraphs 0 s).

(** What the lexer and the brackets leave of a text: they can go on from there. *)
Definition machine (st : cstate) (cur : list tree) (up : list (bracket * list tree)) (s : bytes) :=
  let '(ks, z) := lex_run st (phases s) in
  match group cur up ks with Some (c, u) => Some (c, u, z) | None => None end.

Definition place : Type := cstate * list tree * list (bracket * list tree).
Definition goes (x : place) (u : bytes) (y : place) : Prop :=
  forall r, machine (fst (fst x)) (snd (fst x)) (snd x) (u ++ r) = machine (fst (fst y)) (snd (fst y)) (snd y) r.

Lemma goes_app x u y w z : goes x u y -> goes y w z -> goes x (u ++ w) z.
Proof. intros A B r. rewrite <- app_assoc, A. apply B. Qed.
Lemma goes_nil x : goes x [] x.
Proof. intros r. reflexivity. Qed.
Lemma goes_end cur u : goes (QNone, [], []) u (QNone, cur, []) -> machine QNone [] [] u = Some (cur, [], QNone).
Proof. intros G. specialize (G []). cbn [fst snd] in G. rewrite app_nil_r in G. rewrite G. reflexivity. Qed.

Lemma lex_app st u w : lex_run st (u ++ w) = let '(k, s1) := lex_run st u in let '(k', s2) := lex_run s1 w in (k ++ k', s2).
Proof.
  revert st. induction u as [|c u IH]; intros st; cbn [app lex_run].
  - destruct (lex_run st w) as [k s]. reflexivity.
  - destruct (lex_step st c) as [k s1]. rewrite IH. destruct (lex_run s1 u) as [k1 s2]. destruct (lex_run s2 w) as [k2 s3].
    now rewrite app_assoc.
Qed.
Lemma group_app cur up u w : group cur up (u ++ w) = match group cur up u with Some (c, p) => group c p w | None => None end.
Proof.
  revert cur up. induction u as [|k u IH]; intros cur up; cbn [app group]; [reflexivity|].
  destruct (opens k); [apply IH|]. destruct (closes k); [|apply IH]. destruct up as [|(y, l) up]; [reflexivity|].
  destruct (bracket_eqb b y); [apply IH|reflexivity].
Qed.

(** ** Phases 1 and 2 *)

Definition plainc (c : ascii) : bool := negb (Ascii.eqb c "?" || Ascii.eqb c "\").
Fixpoint okp (s : bytes) : bool :=
  match s with
  | [] => true
  | c :: r => if plainc c then okp r
              else match r with
                   | d :: r' => plainc d && negb (Ascii.eqb d LF) && okp r'
                   | [] => false
                   end
  end.

Lemma splice_plain c r : Ascii.eqb c "\" = false -> splice (c :: r) = c :: splice r.
Proof. intros E. cbn [splice]. rewrite E. destruct r; reflexivity. Qed.
Lemma splice_esc d r : Ascii.eqb d LF = false -> Ascii.eqb d "\" = false -> splice ("\"%char :: d :: r) = "\"%char :: d :: splice r.
Proof. intros E F. rewrite <- (splice_plain d r F). cbn [splice]. now rewrite E, andb_false_r. Qed.
Lemma trigraphs_plain c r : Ascii.eqb c "?" = false -> trigraphs 0 (c :: r) = c :: trigraphs 0 r.
Proof. intros E. cbn [trigraphs]. now rewrite E. Qed.

Lemma phases_plain c r : plainc c = true -> phases (c :: r) = c :: phases r.
Proof.
  unfold plainc, phases. intros E. apply negb_true_iff in E. apply orb_false_iff in E as (A & B).
  rewrite (trigraphs_plain c r A). apply (splice_plain c _ B).
Qed.
Lemma phases_okp u r : okp u = true -> phases (u ++ r) = u ++ phases r.
Proof.
  revert r. remember (length u) as n. assert (L : (length u <= n)%nat) by lia. clear Heqn. revert u L.
  induction n as [|n IH]; intros u L r O; destruct u as [|c u]; try reflexivity; [cbn in L; lia|].
  cbn [okp] in O. cbn [length] in L. destruct (plainc c) eqn:C.
  - cbn [app]. rewrite (phases_plain c (u ++ r) C). f_equal. apply IH; [lia|exact O].
  - destruct u as [|d u]; [discriminate|]. apply andb_true_iff in O as (O & O3). apply andb_true_iff in O as (O1 & O2).
    cbn [length] in L. apply negb_true_iff in O2. cbn [app].
    transitivity (c :: d :: phases (u ++ r)); [|do 2 f_equal; apply IH; [lia|exact O3]].
    unfold plainc in *. apply negb_true_iff in O1. apply orb_false_iff in O1 as (D1 & D2). apply negb_false_iff in C.
    apply orb_true_iff in C as [C|C]; apply Ascii.eqb_eq in C; subst c; unfold phases.
    + cbn [trigraphs]. rewrite Ascii.eqb_refl, D1. cbn [repeat app]. rewrite splice_plain; [|reflexivity]. f_equal. apply (splice_plain d _ D2).
    + rewrite trigraphs_plain; [|reflexivity]. rewrite trigraphs_plain; [|exact D1]. apply (splice_esc d _ O2 D2).
Qed.
Lemma plain_okp u : forallb plainc u = true -> okp u = true.
Proof. induction u as [|c u IH]; [reflexivity|]. cbn [forallb okp]. intros E. apply andb_true_iff in E as (-> & E). auto. Qed.

Lemma goes_base st cur up u ks st' cur' up' : okp u = true -> lex_run st u = (ks, st') -> group cur up ks = Some (cur', up') ->
  goes (st, cur, up) u (st', cur', up').
Proof.
  intros O L G r. unfold machine. cbn [fst snd]. rewrite (phases_okp _ _ O), lex_app, L.
  destruct (lex_run st' (phases r)) as [k z]. now rewrite group_app, G.
Qed.

(** ** Words, numbers, literals *)

Definition wordy (w : bytes) : bool := match w with c :: r => is_alpha_c c && forallb is_word_c r | [] => false end.

Lemma lex_word a w : forallb is_word_c w = true -> lex_run (QWord a) w = ([], QWord (a ++ w)).
Proof.
  revert a. induction w as [|c w IH]; intros a; cbn [forallb lex_run]; [now rewrite app_nil_r|].
  intros E. apply andb_true_iff in E as (C & E). cbn [lex_step]. rewrite C, (IH _ E). cbn [app]. now rewrite <- app_assoc.
Qed.
Lemma word_plain c : is_word_c c = true -> plainc c = true.
Proof.
  unfold plainc. intros W. apply negb_true_iff. apply orb_false_iff. split; apply Ascii.eqb_neq; intros ->; discriminate W.
Qed.
Lemma words_plain w : forallb is_word_c w = true -> forallb plainc w = true.
Proof. rewrite !forallb_forall. intros F c I. apply word_plain; auto. Qed.
Lemma wordy_words w : wordy w = true -> forallb is_word_c w = true.
Proof.
  destruct w as [|c w]; [discriminate|]. cbn [wordy forallb]. unfold is_word_c at 2. intros E. apply andb_true_iff in E as (-> & ->). reflexivity.
Qed.

Lemma goes_more a cur up w : forallb is_word_c w = true -> goes (QWord a, cur, up) w (QWord (a ++ w), cur, up).
Proof. intros E. eapply goes_base; [apply plain_okp, words_plain, E|apply lex_word, E|reflexivity]. Qed.

Lemma begin_alpha c : is_alpha_c c = true -> begin false c = QWord [c].
Proof.
  intros A. unfold begin. rewrite A. destruct (is_blank_c c) eqn:B; [|reflexivity].
  unfold is_alpha_c, is_blank_c in *. cbn zeta in *. exfalso.
  repeat (rewrite ?orb_true_iff, ?andb_true_iff, ?Z.leb_le, ?Z.eqb_eq in * ). lia.
Qed.
Lemma goes_ident cur up w : wordy w = true -> goes (QNone, cur, up) w (QWord w, cur, up).
Proof.
  intros W. eapply (goes_base _ _ _ _ []); [apply plain_okp, words_plain, wordy_words, W| |reflexivity].
  destruct w as [|c w]; [discriminate|]. cbn [wordy] in W. apply andb_true_iff in W as (A & W). cbn [lex_run lex_step].
  now rewrite (begin_alpha c A), (lex_word [c] w W).
Qed.

Lemma last_inv {A} (a : list A) c r d : a ++ [c] = r ++ [d] -> c = d.
Proof. intros E. apply app_inj_tail in E. tauto. Qed.
Lemma alpha_no_op l a c : forallb (fun x => match rev (b x) with d :: _ => negb (is_word_c d) | [] => true end) l = true ->
  is_word_c c = true -> one_of l (a ++ [c]) = false.
Proof.
  intros F A. unfold one_of. destruct (existsb _ l) eqn:E; [|reflexivity]. exfalso.
  apply existsb_exists in E as (x & I & E). apply same_true in E. rewrite forallb_forall in F. specialize (F x I). cbn beta in F.
  rewrite E, rev_app_distr in F. cbn [rev app] in F. rewrite A in F. discriminate F.
Qed.
Lemma lex_op_word a c : is_alpha_c c = true -> lex_step (QOp a) c = ([KOp a], QWord [c]).
Proof.
  intros A. assert (W : is_word_c c = true) by (unfold is_word_c; now rewrite A). unfold lex_step.
  pose proof (alpha_no_op ["//"; "/*"]%string a c eq_refl W) as E1.
  pose proof (alpha_no_op longer_ops a c eq_refl W) as E2. pose proof (alpha_no_op refused_ops a c eq_refl W) as E3.
  unfold one_of in E1. cbn [existsb] in E1. apply orb_false_iff in E1 as (E4 & E1). rewrite orb_false_r in E1.
  rewrite same_eq in E4, E1. apply bytes_eqb_false in E4. apply bytes_eqb_false in E1.
  assert (E5 : same (a ++ [c]) (b "//") = false) by (apply same_false; congruence).
  assert (E6 : same (a ++ [c]) (b "/*") = false) by (apply same_false; congruence).
  rewrite E5, E6, E2, E3, (begin_alpha c A). cbn [orb].
  assert (D : is_digit_c c = false).
  { unfold is_alpha_c, is_digit_c in *. cbn zeta in *. destruct ((48 <=? code c) && (code c <=? 57)) eqn:E; [|reflexivity]. exfalso.
    repeat (rewrite ?orb_true_iff, ?andb_true_iff, ?Z.leb_le, ?Z.eqb_eq in * ). lia. }
  now rewrite D, andb_false_r.
Qed.
Lemma goes_op_ident a cur up cur' up' w : wordy w = true -> group cur up [KOp a] = Some (cur', up') ->
  goes (QOp a, cur, up) w (QWord w, cur', up').
Proof.
  intros W G. eapply goes_base; [apply plain_okp, words_plain, wordy_words, W| |exact G].
  destruct w as [|c w]; [discriminate|]. cbn [wordy] in W. apply andb_true_iff in W as (A & W). cbn [lex_run].
  now rewrite (lex_op_word a c A), (lex_word [c] w W).
Qed.

(** A word is over where another character comes. *)
Definition ends_word (u : bytes) : bool :=
  match u with c :: _ => negb (is_word_c c || Ascii.eqb c """" || Ascii.eqb c "'") | [] => false end.
Lemma goes_word a cur up u ks st' cur' up' : ends_word u = true -> okp u = true -> lex_run QNone u = (ks, st') ->
  group (Lf (word a) :: cur) up ks = Some (cur', up') -> goes (QWord a, cur, up) u (st', cur', up').
Proof.
  intros E O L G. eapply (goes_base (QWord a) cur up u (word a :: ks) st' cur' up'); [exact O| |].
  - destruct u as [|c u]; [discriminate|]. cbn [ends_word] in E. apply negb_true_iff in E. apply orb_false_iff in E as (E & E3).
    apply orb_false_iff in E as (E1 & E2). cbn [lex_run lex_step] in *. rewrite E1, E2, E3. cbn [orb].
    destruct (lex_run (begin false c) u) as [k z]. cbn [app] in *. now injection L as <- <-.
  - cbn [group]. unfold word in *. destruct (existsb (same a) cpp_keywords); cbn [opens closes]; exact G.
Qed.

(** Numbers *)
Lemma lex_digits a w : forallb is_digit_c w = true -> lex_run (QNum a) w = ([], QNum (a ++ w)).
Proof.
  revert a. induction w as [|c w IH]; intros a; cbn [forallb lex_run]; [now rewrite app_nil_r|].
  intros E. apply andb_true_iff in E as (C & E). cbn [lex_step]. unfold is_word_c at 1. rewrite C, orb_true_r, (IH _ E). cbn [app]. now rewrite <- app_assoc.
Qed.
Lemma begin_digit c : is_digit_c c = true -> begin false c = QNum [c].
Proof.
  intros A. unfold begin. rewrite A. unfold is_alpha_c, is_blank_c, is_digit_c in *. cbn zeta in *.
  apply andb_true_iff in A as (A1 & A2). apply Z.leb_le in A1, A2.
  destruct ((code c =? 32) || (9 <=? code c) && (code c <=? 13)) eqn:B;
    [exfalso; rewrite ?orb_true_iff, ?andb_true_iff, ?Z.leb_le, ?Z.eqb_eq in B; lia|].
  destruct ((65 <=? code c) && (code c <=? 90) || (97 <=? code c) && (code c <=? 122) || (code c =? 95)) eqn:C;
    [exfalso; rewrite ?orb_true_iff, ?andb_true_iff, ?Z.leb_le, ?Z.eqb_eq in C; lia|reflexivity].
Qed.
Lemma goes_number cur up w : w <> [] -> forallb is_digit_c w = true -> goes (QNone, cur, up) w (QNum w, cur, up).
Proof.
  intros N W. eapply (goes_base _ _ _ _ []); [apply plain_okp, words_plain| |reflexivity].
  - rewrite forallb_forall in *. intros c I. unfold is_word_c. rewrite (W c I). apply orb_true_r.
  - destruct w as [|c w]; [congruence|]. cbn [forallb] in W. apply andb_true_iff in W as (A & W). cbn [lex_run lex_step].
    now rewrite (begin_digit c A), (lex_digits [c] w W).
Qed.
Definition ends_num (u : bytes) : bool :=
  match u with c :: _ => negb (is_digit_c c || (is_alpha_c c || Ascii.eqb c "." || Ascii.eqb c "'")) | [] => false end.
Lemma goes_num a cur up u ks st' cur' up' : ends_num u = true -> okp u = true -> lex_run QNone u = (ks, st') ->
  group (Lf (KNum a) :: cur) up ks = Some (cur', up') -> goes (QNum a, cur, up) u (st', cur', up').
Proof.
  intros E O L G. eapply (goes_base (QNum a) cur up u (KNum a :: ks) st' cur' up'); [exact O| |exact G].
  destruct u as [|c u]; [discriminate|]. cbn [ends_num] in E. apply negb_true_iff in E. apply orb_false_iff in E as (E1 & E2).
  apply orb_false_iff in E2 as (E2 & E3). apply orb_false_iff in E2 as (E2 & E4).
  cbn [lex_run lex_step] in *. unfold is_word_c. rewrite E1, E2, E3, E4. cbn [orb]. destruct (lex_run (begin false c) u) as [k z]. cbn [app] in *. now injection L as <- <-.
Qed.

(** Comments *)
Lemma goes_line cur up w : forallb is_word_c w = true -> goes (QLine, cur, up) w (QLine, cur, up).
Proof.
  intros W. eapply (goes_base _ _ _ _ []); [apply plain_okp, words_plain, W| |reflexivity].
  induction w as [|c w IH]; [reflexivity|]. cbn [forallb] in W. apply andb_true_iff in W as (C & W). cbn [lex_run lex_step].
  destruct (Ascii.eqb c LF) eqn:E; [apply Ascii.eqb_eq in E; subst c; discriminate C|]. now rewrite (IH W).
Qed.

(** Literals: the text between the quotes, where the first two phases are over. *)
Lemma trigraphs_quote q s r : (q <= 2)%nat -> trigraphs q (s ++ """"%char :: r) = trigraphs q s ++ """"%char :: trigraphs 0 r.
Proof.
  revert q. induction s as [|c s IH]; intros q Q; cbn [app trigraphs].
  - cbn [Ascii.eqb trigraph]. destruct q as [|[|[|q]]]; try reflexivity; lia.
  - destruct (Ascii.eqb c "?").
    + destruct q as [|[|[|q]]]; rewrite IH by lia; reflexivity.
    + destruct q as [|[|[|q]]]; try destruct (trigraph c); rewrite IH by lia; rewrite <- ?app_assoc; reflexivity.
Qed.
Lemma splice_quote s r : ~ In LF s -> splice (s ++ """"%char :: r) = s ++ """"%char :: splice r.
Proof.
  induction s as [|c s IH]; intros N; cbn [app].
  - apply splice_plain. reflexivity.
  - rewrite <- IH by (intros I; apply N; now right). destruct s as [|d s]; cbn [app].
    + cbn [splice]. rewrite andb_comm. cbn [Ascii.eqb andb]. reflexivity.
    + cbn [splice]. assert (D : Ascii.eqb d LF = false) by (apply Ascii.eqb_neq; intros ->; apply N; cbn; auto).
      rewrite D, andb_false_r. reflexivity.
Qed.

Definition esc (st : Cpp.lstate) : bool := match st with LEsc => true | _ => false end.
Definition in_lit (st : Cpp.lstate) (a : bytes) : cstate := if esc st then QStrE a else QStr a.
Lemma text_step_str c x st' a : text_step c = Some (x, st') ->
  lex_step (QStr a) c = ([], in_lit st' (if esc st' then a else a ++ [c])) /\ c <> LF.
Proof.
  unfold text_step. cbn [lex_step]. destruct (Ascii.eqb c """") eqn:Q; [discriminate|]. destruct (Ascii.eqb c LF) eqn:L; [discriminate|].
  cbn [orb]. apply Ascii.eqb_neq in L. destruct (Ascii.eqb c "\"); intros E; injection E as <- <-; split; auto.
Qed.
Lemma hex_not_special c d : hex_digit c = Some d -> Ascii.eqb c """" = false /\ Ascii.eqb c LF = false /\ Ascii.eqb c "\" = false.
Proof. intros H. repeat split; apply Ascii.eqb_neq; intros ->; discriminate H. Qed.
Lemma oct_not_special c d : oct_digit c = Some d -> Ascii.eqb c """" = false /\ Ascii.eqb c LF = false /\ Ascii.eqb c "\" = false.
Proof. intros H. repeat split; apply Ascii.eqb_neq; intros ->; discriminate H. Qed.

(** The lexer stays in the literal as long as its evaluation does. *)
Lemma lit_lex s : forall st v a, lit_go st s = Some v ->
  ~ In LF s /\ lex_run (in_lit st a) s = ([], QStr (a ++ (if esc st then ["\"%char] else []) ++ s)).
Proof.
  induction s as [|c s IH]; intros st v a; cbn [lit_go].
  - destruct st; try discriminate; cbn; intros _; split; auto; now rewrite ?app_nil_r.
  - destruct (lit_step st c) as [[x st']|] eqn:S; [|discriminate]. destruct (lit_go st' s) as [y|] eqn:G; [|discriminate]. intros _.
    assert (K : c <> LF /\ exists a', lex_step (in_lit st a) c = ([], in_lit st' a') /\
                a' ++ (if esc st' then ["\"%char] else []) = a ++ (if esc st then ["\"%char] else []) ++ [c]).
    { assert (Plain : Ascii.eqb c """" = false -> Ascii.eqb c LF = false -> Ascii.eqb c "\" = false -> esc st = false -> esc st' = false ->
        c <> LF /\ exists a', lex_step (in_lit st a) c = ([], in_lit st' a') /\
                a' ++ (if esc st' then ["\"%char] else []) = a ++ (if esc st then ["\"%char] else []) ++ [c]).
      { intros A B C D E. split; [apply Ascii.eqb_neq, B|]. exists (a ++ [c]). unfold in_lit. rewrite D, E. cbn [lex_step]. rewrite A, B, C.
        split; [reflexivity|]. now rewrite app_nil_r. }
      assert (Text : forall x' y', text_step c = Some (x', y') -> esc st = false -> st' = y' ->
        c <> LF /\ exists a', lex_step (in_lit st a) c = ([], in_lit st' a') /\
                a' ++ (if esc st' then ["\"%char] else []) = a ++ (if esc st then ["\"%char] else []) ++ [c]).
      { intros x' y' T D <-. unfold in_lit at 1. rewrite D. destruct (text_step_str c x' st' a T) as (L & N). split; [exact N|].
        eexists. split; [exact L|]. unfold text_step in T. destruct (Ascii.eqb c """" || Ascii.eqb c LF); [discriminate|].
        destruct (Ascii.eqb c "\") eqn:E; injection T as <- <-; cbn [esc app]; [apply Ascii.eqb_eq in E; now subst c|now rewrite app_nil_r]. }
      assert (Esc : st = LEsc -> Ascii.eqb c LF = false -> esc st' = false ->
        c <> LF /\ exists a', lex_step (in_lit st a) c = ([], in_lit st' a') /\
                a' ++ (if esc st' then ["\"%char] else []) = a ++ (if esc st then ["\"%char] else []) ++ [c]).
      { intros -> B E. split; [apply Ascii.eqb_neq, B|]. unfold in_lit. rewrite E. cbn [esc lex_step]. rewrite B. eexists. split; [reflexivity|].
        now rewrite app_nil_r. }
      destruct st as [| |n w|h w|n w]; cbn [lit_step] in S.
      - eapply Text; [exact S|reflexivity|reflexivity].
      - destruct (Ascii.eqb c LF) eqn:L; [apply Ascii.eqb_eq in L; subst c; discriminate S|]. apply (Esc eq_refl eq_refl).
        destruct (simple_escape c); [injection S as _ <-; reflexivity|]. destruct (oct_digit c); [injection S as _ <-; reflexivity|].
        destruct (Ascii.eqb c "x"); [injection S as _ <-; reflexivity|]. destruct (Ascii.eqb c "u"); [injection S as _ <-; reflexivity|].
        destruct (Ascii.eqb c "U"); [injection S as _ <-; reflexivity|discriminate S].
      - destruct (oct_digit c) eqn:O.
        + destruct (oct_not_special _ _ O) as (P1 & P2 & P3). destruct (n <? 3)%nat.
          * injection S as _ <-. apply Plain; auto.
          * destruct (flush w); [|discriminate]. destruct (text_step c) as [[p q]|] eqn:T; [|discriminate]. injection S as _ <-. eapply Text; eauto.
        + destruct (flush w); [|discriminate]. destruct (text_step c) as [[p q]|] eqn:T; [|discriminate]. injection S as _ <-. eapply Text; eauto.
      - destruct (hex_digit c) eqn:O.
        + destruct (hex_not_special _ _ O) as (P1 & P2 & P3). injection S as _ <-. apply Plain; auto.
        + destruct h; [|discriminate]. destruct (flush w); [|discriminate]. destruct (text_step c) as [[p q]|] eqn:T; [|discriminate]. injection S as _ <-. eapply Text; eauto.
      - destruct (hex_digit c) eqn:O; [|discriminate]. destruct (hex_not_special _ _ O) as (P1 & P2 & P3).
        assert (esc st' = false).
        { destruct n as [|[|n]]; try (injection S as _ <-; reflexivity). destruct (ucn _); [injection S as _ <-; reflexivity|discriminate]. }
        apply Plain; auto. }
    destruct K as (N & a' & L & E). destruct (IH st' y a' G) as (N' & R). split.
    + intros [->|I]; [congruence|contradiction].
    + cbn [lex_run]. rewrite L, R. cbn [app]. do 2 f_equal. rewrite app_assoc, E, <- !app_assoc. reflexivity.
Qed.

Lemma goes_lit cur up s v : cpp_lit s = Some v ->
  goes (QStr [], cur, up) (s ++ b """") (QEnd, Lf (KStr (trigraphs 0 s)) :: cur, up).
Proof.
  unfold cpp_lit. intros L r. destruct (lit_lex _ _ _ [] L) as (N & R). unfold machine, phases. cbn [fst snd].
  rewrite <- app_assoc. change (b """" ++ r) with (""""%char :: r). rewrite trigraphs_quote by lia. rewrite splice_quote by exact N.
  rewrite lex_app. change (in_lit LText []) with (QStr []) in R. rewrite R.
  change (lex_run (QStr ([] ++ (if esc LText then ["\"%char] else []) ++ trigraphs 0 s)) (""""%char :: splice (trigraphs 0 r)))
    with (let '(ks, z) := lex_run QEnd (splice (trigraphs 0 r)) in (KStr (trigraphs 0 s) :: ks, z)).
  destruct (lex_run QEnd (splice (trigraphs 0 r))) as [k z]. reflexivity.
Qed.
