(** The parser run on the lexer is the parser run on the list of tokens of the file. *)
From Verif Require Import Bytes BaseProofs Num ProtoLex ProtoParse SpecProto PLexProofs PNextProofs.

(** ** More fuel does not change a result of the lexer *)
Definition le_res {A} (r1 r2 : pres A) : Prop := r1 = PFuel \/ r1 = r2.

Lemma le_refl {A} (r : pres A) : le_res r r.
Proof. now right. Qed.

Lemma le_bind {A B} (m1 m2 : pres A) (k1 k2 : A -> pres B) :
  le_res m1 m2 -> (forall a, le_res (k1 a) (k2 a)) -> le_res (pbind m1 k1) (pbind m2 k2).
Proof. intros [-> | ->] K; [now left|]. destruct m2; cbn; auto; right; reflexivity. Qed.

Lemma skipws_mono n : forall n' s, (n <= n')%nat -> le_res (i_skipws n s) (i_skipws n' s).
Proof.
  induction n as [|n IH]; intros n' s L; [now left|]. destruct n' as [|n']; [lia|]. cbn [i_skipws].
  destruct (i_get s) as [ch s1]. destruct (ws_code ch); [apply IH; lia|apply le_refl].
Qed.

Lemma name_mono n : forall n' first acc s, (n <= n')%nat -> le_res (t_name n first acc s) (t_name n' first acc s).
Proof.
  induction n as [|n IH]; intros n' first acc s L; [now left|]. destruct n' as [|n']; [lia|]. cbn [t_name].
  destruct (i_get s) as [ch s1]. destruct (ch <? 0); [apply le_refl|].
  destruct ((first && negb (letter_code ch)) || negb (word_code ch)); [apply le_refl|]. apply IH. lia.
Qed.

Lemma qname_loop_mono n : forall n' F F' line col q name s, (n <= n')%nat -> (F <= F')%nat ->
  le_res (t_qname_loop F n line col q name s) (t_qname_loop F' n' line col q name s).
Proof.
  induction n as [|n IH]; intros n' F F' line col q name s L LF'; [now left|]. destruct n' as [|n']; [lia|].
  cbn [t_qname_loop]. destruct (i_get s) as [ch s1]. destruct (ch =? 46); [|apply le_refl].
  apply le_bind; [now apply name_mono|]. intros [cur s2]. destruct cur; [apply le_refl|]. apply IH; lia.
Qed.

Lemma integer_mono n : forall n' line col acc s, (n <= n')%nat -> le_res (t_integer n line col acc s) (t_integer n' line col acc s).
Proof.
  induction n as [|n IH]; intros n' line col acc s L; [now left|]. destruct n' as [|n']; [lia|]. cbn [t_integer].
  destruct (i_get s) as [ch s1]. destruct (digit_code ch); [apply IH; lia|apply le_refl].
Qed.

Lemma string_mono n : forall n' line col acc s, (n <= n')%nat -> le_res (t_string n line col acc s) (t_string n' line col acc s).
Proof.
  induction n as [|n IH]; intros n' line col acc s L; [now left|]. destruct n' as [|n']; [lia|]. cbn [t_string].
  destruct (i_get s) as [ch s1]. destruct ((ch =? 10) || (ch =? 0)); [apply le_refl|].
  destruct (ch =? 34); [apply le_refl|]. apply IH; lia.
Qed.

Lemma line_comment_mono n : forall n' s, (n <= n')%nat -> le_res (t_line_comment n s) (t_line_comment n' s).
Proof.
  induction n as [|n IH]; intros n' s L; [now left|]. destruct n' as [|n']; [lia|]. cbn [t_line_comment].
  destruct (i_get s) as [ch s1]. destruct (ch =? 10); [apply le_refl|]. apply IH; lia.
Qed.

Lemma block_comment_mono n : forall n' s, (n <= n')%nat -> le_res (t_block_comment n s) (t_block_comment n' s).
Proof.
  induction n as [|n IH]; intros n' s L; [now left|]. destruct n' as [|n']; [lia|]. cbn [t_block_comment].
  destruct (i_get s) as [ch s1]. destruct (ch =? 42).
  - apply le_bind; [apply le_refl|]. intros [x s2]. destruct x; [apply le_refl|]. apply IH; lia.
  - destruct (ch <? 0); [apply le_refl|]. apply IH; lia.
Qed.

Lemma comment_mono F F' s : (F <= F')%nat -> le_res (t_comment F s) (t_comment F' s).
Proof.
  intros L. unfold t_comment. destruct (i_get s) as [ch s1].
  destruct (ch =? 47); [now apply line_comment_mono|]. destruct (ch =? 42); [now apply block_comment_mono|apply le_refl].
Qed.

Lemma next_mono n : forall n' F F' s, (n <= n')%nat -> (F <= F')%nat -> le_res (t_next F n s) (t_next F' n' s).
Proof.
  induction n as [|n IH]; intros n' F F' s L LF'; [now left|]. destruct n' as [|n']; [lia|]. cbn [t_next].
  apply le_bind; [now apply skipws_mono|]. intros s1. destruct (i_get s1) as [ch s2].
  destruct (ch <? 0); [apply le_refl|].
  destruct (letter_code ch).
  { apply le_bind; [apply le_refl|]. intros s3. unfold t_qname.
    apply le_bind; [now apply name_mono|]. intros [name s4].
    apply le_bind; [now apply qname_loop_mono|]. intros [[q name'] s5]. apply le_refl. }
  destruct (digit_code ch); [now apply integer_mono|].
  destruct (ch =? 47).
  { apply le_bind; [now apply comment_mono|]. intros s3. apply IH; lia. }
  destruct ((ch =? 10) || (ch =? 13)); [apply IH; lia|].
  destruct (ch =? 34); [now apply string_mono|]. apply le_refl.
Qed.

(** ** Two sources of tokens *)
Section Approx.
  Variables src1 src2 : Type.
  Variable nxt1 : src1 -> pres (token * src1).
  Variable nxt2 : src2 -> pres (token * src2).
  Variable R : src1 -> src2 -> Prop.
  (** Whether the first may also stop with [PRuntime]. *)
  Variable rt : bool.

  Definition same {A T1 T2} (rel : T1 -> T2 -> Prop) (r1 : pres (A * T1)) (r2 : pres (A * T2)) : Prop :=
    match r1, r2 with
    | POk (a, x), POk (a', y) => a = a' /\ rel x y
    | PThrow m l c, PThrow m' l' c' => m = m' /\ l = l' /\ c = c'
    | PRuntime, PRuntime => True
    | _, _ => False
    end.
  Definition ap {A T1 T2} (rel : T1 -> T2 -> Prop) (r1 : pres (A * T1)) (r2 : pres (A * T2)) : Prop :=
    r1 = PFuel \/ (rt = true /\ r1 = PRuntime) \/ same rel r1 r2.

  Hypothesis Hnxt : forall x y, R x y -> ap R (nxt1 x) (nxt2 y).

  Definition Rs (s1 : pst src1) (s2 : pst src2) : Prop :=
    R (p_src s1) (p_src s2) /\ p_cur s1 = p_cur s2 /\ p_ung s1 = p_ung s2.

  Definition sim {A} (m1 : M src1 A) (m2 : M src2 A) : Prop :=
    forall s1 s2, Rs s1 s2 -> ap Rs (m1 s1) (m2 s2).

  Lemma sim_ret A (a : A) : sim (ret a) (ret a).
  Proof. intros s1 s2 H. right; right. cbn. auto. Qed.

  Lemma sim_bind A B (m1 : M src1 A) (m2 : M src2 A) (k1 : A -> M src1 B) (k2 : A -> M src2 B) :
    sim m1 m2 -> (forall a, sim (k1 a) (k2 a)) -> sim (bind m1 k1) (bind m2 k2).
  Proof.
    intros Hm Hk s1 s2 H. unfold bind. destruct (Hm s1 s2 H) as [->|[[E ->]|S]]; [now left|right; left; auto|].
    destruct (m1 s1) as [[a x]| | |]; destruct (m2 s2) as [[a' y]| | |]; cbn in S; try contradiction.
    - destruct S as [-> S]. now apply Hk.
    - right; right. exact S.
    - right; right. exact I.
  Qed.

  Lemma sim_next : sim (p_next src1 nxt1) (p_next src2 nxt2).
  Proof.
    intros s1 s2 (Hr & Hc & Hu). unfold p_next. rewrite Hu, Hc. destruct (p_ung s2).
    - right; right. cbn. repeat split; auto.
    - destruct (Hnxt _ _ Hr) as [->|[[E ->]|S]]; [now left|right; left; auto|].
      destruct (nxt1 (p_src s1)) as [[a x]| | |]; destruct (nxt2 (p_src s2)) as [[a' y]| | |]; cbn in S; try contradiction;
        right; right; cbn; [destruct S as [-> S]; repeat split; auto|exact S|exact I].
  Qed.

  Lemma sim_unget : sim p_unget p_unget.
  Proof.
    intros s1 s2 (Hr & Hc & Hu). unfold p_unget. rewrite Hu, Hc. right; right. destruct (p_ung s2); cbn; repeat split; auto.
  Qed.

  Lemma sim_current : sim p_current p_current.
  Proof. intros s1 s2 H. right; right. cbn. split; [apply H|exact H]. Qed.

  Lemma sim_throw A m : sim (p_throw (A:=A) m) (p_throw m).
  Proof. intros s1 s2 (Hr & Hc & Hu). right; right. cbn. rewrite Hc. auto. Qed.

  Lemma sim_fuel A (m : M src2 A) : sim p_fuel m.
  Proof. intros s1 s2 H. now left. Qed.

  Ltac sim :=
    repeat match goal with
    | |- sim (bind _ _) (bind _ _) => apply sim_bind; [|intros ?]
    | |- sim (ret _) (ret _) => apply sim_ret
    | |- sim (p_next _ _) (p_next _ _) => apply sim_next
    | |- sim p_unget p_unget => apply sim_unget
    | |- sim p_current p_current => apply sim_current
    | |- sim (p_throw _) (p_throw _) => apply sim_throw
    | |- sim (match ?x with _ => _ end) _ => destruct x
    end.

  Lemma sim_more : sim p_more p_more.
  Proof. unfold p_more. sim. Qed.

  Lemma sim_option : sim (parse_option src1 nxt1) (parse_option src2 nxt2).
  Proof. unfold parse_option. sim. Qed.

  Lemma sim_field_options n1 : forall n2 m, (n1 <= n2)%nat ->
    sim (parse_field_options src1 nxt1 n1 m) (parse_field_options src2 nxt2 n2 m).
  Proof.
    induction n1 as [|n1 IH]; intros n2 m L; [apply sim_fuel|]. destruct n2 as [|n2]; [lia|].
    cbn [parse_field_options]. sim; try apply sim_option; apply IH; lia.
  Qed.

  Lemma sim_standard_option m : sim (parse_standard_option src1 nxt1 m) (parse_standard_option src2 nxt2 m).
  Proof. unfold parse_standard_option. sim. apply sim_option. Qed.

  Lemma sim_modifier : sim (parse_modifier src1 nxt1) (parse_modifier src2 nxt2).
  Proof. unfold parse_modifier. sim. Qed.

  Lemma sim_type msgs pkg t : sim (parse_type msgs pkg t) (parse_type msgs pkg t).
  Proof. unfold parse_type. sim. Qed.

  Lemma sim_bracket F1 F2 t : (F1 <= F2)%nat ->
    sim (parse_bracket src1 nxt1 F1 t) (parse_bracket src2 nxt2 F2 t).
  Proof. intros L. unfold parse_bracket. sim. now apply sim_field_options. Qed.

  Lemma sim_field F1 F2 msgs pkg fs : (F1 <= F2)%nat ->
    sim (parse_field src1 nxt1 F1 msgs pkg fs) (parse_field src2 nxt2 F2 msgs pkg fs).
  Proof.
    intros L. unfold parse_field. apply sim_bind; [apply sim_modifier|]. intros [[t rep] opt].
    apply sim_bind; [apply sim_type|]. intros [[f q] ref]. sim. now apply sim_bracket.
  Qed.

  Lemma sim_body F1 F2 n1 : forall n2 msgs pkg fs os, (F1 <= F2)%nat -> (n1 <= n2)%nat ->
    sim (parse_body src1 nxt1 F1 n1 msgs pkg fs os) (parse_body src2 nxt2 F2 n2 msgs pkg fs os).
  Proof.
    induction n1 as [|n1 IH]; intros n2 msgs pkg fs os LF' L; [apply sim_fuel|]. destruct n2 as [|n2]; [lia|].
    cbn [parse_body]. apply sim_bind; [apply sim_next|]. intros t.
    destruct (t_code t); sim; try apply sim_standard_option; try (apply sim_field; lia); apply IH; lia.
  Qed.

  Lemma sim_message F1 F2 pkg msgs : (F1 <= F2)%nat ->
    sim (parse_message src1 nxt1 F1 pkg msgs) (parse_message src2 nxt2 F2 pkg msgs).
  Proof.
    intros L. unfold parse_message. sim; try (apply sim_body; lia).
  Qed.

  Lemma sim_package : sim (parse_package src1 nxt1) (parse_package src2 nxt2).
  Proof. unfold parse_package. sim. Qed.

  Lemma sim_syntax : sim (parse_syntax src1 nxt1) (parse_syntax src2 nxt2).
  Proof. unfold parse_syntax. sim. Qed.

  Lemma sim_proto F1 F2 n1 : forall n2 pkg msgs os, (F1 <= F2)%nat -> (n1 <= n2)%nat ->
    sim (parse_proto src1 nxt1 F1 n1 pkg msgs os) (parse_proto src2 nxt2 F2 n2 pkg msgs os).
  Proof.
    induction n1 as [|n1 IH]; intros n2 pkg msgs os LF' L; [apply sim_fuel|]. destruct n2 as [|n2]; [lia|].
    cbn [parse_proto]. apply sim_bind; [apply sim_next|]. intros t.
    destruct (t_code t); sim; try apply sim_more; try apply sim_package; try apply sim_syntax;
      try apply sim_standard_option; try (apply sim_message; lia); try (apply IH; lia).
  Qed.

  Lemma approx_source F1 F2 x y file : (F1 <= F2)%nat -> R x y ->
    let r1 := parse_source nxt1 F1 x file in
    let r2 := parse_source nxt2 F2 y file in
    r1 = PFuel \/ (rt = true /\ r1 = PRuntime) \/ r1 = r2.
  Proof.
    intros L HR. cbn zeta. unfold parse_source.
    assert (H0 : Rs (PS x token0 false) (PS y token0 false)) by (split; [exact HR|auto]).
    destruct (sim_proto F1 F2 F1 F2 [] [] [] L L _ _ H0) as [->|[[E ->]|S]].
    - now left.
    - right; left; auto.
    - right; right. unfold same in S.
      destruct (parse_proto src1 _ _ _ _ _ _ _) as [[[m o] ?]| | |];
        destruct (parse_proto src2 _ _ _ _ _ _ _) as [[[m' o'] ?]| | |]; try contradiction; auto.
      + destruct S as [E _]. injection E as -> ->. reflexivity.
      + destruct S as (-> & -> & ->). reflexivity.
  Qed.
End Approx.

(** ** The tokens of a file *)
Inductive tend := TEnd (line col : Z) | TBad (msg : bytes) (line col : Z) | TLoop.

Inductive toks : bytes -> bytes -> list token -> tend -> Prop :=
  | tk_tok pre x t pre' rest l e : lexes pre x (POk (t, pre', rest)) -> (length rest < length x)%nat ->
      toks pre' rest l e -> toks pre x (t :: l) e
  | tk_end pre x : open_end x -> toks pre x [] (TEnd (fst (npos (pre ++ x))) (snd (npos (pre ++ x)) - 1))
  | tk_bad pre x m line col : lexes pre x (PThrow m line col) -> toks pre x [] (TBad m line col)
  | tk_loop pre x : lexes pre x PFuel -> toks pre x [] TLoop.

Lemma lexes_runtime pre x : ~ lexes pre x PRuntime.
Proof. intros H. inversion H. Qed.

Lemma spelling_pos p : piece_ok p -> (0 < length (spelling p))%nat.
Proof.
  destruct p as [w|ds|s|c]; cbn; try lia.
  - intros D. apply dotted_tail in D. destruct D as (u & r & -> & I & _). destruct u; [contradiction|cbn; lia].
  - intros [H _]. destruct ds; [contradiction|cbn; lia].
Qed.

Lemma toks_total : forall x pre, exists l e, toks pre x l e /\ (length l <= length x)%nat.
Proof.
  intros x. remember (length x) as k eqn:K. revert x K. induction k as [k IH] using lt_wf_ind. intros x -> pre.
  destruct (lexes_total x pre) as [[[[t pre'] rest]|m l c| |] H].
  - inversion H as [sp p r E S O M|sp w c r E S O K|E| | | |]; subst.
    + assert (L : (length rest < length (sp ++ spelling p ++ rest))%nat).
      { rewrite !app_length. pose proof (spelling_pos p O). lia. }
      destruct (IH _ L rest eq_refl (pre ++ sp ++ spelling p)) as (l & e & T & Ll).
      eexists _, e. split; [apply (tk_tok _ _ _ _ _ _ _ H L T)|]. cbn [length]. lia.
    + assert (L : (length rest < length (sp ++ chr 34 :: w ++ c :: rest))%nat).
      { rewrite !app_length. cbn [length]. rewrite app_length. cbn [length]. lia. }
      destruct (IH _ L rest eq_refl (pre ++ sp ++ chr 34 :: w ++ [c])) as (l & e & T & Ll).
      eexists _, e. split; [apply (tk_tok _ _ _ _ _ _ _ H L T)|]. cbn [length]. lia.
    + eexists _, _. split; [now apply tk_end|cbn; lia].
  - eexists _, _. split; [now apply (tk_bad _ _ m l c)|cbn; lia].
  - now apply lexes_runtime in H.
  - eexists _, _. split; [now apply tk_loop|cbn; lia].
Qed.

Definition lsrc : Type := list token * tend.

(** The list of tokens as a source; an endless loop of the lexer is [PRuntime] here, to
    tell it from the fuel of the parser. *)
Definition nxt_list (s : lsrc) : pres (token * lsrc) :=
  match s with
  | (t :: l, e) => POk (t, (l, e))
  | ([], TEnd l c) => POk (Tok KEof [] l c, s)
  | ([], TBad m l c) => PThrow m l c
  | ([], TLoop) => PRuntime
  end.

Definition Rl (F : nat) (s : istate) (y : lsrc) : Prop :=
  exists pre x, at_ s pre x /\ (length x + 2 <= F)%nat /\ toks pre x (fst y) (snd y).

Lemma open_nil : open_end [].
Proof. exists []. split; [constructor|now left]. Qed.

Lemma at_end_toks F s pre : at_ s pre [] -> (2 <= F)%nat ->
  Rl F s ([], TEnd (fst (npos pre)) (snd (npos pre) - 1)).
Proof.
  intros A L. exists pre, []. split; [exact A|]. split; [cbn; lia|]. cbn [fst snd].
  pose proof (tk_end pre [] open_nil) as H. now rewrite app_nil_r in H.
Qed.

Lemma next_list_exact F s y : Rl F s y ->
  match t_next F F s, nxt_list y with
  | POk (t, s'), POk (t', y') => t = t' /\ Rl F s' y'
  | PThrow m l c, PThrow m' l' c' => m = m' /\ l = l' /\ c = c'
  | PFuel, PRuntime => True
  | _, _ => False
  end.
Proof.
  intros (pre & x & A & L & T). destruct y as [l e]. cbn [fst snd] in T.
  assert (N : forall q, lexes pre x q -> res_at (t_next F F s) q) by (intros q; apply next_lexes; auto; lia).
  destruct T as [pre x t pre' rest l e X Lr T|pre x O|pre x m line col X|pre x X]; cbn [nxt_list].
  - specialize (N _ X). unfold res_at in N. destruct (t_next F F s) as [[t' s']| | |]; try contradiction.
    destruct N as [-> A']. split; [reflexivity|]. exists pre', rest. split; [exact A'|]. split; [lia|exact T].
  - specialize (N _ (lex_eof pre x O)). unfold res_at in N. destruct (t_next F F s) as [[t' s']| | |]; try contradiction.
    destruct N as [-> A']. split; [reflexivity|]. apply at_end_toks; [exact A'|lia].
  - specialize (N _ X). unfold res_at in N. destruct (t_next F F s) as [[t' s']| | |]; try contradiction. exact N.
  - specialize (N _ X). unfold res_at in N. destruct (t_next F F s) as [[t' s']| | |]; try contradiction. exact I.
Qed.

(** Any fuel: the lexer does what the list says or runs out of fuel. *)
Definition R0 (s : istate) (y : lsrc) : Prop := exists F, Rl F s y.

Lemma Rl_mono F F' s y : (F <= F')%nat -> Rl F s y -> Rl F' s y.
Proof. intros L (pre & x & A & B & C). exists pre, x. split; [exact A|]. split; [lia|exact C]. Qed.

Lemma lexer_below F s y : R0 s y -> ap false R0 (t_next F F s) (nxt_list y).
Proof.
  intros (F0 & H). apply (Rl_mono F0 (Nat.max F F0)) in H; [|lia].
  pose proof (next_list_exact _ _ _ H) as X.
  assert (L : (F <= Nat.max F F0)%nat) by lia.
  destruct (next_mono F (Nat.max F F0) F (Nat.max F F0) s L L) as [E|E]; [left; exact E|].
  rewrite E. destruct (t_next (Nat.max F F0) (Nat.max F F0) s) as [[t s']|m l c| |];
    destruct (nxt_list y) as [[t' y']| | |]; try contradiction.
  - right; right. destruct X as [-> X]. split; [reflexivity|]. eexists. exact X.
  - right; right. exact X.
  - now left.
Qed.

Lemma list_below F s y : Rl F s y -> ap true (fun y s => Rl F s y) (nxt_list y) (t_next F F s).
Proof.
  intros H. pose proof (next_list_exact _ _ _ H) as X.
  destruct (t_next F F s) as [[t s']|m l c| |]; destruct (nxt_list y) as [[t' y']| | |]; try contradiction.
  - right; right. destruct X as [-> X]. split; [reflexivity|exact X].
  - right; right. cbn. intuition congruence.
  - right; left. auto.
Qed.

Definition parse_list (F : nat) (l : list token) (e : tend) (file : bytes) : pres proto :=
  parse_source nxt_list F (l, e) file.

Lemma parse_below F F' text file l e : (F <= F')%nat -> toks [] text l e ->
  parse_with F text file = PFuel \/ parse_with F text file = parse_list F' l e file.
Proof.
  intros L T. unfold parse_with, parse_list.
  destruct (approx_source _ _ (t_next F F) nxt_list R0 false (lexer_below F) F F' (i_start text) (l, e) file L) as [E|[[E _]|E]];
    [|now left|discriminate E|now right].
  exists (length text + 2)%nat, [], text. split; [apply at_start|]. split; [lia|exact T].
Qed.

Lemma parse_exact F text file l e : (length text + 2 <= F)%nat -> toks [] text l e ->
  parse_list F l e file <> PFuel -> parse_list F l e file <> PRuntime ->
  parse_with F text file = parse_list F l e file.
Proof.
  intros L T N1 N2. unfold parse_with, parse_list in *.
  destruct (approx_source _ _ nxt_list (t_next F F) (fun y s => Rl F s y) true
    (fun y s => list_below F s y) F F (l, e) (i_start text) file (Nat.le_refl F)) as [E|[[_ E]|E]];
    [|contradiction|contradiction|now symmetry].
  exists [], text. split; [apply at_start|]. split; [lia|exact T].
Qed.

Lemma parse_list_mono F F' l e file : (F <= F')%nat -> parse_list F l e file <> PFuel ->
  parse_list F' l e file = parse_list F l e file.
Proof.
  intros L H. unfold parse_list in *.
  destruct (approx_source _ _ nxt_list nxt_list eq false) with (F1 := F) (F2 := F') (x := (l, e)) (y := (l, e)) (file := file)
    as [E|[[E _]|E]]; auto.
  - intros x y ->. right; right. destruct (nxt_list y) as [[? ?]| | |] eqn:X; cbn; auto.
    destruct y as [[|? ?] []]; discriminate X.
  - contradiction.
  - discriminate E.
Qed.
