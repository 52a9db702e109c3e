(** The lexer of the compiler recognises the lexical structure of [SpecProto]. *)
From Verif Require Import Bytes BaseProofs ProtoLex SpecProto.

(** ** Positions *)
Definition adv (p : Z * Z) (c : ascii) : Z * Z :=
  if code c =? 10 then (fst p + 1, 1) else (fst p, snd p + 1).
Definition npos (pre : bytes) : Z * Z := fold_left adv pre (1, 1).

Lemma npos_snoc pre c : npos (pre ++ [c]) = adv (npos pre) c.
Proof. unfold npos. now rewrite fold_left_app. Qed.

(** ** States of the stream: [pre] is the text read so far, [x] the text to read. *)
Definition St_got (pre : bytes) (c : ascii) (x : bytes) : istate :=
  IS x (code c) (fst (npos pre)) (snd (npos pre)) false.
Definition St_ungot (pre : bytes) (c : ascii) (x : bytes) : istate :=
  IS x (code c) (fst (npos pre)) (snd (npos pre)) true.
Definition St_end (pre : bytes) : istate := IS [] (-2) (fst (npos pre)) (snd (npos pre) - 1) false.
Definition peeked (pre x : bytes) : istate :=
  match x with [] => St_end pre | c :: r => St_ungot pre c r end.

Definition at_ (s : istate) (pre x : bytes) : Prop :=
  if i_ungot s then 0 <= i_last s < 256 /\ x = chr (i_last s) :: i_rest s /\ (i_line s, i_col s) = npos pre
  else x = i_rest s /\ (if i_last s =? 10 then (i_line s + 1, 1) else (i_line s, i_col s + 1)) = npos pre.

Lemma at_start text : at_ (i_start text) [] text.
Proof. unfold at_, i_start. cbn. auto. Qed.

Lemma at_got pre c x : at_ (St_got pre c x) (pre ++ [c]) x.
Proof.
  unfold at_, St_got. cbn [i_ungot i_rest i_last i_line i_col]. split; [reflexivity|].
  rewrite npos_snoc. unfold adv. destruct (code c =? 10); reflexivity.
Qed.

Lemma at_ungot pre c x : at_ (St_ungot pre c x) pre (c :: x).
Proof.
  unfold at_, St_ungot. cbn [i_ungot i_rest i_last i_line i_col]. pose proof (code_range c).
  split; [assumption|]. rewrite chr_code. split; [reflexivity|]. now destruct (npos pre).
Qed.

Lemma at_end pre : at_ (St_end pre) pre [].
Proof.
  unfold at_, St_end. cbn [i_ungot i_rest i_last i_line i_col]. split; [reflexivity|].
  replace (-2 =? 10) with false by reflexivity. destruct (npos pre); cbn [fst snd]. f_equal. lia.
Qed.

Lemma at_peeked pre x : at_ (peeked pre x) pre x.
Proof. destruct x; [apply at_end|apply at_ungot]. Qed.

Lemma get_char s pre c x : at_ s pre (c :: x) -> i_get s = (code c, St_got pre c x).
Proof.
  unfold at_, i_get, St_got. destruct (i_ungot s).
  - intros (R & E & P). injection E as -> ->. rewrite <- P. cbn [fst snd].
    rewrite code_chr_small by assumption. reflexivity.
  - intros (<- & P). rewrite <- P. destruct (i_last s =? 10); cbn [fst snd]; reflexivity.
Qed.

Lemma get_eof s pre : at_ s pre [] -> i_get s = (-1, St_end pre).
Proof.
  unfold at_, i_get, St_end. destruct (i_ungot s).
  - intros (R & E & P). discriminate E.
  - intros (E & P). rewrite <- E, <- P. destruct (i_last s =? 10); cbn [fst snd]; repeat f_equal; lia.
Qed.

Lemma unget_got pre c x : i_unget (St_got pre c x) = POk (St_ungot pre c x).
Proof.
  unfold i_unget, St_got. cbn. pose proof (code_range c). destruct (Z.leb_spec 0 (code c)); [reflexivity|lia].
Qed.
Lemma unget_end pre : i_unget (St_end pre) = POk (St_end pre).
Proof. reflexivity. Qed.

Lemma peeked_pos pre c x : (i_line (peeked pre (c :: x)), i_col (peeked pre (c :: x))) = npos pre.
Proof. cbn. now destruct (npos pre). Qed.

Ltac gchar H := rewrite (get_char _ _ _ _ H).
Ltac geof H := rewrite (get_eof _ _ H).

Lemma app_snoc {A} (u : list A) c v : (u ++ [c]) ++ v = u ++ c :: v.
Proof. now rewrite <- app_assoc. Qed.

(** ** Characters *)
Definition pword (c : ascii) : Prop := pletter c \/ pdigit c.

Lemma letter_code_true c : letter_code (code c) = true <-> pletter c.
Proof. unfold letter_code, pletter. lia. Qed.
Lemma digit_code_true c : digit_code (code c) = true <-> pdigit c.
Proof. unfold digit_code, pdigit. lia. Qed.
Lemma word_code_true c : word_code (code c) = true <-> pword c.
Proof. unfold word_code, pword. rewrite orb_true_iff, letter_code_true, digit_code_true. reflexivity. Qed.
Lemma ws_code_true c : ws_code (code c) = true <-> blank c.
Proof. unfold ws_code, blank. cbn [In]. lia. Qed.

(** [stops_at q x]: the first byte of [x], if any, does not satisfy [q]. *)
Definition stops_at (q : ascii -> Prop) (x : bytes) : Prop :=
  match x with [] => True | c :: _ => ~ q c end.

Lemma span_dec (q : Z -> bool) x : exists u v, x = u ++ v /\ Forall (fun c => q (code c) = true) u /\
  stops_at (fun c => q (code c) = true) v.
Proof.
  induction x as [|c x (u & v & -> & A & B)].
  - exists [], []. cbn. auto.
  - destruct (q (code c)) eqn:E.
    + exists (c :: u), v. cbn. auto.
    + exists [], (c :: u ++ v). cbn. rewrite E. auto.
Qed.

(** ** White space *)
Lemma skipws_spec w : forall F s pre x, at_ s pre (w ++ x) -> Forall blank w -> stops_at blank x ->
  (length w < F)%nat -> i_skipws F s = POk (peeked (pre ++ w) x).
Proof.
  induction w as [|c w IH]; intros F s pre x A B S L; (destruct F as [|F]; [cbn in L; lia|]); cbn [i_skipws].
  - rewrite app_nil_r. destruct x as [|d x].
    + geof A. cbn. apply unget_end.
    + gchar A. destruct (ws_code (code d)) eqn:E; [apply ws_code_true in E; cbn in S; contradiction|].
      apply unget_got.
  - gchar A. inversion B as [|? ? B1 B2]; subst. apply ws_code_true in B1. rewrite B1.
    rewrite <- (app_snoc pre c w). apply IH; auto; [apply at_got|cbn in L; lia].
Qed.

(** ** Comments *)
Lemma line_comment_spec w : forall F s pre x, at_ s pre (w ++ LF :: x) -> ~ In LF w ->
  (length w < F)%nat -> exists s', t_line_comment F s = POk s' /\ at_ s' (pre ++ w ++ [LF]) x.
Proof.
  induction w as [|c w IH]; intros F s pre x A B L; (destruct F as [|F]; [cbn in L; lia|]); cbn [t_line_comment].
  - gchar A. eexists. split; [reflexivity|]. apply at_got.
  - gchar A. destruct (Z.eqb_spec (code c) 10) as [E|E].
    { exfalso. apply B. left. apply code_inj. exact E. }
    cbn [app]. rewrite <- (app_snoc pre c (w ++ [LF])). apply IH; [apply at_got| |cbn in L; lia].
    intro. apply B. now right.
Qed.

Lemma line_comment_loops w : forall F s pre, at_ s pre w -> ~ In LF w -> t_line_comment F s = PFuel.
Proof.
  induction w as [|c w IH]; intros F s pre A B; revert s A;
    (induction F as [|F IHF]; intros s A; [reflexivity|]); cbn [t_line_comment].
  - geof A. cbn. apply IHF, at_end.
  - gchar A. destruct (Z.eqb_spec (code c) 10) as [E|E].
    { exfalso. apply B. left. apply code_inj. exact E. }
    apply (IH F _ (pre ++ [c])); [apply at_got|]. intro. apply B. now right.
Qed.

Lemma not_occurs_tail pat c w : ~ occurs pat (c :: w) -> ~ occurs pat w.
Proof. intros H (u & v & ->). apply H. exists (c :: u), v. reflexivity. Qed.

Lemma block_comment_spec w : forall F s pre x, at_ s pre (w ++ b "*/" ++ x) ->
  ~ occurs (b "*/") (w ++ b "*") -> (length w < F)%nat ->
  exists s', t_block_comment F s = POk s' /\ at_ s' (pre ++ w ++ b "*/") x.
Proof.
  induction w as [|c w IH]; intros F s pre x A B L; (destruct F as [|F]; [cbn in L; lia|]); cbn [t_block_comment].
  - change ([] ++ b "*/" ++ x) with ("*"%char :: "/"%char :: x) in A. gchar A.
    unfold i_expect. gchar (at_got pre "*" ("/"%char :: x)). cbn [pbind].
    replace (code "*" =? 42) with true by reflexivity. replace (code "/" =? 47) with true by reflexivity.
    cbn [pbind]. eexists. split; [reflexivity|]. pose proof (at_got (pre ++ ["*"%char]) "/" x) as H.
    now rewrite <- app_assoc in H.
  - pose proof (not_occurs_tail _ _ _ B) as B'. cbn [app] in A. gchar A.
    pose proof (at_got pre c (w ++ b "*/" ++ x)) as G.
    cbn [app]. rewrite <- (app_snoc pre c (w ++ b "*/")). cbn [length] in L.
    destruct (Z.eqb_spec (code c) 42) as [E|E].
    + unfold i_expect. apply (code_inj _ "*"%char) in E. subst c.
      destruct w as [|d w].
      * cbn [app] in G |- *. gchar G. replace (code "*" =? 47) with false by reflexivity.
        rewrite unget_got. cbn [pbind]. apply (IH _ _ _ _ (at_ungot _ _ _)); [exact B'|lia].
      * cbn [app] in G |- *. gchar G. destruct (Z.eqb_spec (code d) 47) as [D|D].
        { exfalso. apply (code_inj _ "/"%char) in D. subst d. apply B. exists [], (w ++ b "*"). reflexivity. }
        rewrite unget_got. cbn [pbind]. apply (IH _ _ _ _ (at_ungot _ _ _)); [exact B'|lia].
    + pose proof (code_range c). destruct (Z.ltb_spec (code c) 0); [lia|].
      apply IH; [exact G|exact B'|lia].
Qed.

(** A block comment without end reaches the end of the file. *)
Lemma block_comment_open w : forall F s pre, at_ s pre w -> ~ occurs (b "*/") w ->
  (length w < F)%nat -> exists s', t_block_comment F s = POk s' /\ at_ s' (pre ++ w) [].
Proof.
  induction w as [|c w IH]; intros F s pre A B L; (destruct F as [|F]; [cbn in L; lia|]); cbn [t_block_comment].
  - geof A. cbn. rewrite app_nil_r. eexists. split; [reflexivity|apply at_end].
  - pose proof (not_occurs_tail _ _ _ B) as B'. gchar A.
    pose proof (at_got pre c w) as G. cbn [length] in L.
    destruct (Z.eqb_spec (code c) 42) as [E|E].
    + unfold i_expect. apply (code_inj _ "*"%char) in E. subst c.
      rewrite <- (app_snoc pre "*"%char w). destruct w as [|d w].
      * geof G. replace (-1 =? 47) with false by reflexivity. rewrite unget_end. cbn [pbind].
        apply (IH _ _ _ (at_end _)); [exact B'|lia].
      * gchar G. destruct (Z.eqb_spec (code d) 47) as [D|D].
        { exfalso. apply (code_inj _ "/"%char) in D. subst d. apply B. exists [], w. reflexivity. }
        rewrite unget_got. cbn [pbind]. apply (IH _ _ _ (at_ungot _ _ _)); [exact B'|lia].
    + pose proof (code_range c). destruct (Z.ltb_spec (code c) 0); [lia|].
      rewrite <- (app_snoc pre c w). apply IH; [exact G|exact B'|lia].
Qed.

(** ** Names *)
Lemma t_name_spec w : forall F first acc s pre x, at_ s pre (w ++ x) ->
  (first = true -> match w with c :: _ => pletter c | [] => True end) ->
  Forall pword w -> (w = [] -> first = true -> stops_at pletter x) ->
  (w = [] /\ first = true \/ stops_at pword x) ->
  (length w < F)%nat -> t_name F first acc s = POk (rev acc ++ w, peeked (pre ++ w) x).
Proof.
  induction w as [|c w IH]; intros F first acc s pre x A B C D E L; (destruct F as [|F]; [cbn in L; lia|]);
    cbn [t_name].
  - rewrite !app_nil_r. cbn [app] in A. destruct x as [|d x].
    + geof A. reflexivity.
    + gchar A. pose proof (code_range d). destruct (Z.ltb_spec (code d) 0); [lia|].
      replace ((first && negb (letter_code (code d))) || negb (word_code (code d))) with true.
      * rewrite unget_got. reflexivity.
      * symmetry. destruct E as [[_ ->]|E].
        -- specialize (D eq_refl eq_refl). cbn in D. destruct (letter_code (code d)) eqn:X; [|reflexivity].
           apply letter_code_true in X. contradiction.
        -- cbn in E. destruct (word_code (code d)) eqn:X; [apply word_code_true in X; contradiction|].
           apply orb_true_r.
  - cbn [app] in A. gchar A. pose proof (code_range c). destruct (Z.ltb_spec (code c) 0); [lia|].
    inversion C as [|? ? C1 C2]; subst. pose proof (proj2 (word_code_true c) C1) as W. rewrite W.
    replace (first && negb (letter_code (code c))) with false.
    + cbn [negb orb]. rewrite chr_code. rewrite (IH F false (c :: acc) _ (pre ++ [c]) x).
      * cbn [rev]. rewrite <- !app_assoc. reflexivity.
      * apply at_got.
      * discriminate.
      * exact C2.
      * discriminate.
      * destruct E as [[X _]|E]; [discriminate X|right; exact E].
      * cbn [length] in L. lia.
    + destruct first; [|reflexivity]. specialize (B eq_refl). cbn in B. apply letter_code_true in B. now rewrite B.
Qed.

Lemma t_name_ident w F s pre x : at_ s pre (w ++ x) -> ident w -> stops_at pword x -> (length w < F)%nat ->
  t_name F true [] s = POk (w, peeked (pre ++ w) x).
Proof.
  intros A I S L. destruct w as [|c w]; [contradiction|]. destruct I as [I1 I2].
  apply (t_name_spec (c :: w)); auto.
  - constructor; [left; exact I1|exact I2].
  - discriminate.
Qed.

Lemma t_name_none F s pre x : at_ s pre x -> stops_at pletter x -> (0 < F)%nat ->
  t_name F true [] s = POk ([], peeked pre x).
Proof.
  intros A S L. pose proof (t_name_spec [] F true [] s pre x A) as H. rewrite !app_nil_r in H. apply H; auto.
Qed.

(** ".a.b" *)
Inductive dot_tail : bytes -> Prop :=
  | dt_nil : dot_tail []
  | dt_cons w r : ident w -> dot_tail r -> dot_tail ("."%char :: w ++ r).

Lemma dotted_tail w : dotted w <-> exists u r, w = u ++ r /\ ident u /\ dot_tail r.
Proof.
  split.
  - induction 1 as [w I|w r I D (u & r' & -> & I' & T)].
    + exists w, []. rewrite app_nil_r. split; [reflexivity|]. split; [exact I|constructor].
    + exists w, ("."%char :: u ++ r'). split; [reflexivity|]. split; [exact I|]. now constructor.
  - intros (u & r & -> & I & T). revert u I. induction T as [|w r J T IH]; intros u I.
    + rewrite app_nil_r. now constructor.
    + apply dot_more; [exact I|]. apply IH. exact J.
Qed.

(** What ends a name. *)
Definition word_end (x : bytes) : Prop := stops_at (fun c => pword c \/ code c = 46) x.

Lemma dot_not_word : ~ pword "."%char.
Proof. unfold pword, pletter, pdigit. replace (code ".") with 46 by reflexivity. lia. Qed.

Lemma tail_stops r x : dot_tail r -> stops_at pword x -> stops_at pword (r ++ x).
Proof. intros [|w r' I T] S; [exact S|]. cbn. apply dot_not_word. Qed.

Lemma word_end_stops x : word_end x -> stops_at pword x.
Proof. destruct x; cbn; [auto|]. intros H W. apply H. now left. Qed.

Definition nonempty {A} (l : list A) : bool := match l with [] => false | _ => true end.

Lemma qname_loop_spec r : dot_tail r -> forall n F line col q name s pre x, at_ s pre (r ++ x) -> word_end x ->
  (length r < n)%nat -> (length r < F)%nat ->
  t_qname_loop F n line col q name s = POk (q || nonempty r, name ++ r, peeked (pre ++ r) x).
Proof.
  induction 1 as [|w r I T IH]; intros n F line col q name s pre x A S L L';
    (destruct n as [|n]; [lia|]); cbn [t_qname_loop].
  - cbn [app] in A. rewrite app_nil_r, app_nil_r, orb_false_r. destruct x as [|c x].
    + geof A. reflexivity.
    + gchar A. destruct (Z.eqb_spec (code c) 46) as [E|E]; [exfalso; apply S; now right|].
      rewrite unget_got. reflexivity.
  - cbn [app] in A. gchar A. replace (code "." =? 46) with true by reflexivity.
    pose proof (at_got pre "." ((w ++ r) ++ x)) as G. rewrite <- app_assoc in G.
    cbn [length] in L, L'. rewrite app_length in L, L'.
    rewrite <- app_assoc. rewrite (t_name_ident w _ _ _ (r ++ x) G I).
    + cbn [pbind]. destruct w as [|c w]; [contradiction|].
      rewrite (IH n F line col true (name ++ "."%char :: c :: w) _ ((pre ++ ["."%char]) ++ c :: w) x).
      * cbn [orb nonempty]. rewrite orb_true_r. rewrite <- !app_assoc. reflexivity.
      * apply at_peeked.
      * exact S.
      * cbn [length] in L. lia.
      * lia.
    + apply tail_stops; [exact T|]. now apply word_end_stops.
    + lia.
Qed.

(** A dot that is not followed by an identifier. *)
Lemma qname_loop_bad r : dot_tail r -> forall n F line col q name s pre x, at_ s pre (r ++ "."%char :: x) ->
  stops_at pletter x -> (length r < n)%nat -> (length r < F)%nat ->
  t_qname_loop F n line col q name s = PThrow (b "Invalid identifier") line col.
Proof.
  induction 1 as [|w r I T IH]; intros n F line col q name s pre x A S L L';
    (destruct n as [|n]; [lia|]); cbn [t_qname_loop].
  - cbn [app] in A. gchar A. replace (code "." =? 46) with true by reflexivity.
    rewrite (t_name_none F _ _ x (at_got _ _ _) S) by lia. reflexivity.
  - cbn [app] in A. gchar A. replace (code "." =? 46) with true by reflexivity.
    pose proof (at_got pre "." ((w ++ r) ++ "."%char :: x)) as G. rewrite <- app_assoc in G.
    cbn [length] in L, L'. rewrite app_length in L, L'.
    rewrite <- app_assoc. rewrite (t_name_ident w _ _ _ (r ++ "."%char :: x) G I).
    + cbn [pbind]. destruct w as [|c w]; [contradiction|].
      apply (IH n F line col true _ _ ((pre ++ ["."%char]) ++ c :: w) x).
      * apply at_peeked.
      * exact S.
      * cbn [length] in L. lia.
      * lia.
    + apply tail_stops; [exact T|]. cbn. apply dot_not_word.
    + lia.
Qed.

(** ** Numerals *)
Lemma integer_spec w : forall F line col acc s pre x, at_ s pre (w ++ x) -> Forall pdigit w ->
  stops_at pdigit x -> (length w < F)%nat ->
  t_integer F line col acc s = POk (Tok KInteger (rev acc ++ w) line col, peeked (pre ++ w) x).
Proof.
  induction w as [|c w IH]; intros F line col acc s pre x A B S L; (destruct F as [|F]; [cbn in L; lia|]);
    cbn [t_integer].
  - rewrite !app_nil_r. cbn [app] in A. destruct x as [|d x].
    + geof A. reflexivity.
    + gchar A. destruct (digit_code (code d)) eqn:E; [apply digit_code_true in E; cbn in S; contradiction|].
      rewrite unget_got. reflexivity.
  - cbn [app] in A. gchar A. inversion B as [|? ? B1 B2]; subst. apply digit_code_true in B1. rewrite B1, chr_code.
    rewrite (IH F line col (c :: acc) _ (pre ++ [c]) x (at_got _ _ _) B2 S); [|cbn in L; lia].
    cbn [rev]. rewrite <- !app_assoc. reflexivity.
Qed.

(** ** Strings *)
Notation str_char := lit_char.

Lemma code_LF c : code c = 10 <-> c = LF.
Proof. split; [intros H; now apply code_inj|now intros ->]. Qed.
Lemma code_NUL c : code c = 0 <-> c = NUL.
Proof. split; [intros H; now apply code_inj|now intros ->]. Qed.

Lemma str_char_codes c : str_char c -> ((code c =? 10) || (code c =? 0)) = false /\ (code c =? 34) = false.
Proof. intros (A & B & C). rewrite <- code_LF in A. rewrite <- code_NUL in B. lia. Qed.

Lemma string_spec w : forall F line col acc s pre x, at_ s pre (w ++ chr 34 :: x) -> Forall str_char w ->
  (length w < F)%nat -> exists s',
  t_string F line col acc s = POk (Tok KString (rev acc ++ w) line col, s') /\ at_ s' (pre ++ w ++ [chr 34]) x.
Proof.
  induction w as [|c w IH]; intros F line col acc s pre x A B L; (destruct F as [|F]; [cbn in L; lia|]);
    cbn [t_string].
  - cbn [app] in A |- *. gchar A. rewrite code_chr_small by lia. cbn [Z.eqb orb Pos.eqb].
    rewrite app_nil_r. eexists. split; [reflexivity|]. apply at_got.
  - cbn [app] in A. gchar A. inversion B as [|? ? B1 B2]; subst. apply str_char_codes in B1. destruct B1 as [-> ->].
    rewrite chr_code. destruct (IH F line col (c :: acc) _ (pre ++ [c]) x (at_got _ _ _) B2) as (s' & E & A');
      [cbn in L; lia|]. exists s'. rewrite E. cbn [rev]. rewrite <- !app_assoc in *. split; [reflexivity|exact A'].
Qed.

Lemma string_cut w : forall F line col acc s pre c x, at_ s pre (w ++ c :: x) -> Forall str_char w ->
  (c = LF \/ c = NUL) -> (length w < F)%nat -> exists s',
  t_string F line col acc s = POk (token0, s') /\ at_ s' (pre ++ w ++ [c]) x.
Proof.
  induction w as [|d w IH]; intros F line col acc s pre c x A B K L; (destruct F as [|F]; [cbn in L; lia|]);
    cbn [t_string].
  - cbn [app] in A |- *. gchar A. replace ((code c =? 10) || (code c =? 0)) with true by (destruct K; subst; reflexivity).
    eexists. split; [reflexivity|]. apply at_got.
  - cbn [app] in A. gchar A. inversion B as [|? ? B1 B2]; subst. apply str_char_codes in B1. destruct B1 as [-> ->].
    rewrite chr_code. destruct (IH F line col (d :: acc) _ (pre ++ [d]) c x (at_got _ _ _) B2 K) as (s' & E & A');
      [cbn in L; lia|]. exists s'. rewrite E. rewrite <- !app_assoc in *. split; [reflexivity|exact A'].
Qed.

Lemma string_loops w : forall F line col acc s pre, at_ s pre w -> Forall str_char w ->
  t_string F line col acc s = PFuel.
Proof.
  induction w as [|c w IH]; intros F line col acc s pre A B; revert s acc A;
    (induction F as [|F IHF]; intros s acc A; [reflexivity|]); cbn [t_string].
  - geof A. cbn. apply IHF, at_end.
  - gchar A. inversion B as [|? ? B1 B2]; subst. apply str_char_codes in B1. destruct B1 as [-> ->].
    apply (IH F _ _ _ _ (pre ++ [c])); [apply at_got|exact B2].
Qed.
