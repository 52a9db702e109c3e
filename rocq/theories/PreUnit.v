(** Headers, one after another, as text. *)
From Coq Require Import Lia Permutation.
From Verif Require Import Bytes BaseProofs Num Types ProtoLex ProtoParse SpecProto SpecTemplate Template Cpp Gen MainC TemplateProofs SpecPrint SpecGen SpecCpp SpecFile SpecOpts SpecProgram
  PRunProofs PTermProofs BackProofs BackMore EndProofs ScopeProofs Unit SpecUnit UnitProofs PreProofs PreText.

(** ** The classes of a source *)
Lemma idents_word w : ident w -> word w.
Proof.
  assert (L : forall c, pletter c -> word_char c = true) by (intros c H; unfold pletter in H; unfold word_char; lia).
  assert (D : forall c, pdigit c -> word_char c = true) by (intros c H; unfold pdigit in H; unfold word_char; lia).
  destruct w as [|c r]; [intros []|]. intros (P & F). constructor; [now apply L|]. eapply Forall_impl; [|exact F]. intros d [X|X]; auto.
Qed.
Lemma dotted_word w : dotted w -> pkg_word w.
Proof.
  assert (I : forall w, ident w -> pkg_word w) by (intros x X; eapply Forall_impl; [|exact (idents_word x X)]; auto).
  induction 1 as [w W|w r W _ IH]; [now apply I|]. apply Forall_app. split; [now apply I|]. constructor; [now right|exact IH].
Qed.
Lemma parsed_package text path p m : parse text path = POk p -> In m (pr_messages p) -> pkg_word (m_package m).
Proof.
  intros E I. pose proof (parse_no_runtime (length text + 3) text path) as W. fold (parse text path) in W. rewrite E in W.
  destruct W as [[W _] _]. rewrite Forall_forall in W. destruct (W m I) as ((_ & _ & _ & _ & P) & _). destruct P as [-> |(P & _)]; [constructor|now apply dotted_word].
Qed.

Lemma literal_text l : literal_fine l -> lit_text l.
Proof.
  intros (Q & B & L & _ & T). split; [exact L|]. split; [exact T|]. clear L T. induction l as [|c l IH]; [reflexivity|]. cbn [lex_run lex_step].
  rewrite (proj2 (Ascii.eqb_neq c "\")) by (intros ->; apply B; now left). rewrite (proj2 (Ascii.eqb_neq c """")) by (intros ->; apply Q; now left).
  rewrite IH; [reflexivity|intros X; apply Q; now right|intros X; apply B; now right].
Qed.
Lemma hexd_in z : In (hexd z) (NUL :: b "0123456789abcdef").
Proof. unfold hexd. destruct (nth_in_or_default (Z.to_nat z) (b "0123456789abcdef") NUL) as [H| ->]; [now right|now left]. Qed.
Lemma hexd_plain z : hexd z <> LF /\ hexd z <> "?"%char /\ hexd z <> "\"%char /\ hexd z <> """"%char.
Proof.
  pose proof (hexd_in z) as H. repeat split; intros E; rewrite E in H; revert H; cbv; intuition discriminate.
Qed.
Lemma hexd_lex z r : lex_run (XQuote """") (hexd z :: r) = (let '(o, st) := lex_run (XQuote """") r in (hexd z :: o, st)).
Proof.
  destruct (hexd_plain z) as (_ & _ & B & Q). cbn [lex_run lex_step]. rewrite (proj2 (Ascii.eqb_neq _ _) B), (proj2 (Ascii.eqb_neq _ _) Q). now destruct (lex_run _ r).
Qed.
Lemma esc_lex r : lex_run (XQuote """") ("\"%char :: "x"%char :: r) = (let '(o, st) := lex_run (XQuote """") r in ("\"%char :: "x"%char :: o, st)).
Proof. cbn [lex_run lex_step]. change (Ascii.eqb "\" "\") with true. cbv iota. cbn [lex_step]. destruct (lex_run (XQuote """") r). reflexivity. Qed.
Lemma hexnum_lex z r : lex_run (XQuote """") (hexnum z ++ r) = (let '(o, st) := lex_run (XQuote """") r in (hexnum z ++ o, st)).
Proof. unfold hexnum. destruct (z <? 16); cbn [app]; rewrite !hexd_lex; now destruct (lex_run (XQuote """") r). Qed.
Lemma masked_text l : lit_text (masked l).
Proof.
  unfold masked. generalize (name_mask (length l)) as k. intros k.
  assert (P : forall c, In c (concat (map (fun c => b "\x" ++ hexnum (Z.lxor (code c) k)) l)) -> c <> LF /\ c <> "?"%char).
  { intros c I. apply in_concat in I as (x & X & C). apply in_map_iff in X as (d & <- & _). apply in_app_iff in C as [C|C].
    - revert C. cbn [b list_ascii_of_string In]. intros [<-|[<-|[]]]; split; discriminate.
    - unfold hexnum in C. destruct (_ <? 16); [destruct C as [<-|[]]|destruct C as [<-|[<-|[]]]]; destruct (hexd_plain (Z.lxor (code d) k)) as (A1 & A2 & _);
        try (destruct (hexd_plain (Z.lxor (code d) k / 16)) as (B1 & B2 & _)); try (destruct (hexd_plain (Z.lxor (code d) k mod 16)) as (D1 & D2 & _)); auto. }
  split; [intros I; now destruct (P _ I)|]. split; [apply no_quest; intros I; now destruct (P _ I)|]. clear P.
  induction l as [|c l IH]; [reflexivity|]. cbn [map concat]. set (z := Z.lxor (code c) k). change ((b "\x" ++ hexnum z) ++ ?r) with ("\"%char :: "x"%char :: hexnum z ++ r).
  rewrite esc_lex, hexnum_lex, IH. reflexivity.
Qed.

Lemma label_literal (obf : bool) l : (obf = false -> literal_fine l) -> lit_text (literal_of obf l).
Proof. destruct obf; cbn [literal_of]; intros H; [apply masked_text|now apply literal_text, H]. Qed.

Lemma numbered_in {A} (l : list A) : forall i k x, In (k, x) (numbered i l) -> In x l.
Proof. induction l as [|y l IH]; intros i k x; cbn [numbered]; [intros []|]. intros [E|I]; [injection E as _ ->; now left|right; now apply (IH _ _ _ I)]. Qed.

Lemma class_of_fine p m obf lists numbers :
  (forall m, In m (pr_messages p) -> pkg_word (m_package m) /\ word (m_name m)) -> In m (pr_messages p) ->
  (forall f, In f (m_fields m) -> word (f_name f)) ->
  (forall f, In f (m_fields m) -> transient f = false -> lit_text (literal_of obf (json_label numbers f))) ->
  class_fine (class_of (pr_messages p) obf lists numbers m).
Proof.
  intros M I F L. assert (W : forall f, In f (written m) -> In f (m_fields m) /\ transient f = false).
  { intros f H. unfold written in H. apply filter_In in H as [H1 H2]. apply negb_true_iff in H2. auto. }
  assert (N : Forall word (map f_name (m_fields m))) by (apply Forall_forall; intros x X; apply in_map_iff in X as (f & <- & X); auto).
  constructor; cbn [class_of c_pkg c_name c_members c_cases c_write c_empty c_clear c_equal c_swap c_index]; try exact N.
  - now apply M.
  - now apply M.
  - intros t n H. apply in_map_iff in H as (f & E & H). injection E as <- <-. split; [|now apply F].
    assert (V : elem_word (value_elem (pr_messages p) f)).
    { unfold value_elem. destruct (f_type f); try exact Logic.I. destruct (f_ref f) as [k|]; [|exact Logic.I]. destruct (nth_error (pr_messages p) k) as [m'|] eqn:Q; [|exact Logic.I]. apply nth_error_In in Q. now apply M. }
    unfold member_type. destruct (is_bytes f); [exact V|]. destruct (f_repeated f); [exact V|]. destruct (value_elem (pr_messages p) f); [exact Logic.I|exact Logic.I|exact V].
  - intros k n H. apply in_map_iff in H as ((i, f) & E & H). cbn [fst snd] in E. injection E as _ <-. apply numbered_in in H. now apply F, W.
  - intros n l H. apply in_map_iff in H as (f & E & H). injection E as <- <-. apply W in H as [H1 H2]. split; [now apply F|]. cbn [label_fine]. now apply L.
  - intros s k H. apply in_map_iff in H as ((i, f) & E & H). cbn [fst snd] in E. injection E as <- _. apply numbered_in in H. apply W in H as [H1 H2]. now apply L.
Qed.

Lemma source_classes cfg srt s out g : build_fine cfg -> permutes srt -> source_fine s -> header_of cfg srt s out g ->
  Forall class_fine (gh_classes g) /\ out = output_text cfg (so_path s) (gh_headers g) (gh_classes g).
Proof.
  intros B S (P & F & C) (R & _). destruct (NameProofs.compiled_program cfg srt _ _ _ B S P F C) as (h & order & T & env & E & W & O & _).
  rewrite E in R. injection R as <- <- <-. split; [|reflexivity]. apply Forall_forall. intros c I. apply class_message in I as (m & M & ->); [|now apply sorted_ordered].
  assert (Q : In m (pr_messages (sort_fields srt (so_tree s)))) by exact M. cbn [sort_fields pr_messages] in M. apply in_map_iff in M as (m0 & <- & M).
  destruct (C h W) as ((C1 & _) & _). pose proof (C1 m0 M) as (_ & _ & _ & _ & C5).
  apply class_of_fine; [| exact Q | |].
  - intros x X. cbn [sort_fields pr_messages] in X. apply in_map_iff in X as (x0 & <- & X). cbn [m_package m_name]. split; [exact (parsed_package _ _ _ _ P X)|]. apply idents_word, (parsed_message_name _ _ _ _ P X).
  - cbn [m_fields]. intros f I. apply idents_word, (parsed_names _ _ _ m0 f P M). apply (Permutation_in f (S _) I).
  - cbn [m_fields sort_fields pr_options]. intros f I TR. apply label_literal. intros OB. apply C5; [exact OB| |exact TR]. apply (Permutation_in f (S _) I).
Qed.

(** ** The first lines *)
Lemma logical_line l r : ~ In LF l -> (forall x, trigraphs 0 (l ++ LF :: x) = l ++ LF :: trigraphs 0 x) -> (forall w, l <> w ++ ["\"%char]) ->
  logical_lines (ln l ++ r) = l :: logical_lines r.
Proof.
  intros A T B. unfold logical_lines, ln. rewrite <- app_assoc. cbn [app]. rewrite T, splice_line by assumption. rewrite getlines_line by exact A. reflexivity.
Qed.
Lemma logical_seg l r : seg l -> logical_lines (ln l ++ r) = l :: logical_lines r.
Proof. intros (A & T & _ & B). apply logical_line; [exact A| |exact B]. intros x. now rewrite T. Qed.
Lemma logical_neat_line l r : neat l -> logical_lines (ln l ++ r) = l :: logical_lines r.
Proof. intros (A & T & B & _). now apply logical_line. Qed.

(** A line of plain characters, whatever it means. *)
Definition plainb (l : bytes) : bool := negb (existsb (fun c => Ascii.eqb c LF || Ascii.eqb c "?") l) && negb (Ascii.eqb (last l NUL) "\").
Lemma logical_plain l r : plainb l = true -> logical_lines (ln l ++ r) = l :: logical_lines r.
Proof.
  intros H. apply andb_true_iff in H as [H1 H2]. apply negb_true_iff in H1, H2. apply not_true_iff_false in H1.
  assert (Q : forall c, In c l -> c <> LF /\ c <> "?"%char).
  { intros c I. split; intros ->; apply H1, existsb_exists; (eexists; split; [exact I|reflexivity]). }
  apply logical_line.
  - intros I. now destruct (Q _ I).
  - intros x. rewrite (steady l); [reflexivity|]. intros I. now destruct (Q _ I).
  - intros w ->. rewrite last_last in H2. discriminate H2.
Qed.
Lemma logical_plains ls r : forallb plainb ls = true -> logical_lines (concat (map ln ls) ++ r) = ls ++ logical_lines r.
Proof.
  induction ls as [|l ls IH]; intros H; [reflexivity|]. cbn [forallb] in H. apply andb_true_iff in H as [H1 H2]. cbn [map concat]. rewrite <- app_assoc, (logical_plain l _ H1), IH by exact H2. reflexivity.
Qed.

Lemma license_lines ev m r : pp_lines ev (PS XText m []) (license ++ r) = pp_lines ev (PS XText m []) r.
Proof.
  rewrite pp_lines_app. replace (pp_lines ev (PS XText m []) license) with (Some (@nil bytes, PS XText m [])) by (vm_compute; reflexivity).
  destruct (pp_lines ev (PS XText m []) r) as [(o, s)|]; reflexivity.
Qed.

(** A comment, whatever is in it. *)
Lemma pp_comment ev m o s : pp_line ev (PS XText m o) (b "//" ++ s) = Some ([], PS XText m o).
Proof.
  unfold pp_line. cbn [p_lex]. assert (E : lex_line XText (b "//" ++ s) = Some (b " ", XText)).
  { unfold lex_line. change (b "//" ++ s) with ("/"%char :: "/"%char :: s). cbn [lex_run lex_step]. change (lex_text "/") with (@nil ascii, XSlash). cbn [lex_step]. change (Ascii.eqb "/" "/") with true. cbv iota.
    rewrite line_absorb. reflexivity. }
  rewrite E. cbn [p_lex p_macros p_open]. change (directive (b " ")) with (@None (bytes * bytes)). change (forallb blank (b " ")) with true. cbn [negb]. rewrite andb_false_r. reflexivity.
Qed.
Lemma pp_blank ev m o : pp_line ev (PS XText m o) [] = Some ([], PS XText m o).
Proof. unfold pp_line. cbn [p_lex p_macros p_open]. change (lex_line XText []) with (Some (@nil ascii, XText)). cbv iota beta. change (directive []) with (@None (bytes * bytes)). cbn [forallb negb]. rewrite andb_false_r. reflexivity. Qed.

(** "// Source: " and a path, then an empty line: a backslash at the end joins them. *)
Lemma source_line file r : ~ In LF file -> exists s, logical_lines (ln (b "// Source: " ++ file) ++ [LF] ++ r) = (b "//" ++ s) :: logical_lines r \/
  logical_lines (ln (b "// Source: " ++ file) ++ [LF] ++ r) = (b "//" ++ s) :: [] :: logical_lines r.
Proof.
  intros N. unfold logical_lines, ln. rewrite <- !app_assoc. cbn [app]. rewrite (steady (b "// Source: ")) by not_in. rewrite !tri_lf. 
  change (trigraphs 0 (LF :: r)) with (LF :: trigraphs 0 r).
  assert (T : ~ In LF (trigraphs 0 file)).
  { clear r. assert (G : forall q, (q <= 2)%nat -> ~ In LF (trigraphs q file)).
    { induction file as [|c file IH]; intros q Q.
      - cbn [trigraphs]. intros I. apply repeat_spec in I. discriminate I.
      - assert (IH' : forall q, (q <= 2)%nat -> ~ In LF (trigraphs q file)) by (apply IH; intros X; apply N; now right). cbn [trigraphs]. destruct (Ascii.eqb c "?").
        + destruct q as [|[|[|q]]]; try lia; [apply IH'; lia|apply IH'; lia|]. intros [X|X]; [discriminate X|revert X; apply IH'; lia].
        + assert (R : forall q, ~ In LF (repeat "?"%char q ++ c :: trigraphs 0 file)).
          { intros k I. apply in_app_iff in I as [I|[I|I]]; [apply repeat_spec in I; discriminate I|apply N; now left|revert I; apply IH'; lia]. }
          destruct q as [|[|[|q]]]; try apply R. destruct (trigraph c) as [d|] eqn:D; [|apply R]. intros [I|I]; [|revert I; apply IH'; lia]. subst d. revert D. unfold trigraph. repeat (destruct (Ascii.eqb _ _); [discriminate|]). discriminate. }
    apply G. lia. }
  set (x := b " Source: " ++ trigraphs 0 file).
  assert (EQ : b "// Source: " ++ trigraphs 0 file ++ LF :: LF :: trigraphs 0 r = b "//" ++ x ++ LF :: LF :: trigraphs 0 r) by (unfold x; now rewrite <- app_assoc).
  rewrite EQ. clear EQ.
  assert (X : ~ In LF x) by (unfold x; rewrite in_app_iff; intros [I|I]; [revert I; cbv; intuition discriminate|auto]).
  destruct (Ascii.eqb (last x NUL) "\") eqn:E.
  - apply Ascii.eqb_eq in E. assert (Y : x = removelast x ++ ["\"%char]) by (rewrite <- E; apply app_removelast_last; discriminate). rewrite Y in X. rewrite Y. exists (removelast x). left.
    replace (b "//" ++ (removelast x ++ ["\"%char]) ++ LF :: LF :: trigraphs 0 r) with ((b "//" ++ removelast x) ++ "\"%char :: LF :: LF :: trigraphs 0 r) by (rewrite <- !app_assoc; reflexivity).
    assert (Z : ~ In LF (b "//" ++ removelast x)) by (rewrite in_app_iff; intros [I|I]; [revert I; cbv; intuition discriminate|apply X, in_app_iff; now left]).
    rewrite splice_join by exact Z. change (LF :: trigraphs 0 r) with ([] ++ LF :: trigraphs 0 r). rewrite splice_line; [|intros []|intros w; destruct w; discriminate]. cbn [app].
    rewrite getlines_line by exact Z. reflexivity.
  - exists x. right. apply Ascii.eqb_neq in E.
    assert (Z : ~ In LF (b "//" ++ x)) by (rewrite in_app_iff; intros [I|I]; [revert I; cbv; intuition discriminate|auto]).
    rewrite app_assoc, splice_line; [|exact Z|].
    2:{ intros w Q. assert (Y : x = removelast x ++ [last x NUL]) by (apply app_removelast_last; discriminate). rewrite Y, app_assoc in Q. apply app_inj_tail in Q as [_ Q]. auto. }
    change (LF :: trigraphs 0 r) with ([] ++ LF :: trigraphs 0 r). rewrite splice_line; [|intros []|intros w; destruct w; discriminate]. cbn [app].
    rewrite getlines_line by exact Z. change (LF :: splice (trigraphs 0 r)) with ([] ++ LF :: splice (trigraphs 0 r)). rewrite getlines_line by (intros []). reflexivity.
Qed.

(** ** The guard *)
Lemma guard_word file : word (guard_of file).
Proof.
  unfold guard_of. apply Forall_app. split; [repeat constructor|]. apply Forall_forall. intros c I. apply in_map_iff in I as (d & <- & _). destruct (word_char d) eqn:E; [exact E|reflexivity].
Qed.
Lemma span_word s r : word s -> match r with [] => True | c :: _ => word_char c = false end -> span idchar (s ++ r) = (s, r).
Proof.
  intros W R. induction W as [|c s C _ IH]; cbn [app span].
  - destruct r as [|c r]; [reflexivity|]. cbn [span]. change (idchar c) with (word_char c). now rewrite R.
  - change (idchar c) with (word_char c). now rewrite C, IH.
Qed.
Lemma operand_guard file : operand (guard_of file) = guard_of file.
Proof. unfold operand. pose proof (span_word (guard_of file) [] (guard_word file) Logic.I) as E. rewrite app_nil_r in E. now rewrite E. Qed.
Lemma defined_iff m g : is_defined m g = true <-> In g m.
Proof.
  unfold is_defined. rewrite existsb_exists. split; [intros (x & I & E); apply bytes_eqb_true in E; now subst|intros I; exists g; split; [exact I|apply bytes_eqb_refl]].
Qed.

Lemma pp_ifndef ev m o file : pp_line ev (PS XText m o) (b "#ifndef " ++ guard_of file) = Some ([], PS XText m (negb (is_defined m (guard_of file)) :: o)).
Proof.
  assert (S : seg (b "#ifndef " ++ guard_of file)) by (pose proof (guard_word file); segs). destruct S as (_ & _ & C & _).
  unfold pp_line. cbn [p_lex p_macros p_open]. unfold lex_line. rewrite C.
  assert (D : directive (b "#ifndef " ++ guard_of file) = Some (b "ifndef", guard_of file)) by reflexivity. rewrite D. rewrite operand_guard. reflexivity.
Qed.
Lemma pp_define ev m o file : pp_line ev (PS XText m o) (b "#define " ++ guard_of file) = Some ([], PS XText (if forallb (fun x => x) o then guard_of file :: m else m) o).
Proof.
  assert (S : seg (b "#define " ++ guard_of file)) by (pose proof (guard_word file); segs). destruct S as (_ & _ & C & _).
  unfold pp_line. cbn [p_lex p_macros p_open]. unfold lex_line. rewrite C.
  assert (D : directive (b "#define " ++ guard_of file) = Some (b "define", guard_of file)) by reflexivity. rewrite D. rewrite operand_guard. reflexivity.
Qed.
Lemma pp_endif ev m x o s : pp_line ev (PS XText m (x :: o)) (b "#endif // " ++ s) = Some ([], PS XText m o).
Proof.
  unfold pp_line. cbn [p_lex p_macros p_open]. 
  assert (E : lex_line XText (b "#endif // " ++ s) = Some (b "#endif  ", XText)).
  { unfold lex_line. change (b "#endif // " ++ s) with (b "#endif " ++ b "//" ++ (b " " ++ s)). rewrite lex_run_app. change (lex_run XText (b "#endif ")) with (b "#endif ", XText). cbn [fst snd].
    rewrite lex_run_app. change (lex_run XText (b "//")) with (b " ", XLine). cbn [fst snd]. rewrite line_absorb. reflexivity. }
  rewrite E. reflexivity.
Qed.

Lemma pp_includes ev m o : pp_lines ev (PS XText m o) standard_includes = Some (if forallb (fun x => x) o then standard_includes else [], PS XText m o).
Proof.
  assert (G : forall l, Forall (fun x => lex_line XText x = Some (x, XText) /\ directive x = Some (b "include", past_blanks (snd (span idchar (skipn 1 x)))) /\ forallb blank x = false) l ->
     pp_lines ev (PS XText m o) l = Some (if forallb (fun x => x) o then l else [], PS XText m o)).
  { induction 1 as [|x l (A & D & B) _ IH]; cbn [pp_lines]; [now destruct (forallb _ o)|]. unfold pp_line. cbn [p_lex p_macros p_open]. rewrite A, D, B. cbn [negb].
    change (bytes_eqb (b "include") (b "ifndef")) with false. change (bytes_eqb (b "include") (b "ifdef")) with false. change (bytes_eqb (b "include") (b "if")) with false.
    change (bytes_eqb (b "include") (b "elif")) with false. change (bytes_eqb (b "include") (b "else")) with false. change (bytes_eqb (b "include") (b "endif")) with false.
    change (bytes_eqb (b "include") (b "define")) with false. change (bytes_eqb (b "include") (b "undef")) with false. cbv iota. rewrite IH. cbn [option_map fst snd]. unfold processing. cbn [p_open].
    rewrite andb_true_r. now destruct (forallb _ o). }
  apply G. unfold standard_includes. cbn [map]. repeat constructor.
Qed.

Lemma pp_cons ev s x r o s' : pp_line ev s x = Some (o, s') -> pp_lines ev s (x :: r) = option_map (fun r => (o ++ fst r, snd r)) (pp_lines ev s' r).
Proof. intros E. cbn [pp_lines]. now rewrite E. Qed.
Lemma pp_skip ev s x r s' : pp_line ev s x = Some ([], s') -> pp_lines ev s (x :: r) = pp_lines ev s' r.
Proof. intros E. rewrite (pp_cons ev s x r [] s' E). destruct (pp_lines ev s' r) as [(o, t)|]; reflexivity. Qed.

(** What follows the runtime headers. *)
Lemma pp_own ev m ver file cs : ~ In LF ver -> ~ In "?"%char ver -> ~ In LF file -> tidy cs ->
  let G := guard_of file in
  preprocess ev m (head_text ver file G ++ cs ++ ln (b "#endif // " ++ G)) =
  Some (if is_defined m G then [] else standard_includes ++ flat_map kept (logical_lines cs), if is_defined m G then m else G :: m).
Proof.
  intros V1 V2 F T G. unfold preprocess, head_text. rewrite <- !app_assoc. rewrite logical_plains by reflexivity. rewrite license_lines.
  rewrite logical_line; [| | |].
  2:{ rewrite !in_app_iff. intros [I|[I|I]]; [revert I; cbv; intuition discriminate|auto|revert I; cbv; intuition discriminate]. }
  2:{ intros x. rewrite <- !app_assoc. rewrite (steady (b "// Generated by the protogen ")) by not_in. rewrite (steady ver V2). rewrite (steady (b " <https://github.com/brunexgeek/protogen>")) by not_in. reflexivity. }
  2:{ intros w E. rewrite app_assoc in E. change (b " <https://github.com/brunexgeek/protogen>") with (b " <https://github.com/brunexgeek/protogen" ++ b ">") in E. rewrite !app_assoc in E. apply app_inj_tail in E as [_ E]. discriminate E. }
  rewrite (pp_skip ev _ _ _ _ (pp_comment ev m [] (b " Generated by the protogen " ++ ver ++ b " <https://github.com/brunexgeek/protogen>"))).
  pose proof (guard_word file) as W. fold G in W.
  match goal with |- context [logical_lines (ln (b "// Source: " ++ file) ++ [LF] ++ ?r)] => set (rest := r) end.
  assert (E : pp_lines ev (PS XText m []) (logical_lines (ln (b "// Source: " ++ file) ++ [LF] ++ rest)) = pp_lines ev (PS XText m []) (logical_lines rest)).
  { destruct (source_line file rest F) as (s & [-> | ->]); rewrite (pp_skip ev _ _ _ _ (pp_comment ev m [] s)); [reflexivity|]. apply pp_skip, pp_blank. }
  rewrite E. clear E. unfold rest. clear rest. rewrite logical_seg by segs. rewrite (pp_skip ev _ _ _ _ (pp_ifndef ev m [] file)). fold G.
  rewrite logical_seg by segs. rewrite (pp_skip ev _ _ _ _ (pp_define ev m _ file)). fold G. set (m1 := if forallb _ _ then G :: m else m).
  change ([LF] ++ ?x) with (ln [] ++ x).
  assert (B : forall x, logical_lines ([LF] ++ x) = [] :: logical_lines x) by (intros x; apply (logical_seg []); now apply segb_ok). rewrite B. rewrite (pp_skip ev _ _ _ _ (pp_blank ev m1 _)).
  assert (INC : forall x, logical_lines (concat (map (fun h => ln (b "#include <" ++ h ++ b ">")) [b "string"; b "stdint.h"; b "iterator"; b "sstream"; b "iostream"; b "vector"; b "list"; b "utility"; b "stdexcept"; b "forward_list"]) ++ x)
     = standard_includes ++ logical_lines x).
  { intros x. rewrite <- (map_map (fun h => b "#include <" ++ h ++ b ">") ln). apply logical_plains. reflexivity. }
  rewrite INC, pp_lines_app, pp_includes. rewrite logical_app by now apply tidy_ends. rewrite pp_lines_app, (tidy_pp ev m1 _ cs T).
  assert (Z : logical_lines (ln (b "#endif // " ++ G)) = [b "#endif // " ++ G]).
  { rewrite <- (app_nil_r (ln _)). rewrite logical_line; [reflexivity| | |].
    - rewrite in_app_iff. pose proof (seg_word _ W) as (N & _). intros [I|I]; [revert I; cbv; intuition discriminate|auto].
    - intros x. rewrite <- app_assoc. rewrite (steady (b "#endif // ")) by not_in. pose proof (seg_word _ W) as (_ & N & _). now rewrite N.
    - intros w Q. pose proof (seg_word _ W) as (_ & _ & _ & N). assert (Y : G = removelast G ++ [last G NUL]) by (apply app_removelast_last; discriminate). rewrite Y, app_assoc in Q.
      apply app_inj_tail in Q as [_ Q]. rewrite Q in Y. exact (N _ Y). }
  rewrite Z. cbn [pp_lines]. rewrite pp_endif. cbn [option_map fst snd app]. unfold m1. cbn [forallb]. destruct (is_defined m G); cbn [negb andb app]; [reflexivity|]. now rewrite !app_nil_r.
Qed.
