(** Preprocessing of the generated text: lines, literals, comments. *)
From Coq Require Import Lia.
From Verif Require Import Bytes BaseProofs Num Types SpecProto SpecTemplate Template Cpp TemplateProofs SpecPrint SpecCpp Unit.

(** ** Composition *)
Lemma pp_lines_app ev l m s : pp_lines ev s (l ++ m) =
  match pp_lines ev s l with
  | Some (o, s') => option_map (fun r => (o ++ fst r, snd r)) (pp_lines ev s' m)
  | None => None
  end.
Proof.
  revert s. induction l as [|x l IH]; intros s; cbn [app pp_lines].
  - destruct (pp_lines ev s m) as [(o, s')|]; reflexivity.
  - destruct (pp_line ev s x) as [(o, s1)|]; [|reflexivity]. rewrite IH. destruct (pp_lines ev s1 l) as [(o2, s2)|]; [|reflexivity]. cbn [option_map fst snd].
    destruct (pp_lines ev s2 m) as [(o3, s3)|]; cbn [option_map fst snd]; [|reflexivity]. now rewrite app_assoc.
Qed.

(** Text that ends with a line feed, not spliced. *)
Definition ends_line (t : bytes) : Prop := t = [] \/ exists u, t = u ++ [LF] /\ forall w, trigraphs 0 u <> w ++ ["\"%char].

Lemma tri_lf u v : trigraphs 0 (u ++ LF :: v) = trigraphs 0 u ++ LF :: trigraphs 0 v.
Proof. apply (tri_cut LF); [discriminate|reflexivity|lia]. Qed.

Lemma splice_cut v : forall n u, (length u <= n)%nat -> (forall w, u <> w ++ ["\"%char]) -> splice (u ++ LF :: v) = splice (u ++ [LF]) ++ splice v.
Proof.
  induction n as [|n IH]; intros u L N.
  - destruct u; [|cbn in L; lia]. cbn [app splice]. destruct v; [reflexivity|]. change (Ascii.eqb LF "\") with false. reflexivity.
  - destruct u as [|c u]; [cbn [app splice]; destruct v; [reflexivity|]; change (Ascii.eqb LF "\") with false; reflexivity|].
    destruct u as [|d u].
    + cbn [app]. destruct (Ascii.eqb_spec c "\") as [-> |C]; [destruct (N [] eq_refl)|]. apply Ascii.eqb_neq in C.
      change (splice (c :: LF :: v)) with (if Ascii.eqb c "\" && Ascii.eqb LF LF then splice v else c :: splice (LF :: v)).
      change (splice [c; LF]) with (if Ascii.eqb c "\" && Ascii.eqb LF LF then splice [] else c :: splice [LF]). rewrite C. cbn [andb].
      pose proof (IH [] (Nat.le_0_l _)) as E. cbn [app] in E. cbn [app]. rewrite E by (intros w; destruct w; discriminate). reflexivity.
    + change (splice ((c :: d :: u) ++ LF :: v)) with (if Ascii.eqb c "\" && Ascii.eqb d LF then splice (u ++ LF :: v) else c :: splice ((d :: u) ++ LF :: v)).
      change (splice ((c :: d :: u) ++ [LF])) with (if Ascii.eqb c "\" && Ascii.eqb d LF then splice (u ++ [LF]) else c :: splice ((d :: u) ++ [LF])).
      cbn [length] in L. destruct (Ascii.eqb c "\" && Ascii.eqb d LF).
      * apply IH; [lia|]. intros w E. apply (N (c :: d :: w)). now rewrite E.
      * rewrite (IH (d :: u)); [reflexivity|cbn [length]; lia|]. intros w E. apply (N (c :: w)). cbn [app]. now rewrite E.
Qed.

Lemma getlines_cut u v : forall acc, getlines acc (u ++ LF :: v) = getlines acc (u ++ [LF]) ++ getlines [] v.
Proof.
  induction u as [|c u IH]; intros acc; cbn [app getlines].
  - change (Ascii.eqb LF LF) with true. cbv iota. reflexivity.
  - destruct (Ascii.eqb c LF); [cbn [app]; now rewrite IH|apply IH].
Qed.

Lemma splice_ends u : (forall w, u <> w ++ ["\"%char]) -> exists x, splice (u ++ [LF]) = x ++ [LF].
Proof.
  assert (G : forall n u, (length u <= n)%nat -> (forall w, u <> w ++ ["\"%char]) -> exists x, splice (u ++ [LF]) = x ++ [LF]).
  { induction n as [|n IH]; intros w L N.
    - destruct w; [|cbn in L; lia]. exists []. reflexivity.
    - destruct w as [|c w]; [exists []; reflexivity|]. destruct w as [|d w].
      + cbn [app]. destruct (Ascii.eqb_spec c "\") as [-> |C]; [destruct (N [] eq_refl)|]. apply Ascii.eqb_neq in C. exists [c].
        change (splice [c; LF]) with (if Ascii.eqb c "\" && Ascii.eqb LF LF then splice [] else c :: splice [LF]). rewrite C. reflexivity.
      + change (splice ((c :: d :: w) ++ [LF])) with (if Ascii.eqb c "\" && Ascii.eqb d LF then splice (w ++ [LF]) else c :: splice ((d :: w) ++ [LF])).
        cbn [length] in L. destruct (Ascii.eqb c "\" && Ascii.eqb d LF).
        * apply IH; [lia|]. intros x E. apply (N (c :: d :: x)). now rewrite E.
        * destruct (IH (d :: w)) as (x & X); [cbn [length]; lia| |].
          { intros x E. apply (N (c :: x)). cbn [app]. now rewrite E. }
          exists (c :: x). now rewrite X. }
  intros N. exact (G (length u) u (le_n _) N).
Qed.

Lemma logical_app t r : ends_line t -> logical_lines (t ++ r) = logical_lines t ++ logical_lines r.
Proof.
  intros [-> |(u & -> & N)]; [reflexivity|]. unfold logical_lines. rewrite <- app_assoc. cbn [app]. rewrite !tri_lf. change (trigraphs 0 []) with (@nil ascii).
  rewrite (splice_cut (trigraphs 0 r) _ _ (le_n _) N). destruct (splice_ends _ N) as (x & X). rewrite X, <- app_assoc. cbn [app]. apply getlines_cut.
Qed.

Lemma preprocess_app ev m t r : ends_line t -> preprocess ev m (t ++ r) =
  match preprocess ev m t with
  | Some (o, m') => option_map (fun x => (o ++ fst x, snd x)) (preprocess ev m' r)
  | None => match pp_lines ev (PS XText m []) (logical_lines t) with
            | Some (o, s) => match pp_lines ev s (logical_lines r) with Some (o2, PS XText m2 []) => Some (o ++ o2, m2) | _ => None end
            | None => None
            end
  end.
Proof.
  intros E. unfold preprocess. rewrite (logical_app t r E), pp_lines_app. destruct (pp_lines ev (PS XText m []) (logical_lines t)) as [(o, [lx m' op])|]; [|reflexivity].
  assert (G : option_map (fun r => (o ++ fst r, snd r)) (pp_lines ev (PS lx m' op) (logical_lines r)) =
     match pp_lines ev (PS lx m' op) (logical_lines r) with Some (o2, s2) => Some (o ++ o2, s2) | None => None end)
    by (destruct (pp_lines ev (PS lx m' op) (logical_lines r)) as [(o2, s2)|]; reflexivity).
  rewrite G. destruct lx; try (destruct (pp_lines _ _ (logical_lines r)) as [(o2, [[] m2 [|]])|]; reflexivity).
  destruct op; destruct (pp_lines _ _ (logical_lines r)) as [(o2, [[] m2 [|]])|]; reflexivity.
Qed.

Lemma preprocess_seq ev m t r o m' o2 m2 : ends_line t -> preprocess ev m t = Some (o, m') -> preprocess ev m' r = Some (o2, m2) -> preprocess ev m (t ++ r) = Some (o ++ o2, m2).
Proof. intros E A B. rewrite (preprocess_app ev m t r E), A, B. reflexivity. Qed.

(** ** Pieces of lines: closed literals, no trigraph, no comment *)
Lemma lex_run_app st u v : lex_run st (u ++ v) = (fst (lex_run st u) ++ fst (lex_run (snd (lex_run st u)) v), snd (lex_run (snd (lex_run st u)) v)).
Proof.
  revert st. induction u as [|c u IH]; intros st; cbn [app lex_run fst snd]; [now destruct (lex_run st v)|].
  destruct (lex_step st c) as (o, st1). rewrite IH. destruct (lex_run st1 u) as (o1, st2). cbn [fst snd]. destruct (lex_run st2 v) as (o2, st3). cbn [fst snd]. now rewrite app_assoc.
Qed.

Definition seg (s : bytes) : Prop :=
  ~ In LF s /\ (forall r, trigraphs 0 (s ++ r) = s ++ trigraphs 0 r) /\ lex_run XText s = (s, XText) /\ (forall w, s <> w ++ ["\"%char]).

Lemma seg_app u v : seg u -> seg v -> seg (u ++ v).
Proof.
  intros (A1 & A2 & A3 & A4) (B1 & B2 & B3 & B4). split; [|split; [|split]].
  - rewrite in_app_iff. tauto.
  - intros r. now rewrite <- !app_assoc, A2, B2.
  - rewrite lex_run_app, A3. cbn [fst snd]. now rewrite B3.
  - intros w E. destruct v as [|c v]; [rewrite app_nil_r in E; now apply (A4 w)|].
    assert (X : exists y d, c :: v = y ++ [d]) by (exists (removelast (c :: v)), (last (c :: v) NUL); apply app_removelast_last; discriminate).
    destruct X as (y & d & X). rewrite X, app_assoc in E. apply app_inj_tail in E as [_ ->]. now apply (B4 y).
Qed.

(** Characters of no special meaning. *)
Definition mild (c : ascii) : Prop := c <> LF /\ c <> "?"%char /\ c <> "\"%char /\ c <> "/"%char /\ c <> """"%char /\ c <> "'"%char.

Lemma mild_step c : mild c -> lex_text c = ([c], XText).
Proof.
  intros (_ & _ & _ & D & E & F). unfold lex_text. apply Ascii.eqb_neq in D, E, F. now rewrite D, E, F.
Qed.

Lemma seg_mild s : Forall mild s -> seg s.
Proof.
  intros F. split; [|split; [|split]].
  - intros I. rewrite Forall_forall in F. now destruct (F _ I) as (X & _).
  - intros r. induction F as [|c s C _ IH]; [reflexivity|]. cbn [app trigraphs]. destruct C as (_ & C & _). apply Ascii.eqb_neq in C. rewrite C. destruct (trigraph c); cbn [repeat app]; now rewrite IH.
  - induction F as [|c s C _ IH]; [reflexivity|]. cbn [lex_run lex_step]. rewrite (mild_step c C), IH. reflexivity.
  - intros w E. rewrite Forall_forall in F. destruct (F "\"%char) as (_ & _ & X & _); [rewrite E; apply in_app_iff; right; now left|]. now apply X.
Qed.

Definition mildb (c : ascii) : bool := negb (existsb (Ascii.eqb c) [LF; "?"; "\"; "/"; """"; "'"]%char).
Lemma mildb_ok s : forallb mildb s = true -> seg s.
Proof.
  intros H. apply seg_mild, Forall_forall. intros c I. rewrite forallb_forall in H. specialize (H c I). unfold mildb in H. apply negb_true_iff in H. cbn [existsb] in H.
  repeat (apply orb_false_iff in H as [? H]). repeat match goal with X : Ascii.eqb _ _ = false |- _ => apply Ascii.eqb_neq in X end. repeat split; assumption.
Qed.

(** Fixed text. *)
Definition segb (s : bytes) : bool :=
  match rev s with
  | [] => true
  | c :: _ => negb (Ascii.eqb c "?") && (negb (existsb (Ascii.eqb "?") s) || match trigraph c with None => true | Some _ => false end) && negb (Ascii.eqb c "\") && bytes_eqb (trigraphs 0 s) s
  end && negb (existsb (Ascii.eqb LF) s) && (let '(o, st) := lex_run XText s in bytes_eqb o s && match st with XText => true | _ => false end).
Lemma steady s : ~ In "?"%char s -> forall r, trigraphs 0 (s ++ r) = s ++ trigraphs 0 r.
Proof.
  intros N r. induction s as [|c s IH]; [reflexivity|]. cbn [app trigraphs]. assert (C : Ascii.eqb c "?" = false) by (apply Ascii.eqb_neq; intros ->; apply N; now left).
  rewrite C. assert (E : trigraphs 0 (s ++ r) = s ++ trigraphs 0 r) by (apply IH; intros X; apply N; now right). destruct (trigraph c); cbn [repeat app]; now rewrite E.
Qed.
Lemma segb_ok s : segb s = true -> seg s.
Proof.
  unfold segb. intros H. apply andb_true_iff in H as [H H3]. apply andb_true_iff in H as [H1 H2]. apply negb_true_iff in H2.
  assert (A : ~ In LF s) by (intros I; apply not_true_iff_false in H2; apply H2, existsb_exists; exists LF; split; [exact I|apply Ascii.eqb_refl]).
  assert (C : lex_run XText s = (s, XText)).
  { destruct (lex_run XText s) as (o, st). apply andb_true_iff in H3 as [H3 H5]. apply bytes_eqb_true in H3. subst. destruct st; try discriminate. reflexivity. }
  destruct (rev s) as [|c u] eqn:R.
  - apply (f_equal (@rev ascii)) in R. rewrite rev_involutive in R. subst. split; [exact A|]. split; [reflexivity|]. split; [reflexivity|]. intros w; destruct w; discriminate.
  - apply (f_equal (@rev ascii)) in R. rewrite rev_involutive in R. cbn [rev] in R. subst.
    apply andb_true_iff in H1 as [H1 H4]. apply andb_true_iff in H1 as [H1 H5]. apply andb_true_iff in H1 as [H1 H6]. apply negb_true_iff in H1, H5. apply Ascii.eqb_neq in H1, H5.
    apply bytes_eqb_true in H4. split; [exact A|]. split; [|split; [exact C|]].
    + intros r. apply orb_true_iff in H6 as [H6|T].
      { apply steady. intros I. apply negb_true_iff, not_true_iff_false in H6. apply H6, existsb_exists. eexists. split; [exact I|apply Ascii.eqb_refl]. }
      assert (T' : trigraph c = None) by (destruct (trigraph c); [discriminate|reflexivity]). clear T. rename T' into T.
      rewrite <- app_assoc. cbn [app]. change (rev u ++ [c]) with (rev u ++ c :: []) in H4. rewrite (tri_cut c H1 T) in H4 by lia. change (trigraphs 0 []) with (@nil ascii) in H4. apply app_inv_tail in H4.
      rewrite (tri_cut c H1 T) by lia. rewrite H4, <- app_assoc. reflexivity.
    + intros w E. apply app_inj_tail in E as [_ E]. auto.
Qed.

(** The text of a string literal. *)
Definition lit_text (s : bytes) : Prop := ~ In LF s /\ no_trigraph s /\ lex_run (XQuote """") s = (s, XQuote """").
Lemma seg_quoted s : lit_text s -> seg (b """" ++ s ++ b """").
Proof.
  intros (A & B & C). split; [|split; [|split]].
  - rewrite !in_app_iff. intros [[X|[]]|[X|[X|[]]]]; [discriminate X|auto|discriminate X].
  - intros r. change (trigraphs 0 ((b """" ++ s ++ b """") ++ r)) with (""""%char :: trigraphs 0 ((s ++ b """") ++ r)). rewrite <- app_assoc. change (b """" ++ r) with (""""%char :: r).
    rewrite (tri_cut """"%char); [|discriminate|reflexivity|lia]. rewrite (trigraphs_id s B).
    change ((b """" ++ s ++ b """") ++ trigraphs 0 r) with (""""%char :: (s ++ b """") ++ trigraphs 0 r). rewrite <- app_assoc. reflexivity.
  - change (b """" ++ s ++ b """") with (""""%char :: s ++ b """"). cbn [lex_run lex_step]. change (lex_text """") with ([""""%char], XQuote """").
    cbv beta iota. rewrite lex_run_app, C. cbn [fst snd]. reflexivity.
  - intros w E. rewrite app_assoc in E. apply app_inj_tail in E as [_ E]. discriminate E.
Qed.

(** ** Lines *)
Definition neat (l : bytes) : Prop :=
  ~ In LF l /\ (forall r, trigraphs 0 (l ++ LF :: r) = l ++ LF :: trigraphs 0 r) /\ (forall w, l <> w ++ ["\"%char]) /\
  exists c, lex_line XText l = Some (c, XText) /\ directive c = None.

Lemma neat_seg l : seg l -> directive l = None -> neat l.
Proof.
  intros (A & B & C & D) E. split; [exact A|]. split; [|split; [exact D|]].
  - intros r. rewrite B. f_equal. 
  - exists l. unfold lex_line. rewrite C. auto.
Qed.

Lemma line_absorb s : lex_run XLine s = ([], XLine).
Proof. induction s as [|c s IH]; [reflexivity|]. cbn [lex_run lex_step]. now rewrite IH. Qed.

(** A line that ends with a comment. *)
Lemma neat_comment l s : seg l -> directive (l ++ b " ") = None -> ~ In LF s -> ~ In "?"%char s -> (forall w, s <> w ++ ["\"%char]) -> neat (l ++ b "//" ++ s).
Proof.
  intros (A & B & C & D) E F Q G. split; [|split; [|split]].
  - rewrite !in_app_iff. intros [X|[[X|[X|[]]]|X]]; try discriminate X; auto.
  - intros r. rewrite <- !app_assoc. rewrite B. rewrite (steady (b "//")) by not_in. now rewrite (steady s Q).
  - intros w X. destruct s as [|c s].
    + rewrite app_nil_r in X. change (b "//") with (b "/" ++ b "/") in X. rewrite app_assoc in X. apply app_inj_tail in X as [_ X]. discriminate X.
    + assert (Y : exists y d, c :: s = y ++ [d]) by (exists (removelast (c :: s)), (last (c :: s) NUL); apply app_removelast_last; discriminate).
      destruct Y as (y & d & Y). rewrite Y, !app_assoc in X. apply app_inj_tail in X as [_ ->]. now apply (G y).
  - exists (l ++ b " "). split; [|exact E]. unfold lex_line. rewrite lex_run_app, C. cbn [fst snd]. change (b "//" ++ s) with ("/"%char :: "/"%char :: s).
    cbn [lex_run lex_step]. change (lex_text "/") with (@nil ascii, XSlash). cbn [lex_step]. change (Ascii.eqb "/" "/") with true. cbv iota. rewrite line_absorb. reflexivity.
Qed.

(** What is kept of a line. *)
Definition kept (l : bytes) : list bytes :=
  match lex_line XText l with Some (c, _) => if forallb blank c then [] else [c] | None => [] end.

Lemma pp_neat ev l m o : neat l -> pp_line ev (PS XText m o) l = Some (if forallb (fun x => x) o then kept l else [], PS XText m o).
Proof.
  intros (_ & _ & _ & c & E & D). unfold pp_line, kept, processing. cbn [p_lex p_macros p_open]. rewrite E, D.
  destruct (forallb (fun x => x) o); cbn [andb]; [|reflexivity]. destruct (forallb blank c); reflexivity.
Qed.

Lemma pp_neats ev ls m o : Forall neat ls -> pp_lines ev (PS XText m o) ls = Some (if forallb (fun x => x) o then flat_map kept ls else [], PS XText m o).
Proof.
  induction 1 as [|l ls L _ IH]; cbn [pp_lines flat_map]; [now destruct (forallb _ o)|]. rewrite (pp_neat ev l m o L), IH. cbn [option_map fst snd]. now destruct (forallb _ o).
Qed.

(** Text made of neat lines. *)
Definition tidy (t : bytes) : Prop := exists ls, t = concat (map ln ls) /\ Forall neat ls.
Lemma tidy_nil : tidy [].
Proof. exists []. split; constructor. Qed.
Lemma tidy_ln l : neat l -> tidy (ln l).
Proof. intros N. exists [l]. split; [cbn [map concat]; now rewrite app_nil_r|now constructor]. Qed.
Lemma tidy_app t r : tidy t -> tidy r -> tidy (t ++ r).
Proof. intros (l & -> & L) (k & -> & K). exists (l ++ k). split; [now rewrite map_app, concat_app|now apply Forall_app]. Qed.
Lemma tidy_concat {A} (f : A -> bytes) l : (forall x, In x l -> tidy (f x)) -> tidy (concat (map f l)).
Proof. induction l as [|x l IH]; intros H; [apply tidy_nil|]. cbn [map concat]. apply tidy_app; [apply H; now left|apply IH; intros y Y; apply H; now right]. Qed.

Lemma tidy_ends t : tidy t -> ends_line t.
Proof.
  intros (ls & -> & N). destruct ls as [|x ls] using rev_ind; [now left|]. right. rewrite map_app, concat_app. cbn [map concat]. rewrite app_nil_r. unfold ln at 2. rewrite app_assoc.
  eexists. split; [reflexivity|]. intros w E. apply Forall_app in N as [N1 N2]. inversion N2 as [|? ? (A & B & C & _) _]; subst.
  assert (X : trigraphs 0 x = x).
  { specialize (B []). rewrite tri_lf in B. change (trigraphs 0 []) with (@nil ascii) in B. now apply app_inv_tail in B. }
  assert (Y : trigraphs 0 (concat (map ln ls) ++ x) = concat (map ln ls) ++ x).
  { clear E N2 IHls. induction N1 as [|y l (_ & Y & _) _ IH]; [exact X|]. cbn [map concat]. unfold ln at 1 3. rewrite <- !app_assoc. cbn [app]. now rewrite Y, IH. }
  rewrite Y in E. destruct x as [|c x].
  - rewrite app_nil_r in E. destruct ls as [|y ls] using rev_ind; [destruct w; discriminate|]. rewrite map_app, concat_app in E. cbn [map concat] in E. rewrite app_nil_r in E. unfold ln at 2 in E.
    rewrite app_assoc in E. apply app_inj_tail in E as [_ E]. discriminate E.
  - assert (Z : exists y d, c :: x = y ++ [d]) by (exists (removelast (c :: x)), (last (c :: x) NUL); apply app_removelast_last; discriminate).
    destruct Z as (y & d & Z). rewrite Z, app_assoc in E. apply app_inj_tail in E as [_ ->]. now apply (C y).
Qed.

Lemma logical_neat ls : Forall neat ls -> logical_lines (concat (map ln ls)) = ls.
Proof.
  unfold logical_lines. induction 1 as [|l ls (A & B & C & _) _ IH]; [reflexivity|]. cbn [map concat]. unfold ln at 1. rewrite <- app_assoc. cbn [app].
  rewrite B, splice_line by assumption. rewrite getlines_line by exact A. cbn [rev app]. now rewrite IH.
Qed.

Lemma tidy_pp ev m o t : tidy t -> pp_lines ev (PS XText m o) (logical_lines t) = Some (if forallb (fun x => x) o then flat_map kept (logical_lines t) else [], PS XText m o).
Proof. intros (ls & -> & N). rewrite (logical_neat ls N). now apply pp_neats. Qed.

Lemma tidy_preprocess ev m t : tidy t -> preprocess ev m t = Some (flat_map kept (logical_lines t), m).
Proof. intros T. unfold preprocess. rewrite (tidy_pp ev m [] t T). reflexivity. Qed.
