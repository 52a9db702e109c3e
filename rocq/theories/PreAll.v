(** Headers, one after another, as text: the theorems. *)
From Coq Require Import Lia Permutation.
From Verif Require Import Bytes BaseProofs Num Types ProtoLex ProtoParse SpecProto SpecTemplate Template Cpp Gen MainC TemplateProofs SpecPrint SpecGen SpecCpp SpecFile SpecOpts SpecProgram
  BackProofs BackMore Unit SpecUnit UnitProofs PreProofs PreText PreUnit.

Lemma tri_last c : forall u q, (q <= 2)%nat -> exists x d, trigraphs q (u ++ [c]) = x ++ [d] /\ (d = "\"%char -> c = "\"%char \/ c = "/"%char).
Proof.
  assert (B : trigraphs 0 [c] = [c] \/ c = "?"%char) by (cbn [trigraphs]; destruct (Ascii.eqb_spec c "?"); [now right|left; now destruct (trigraph c)]).
  induction u as [|y u IH]; intros q Q.
  - cbn [app trigraphs]. destruct (Ascii.eqb_spec c "?") as [-> |N].
    + destruct q as [|[|[|q]]]; try lia; cbn [repeat]; [exists [], "?"%char|exists (b "?"), "?"%char|exists (b "??"), "?"%char]; (split; [reflexivity|discriminate]).
    + assert (R : exists x d, repeat "?"%char q ++ [c] = x ++ [d] /\ (d = "\"%char -> c = "\"%char \/ c = "/"%char)) by (exists (repeat "?"%char q), c; auto).
      destruct q as [|[|[|q]]]; try exact R; try lia. destruct (trigraph c) as [d|] eqn:D; [|exact R]. exists [], d. split; [reflexivity|]. intros ->. right.
      revert D. unfold trigraph. destruct (Ascii.eqb_spec c "=") as [_|_]; [discriminate|]. destruct (Ascii.eqb_spec c "/") as [E|_]; [intros _; exact E|].
      repeat (destruct (Ascii.eqb _ _); [discriminate|]). discriminate.
  - cbn [app trigraphs]. destruct (Ascii.eqb y "?").
    + destruct q as [|[|[|q]]]; try lia; [apply IH; lia|apply IH; lia|]. destruct (IH 2%nat ltac:(lia)) as (x & d & E & D). exists ("?"%char :: x), d. now rewrite E.
    + destruct (IH 0%nat ltac:(lia)) as (x & d & E & D).
      assert (R : exists x d, repeat "?"%char q ++ y :: trigraphs 0 (u ++ [c]) = x ++ [d] /\ (d = "\"%char -> c = "\"%char \/ c = "/"%char)).
      { exists (repeat "?"%char q ++ y :: x), d. rewrite E, <- app_assoc. auto. }
      destruct q as [|[|[|q]]]; try exact R; try lia. destruct (trigraph y) as [z|]; [|exact R]. exists (z :: x), d. now rewrite E.
Qed.

Lemma whole_ends t : whole_lines t -> ends_line t.
Proof.
  intros (u & c & -> & C1 & C2). right. exists (u ++ [c]). split; [now rewrite <- app_assoc|]. intros w E. destruct (tri_last c u 0 ltac:(lia)) as (x & d & X & D).
  rewrite X in E. apply app_inj_tail in E as [_ ->]. destruct (D eq_refl); auto.
Qed.

Section Texts.
  Context (ev : list bytes -> bytes -> bool) (names : list bytes).

  (** Several guarded texts. *)
  Lemma guarded_all gs ts : Forall2 (guarded ev names) gs ts -> (forall g, In g gs -> ~ In g names) -> forall m,
    exists out m', preprocess ev m (concat ts) = Some (out, m') /\ (forall g, In g gs -> In g m') /\
      (forall w, ~ In w gs -> ~ In w names -> (In w m' <-> In w m)) /\ (forall w, ~ In w names -> In w m -> In w m') /\
      ((forall g, In g gs -> In g m) -> out = [] /\ m' = m).
  Proof.
    induction 1 as [|g t gs ts (W & K & N) _ IH]; intros D m.
    - exists [], m. repeat split; auto; intros g [].
    - assert (S : exists o1 m1, preprocess ev m t = Some (o1, m1) /\ In g m1 /\ (forall w, w <> g -> ~ In w names -> (In w m1 <-> In w m)) /\ (In g m -> o1 = [] /\ m1 = m)).
      { destruct (in_dec (list_eq_dec ascii_dec) g m) as [I|I].
        - exists [], m. rewrite (K m I). repeat split; auto.
        - destruct (N m I) as (o1 & m1 & E & I1 & X). exists o1, m1. repeat split; auto; try tauto; now apply X. }
      destruct S as (o1 & m1 & E & I1 & X & Z). destruct (IH (fun x I => D x (or_intror I)) m1) as (o2 & m2 & E2 & A2 & X2 & Y2 & Z2).
      exists (o1 ++ o2), m2. cbn [concat]. split; [exact (preprocess_seq ev m t _ _ _ _ _ (whole_ends t W) E E2)|]. split; [|split; [|split]].
      + intros h [<-|I]; [|now apply A2]. apply Y2; [apply D; now left|exact I1].
      + intros w N1 N2. rewrite X2; [|intros I; apply N1; now right|exact N2]. apply X; [intros ->; apply N1; now left|exact N2].
      + intros w N2 I. apply Y2; [exact N2|]. destruct (list_eq_dec ascii_dec w g) as [-> |NE]; [exact I1|]. now apply X.
      + intros A. destruct Z as [-> ->]; [apply A; now left|]. destruct Z2 as [-> ->]; [intros h I; apply A; now right|]. auto.
  Qed.
  Lemma guarded_ends gs ts : Forall2 (guarded ev names) gs ts -> ends_line (concat ts).
  Proof.
    induction 1 as [|g t gs ts (W & _) F IH]; [now left|]. cbn [concat]. destruct IH as [-> |(u & -> & N)]; [rewrite app_nil_r; now apply whole_ends|].
    right. exists (t ++ u). split; [now rewrite app_assoc|]. destruct W as (x & c & -> & C1 & C2). intros w E.
    change (x ++ [c; LF]) with (x ++ [c] ++ [LF]) in E. rewrite <- !app_assoc in E. rewrite app_assoc in E. change ((x ++ [c]) ++ [LF] ++ u) with ((x ++ [c]) ++ LF :: u) in E. rewrite tri_lf in E.
    destruct (trigraphs 0 u) as [|d v] eqn:Q.
    - apply (f_equal (fun l => last l NUL)) in E. rewrite !last_last in E. discriminate E.
    - assert (Y : d :: v = removelast (d :: v) ++ [last (d :: v) NUL]) by (apply app_removelast_last; discriminate). set (p := removelast (d :: v)) in *. set (e := last (d :: v) NUL) in *.
      rewrite Y in E. change (LF :: p ++ [e]) with ((LF :: p) ++ [e]) in E. rewrite app_assoc in E. apply app_inj_tail in E as [_ E]. apply (N p). rewrite ?Q, Y, E. reflexivity.
  Qed.
End Texts.

(** The texts that a header has. *)
Definition chosen {A} (h : headers) (l : list A) : list A :=
  match l with
  | [p; j; a; s; n; t] => [p; j] ++ (if h_array h then [a] else []) ++ (if h_base64 h then [s] else []) ++ (if h_number h then [n] else []) ++ (if h_string h then [t] else [])
  | _ => []
  end.
Lemma chosen_text cfg h : headers_text cfg h = concat (chosen h (runtime_texts cfg)).
Proof.
  unfold headers_text, runtime_texts, chosen. cbn [map]. destruct (h_array h), (h_base64 h), (h_number h), (h_string h); cbn [app concat]; rewrite ?app_nil_r; reflexivity.
Qed.
Lemma chosen_incl {A} h (l : list A) x : In x (chosen h l) -> In x l.
Proof.
  unfold chosen. do 6 (destruct l as [|? l]; [intros []|]). destruct l; [|intros []]. destruct (h_array h), (h_base64 h), (h_number h), (h_string h); cbn [app In]; tauto.
Qed.
Lemma chosen_two {A B} (R : A -> B -> Prop) h l k : Forall2 R l k -> Forall2 R (chosen h l) (chosen h k).
Proof.
  intros F. unfold chosen. do 6 (destruct F as [|? ? ? ? ? F]; [constructor|]). destruct F; [|constructor].
  destruct (h_array h), (h_base64 h), (h_number h), (h_string h); cbn [app]; repeat constructor; assumption.
Qed.

Section Units.
  Context (ev : list bytes -> bytes -> bool) (cfg : build) (srt : list field -> list field) (names gs : list bytes).
  Context (B : build_fine cfg) (S : permutes srt) (RG : runtime_guards ev cfg names gs) (V : version_fine cfg).

  Definition body_of (g : gheader) : list bytes := flat_map kept (logical_lines (classes_text cfg g)).
  Lemma classes_tidy g : Forall class_fine (gh_classes g) -> tidy (classes_text cfg g).
  Proof. intros F. unfold classes_text. apply tidy_concat. intros c I. rewrite Forall_forall in F. apply class_tidy; [apply V|auto]. Qed.

  Lemma guard_other file : ~ In (guard_of file) (names ++ gs).
  Proof. destruct RG as (_ & _ & N). intros I. apply (N _ I). eexists. reflexivity. Qed.

  (** One header. *)
  Lemma header_text s out g m : source_fine s -> ~ In LF (so_path s) -> header_of cfg srt s out g ->
    exists rt m', preprocess ev m (headers_text cfg (gh_headers g)) = Some (rt, m') /\ (In (gh_guard g) m' <-> In (gh_guard g) m) /\
      preprocess ev m out = Some (if is_defined m (gh_guard g) then (rt, m') else (rt ++ standard_includes ++ body_of g, gh_guard g :: m')) /\
      (forall x, In x (chosen (gh_headers g) gs) -> In x m') /\ (forall w, ~ In w names -> In w m -> In w m') /\
      (forall w, ~ In w gs -> ~ In w names -> (In w m' <-> In w m)) /\
      ((forall x, In x (chosen (gh_headers g) gs) -> In x m) -> rt = [] /\ m' = m).
  Proof.
    intros F P H. destruct (source_classes cfg srt s out g B S F H) as [C ->]. destruct H as (_ & G). destruct RG as (R1 & R2 & R3).
    pose proof (chosen_two _ (gh_headers g) _ _ R1) as R. destruct (guarded_all ev names _ _ R (fun x I => R2 x (chosen_incl _ _ _ I)) m) as (rt & m' & E & A1 & A2 & A3 & A4).
    rewrite <- chosen_text in E. exists rt, m'. split; [exact E|].
    assert (GO : In (gh_guard g) m' <-> In (gh_guard g) m).
    { rewrite G. pose proof (guard_other (so_path s)) as N. rewrite in_app_iff in N. apply A2; [intros I; apply chosen_incl in I|]; tauto. }
    split; [exact GO|]. split; [|split; [exact A1|split; [exact A3|split; [intros w N1 N2; apply A2; [intros I; apply N1; now apply chosen_incl in I|exact N2]|exact A4]]]].
    unfold output_text. destruct V as (V1 & V2 & _). pose proof (pp_own ev m' (b_version cfg) (so_path s) (classes_text cfg g) V1 V2 P (classes_tidy g C)) as X. cbv zeta in X.
    assert (L : ends_line (headers_text cfg (gh_headers g))) by (rewrite chosen_text; exact (guarded_ends ev names _ _ R)).
    fold (classes_text cfg g). rewrite (preprocess_seq ev m _ _ _ _ _ _ L E X). rewrite <- G.
    assert (D : is_defined m' (gh_guard g) = is_defined m (gh_guard g)) by (apply eq_true_iff_eq; rewrite !defined_iff; exact GO). rewrite D.
    destruct (is_defined m (gh_guard g)); [now rewrite app_nil_r|reflexivity].
  Qed.
  Lemma header_ends s out g : source_fine s -> header_of cfg srt s out g -> ends_line out.
  Proof.
    intros F H. destruct (source_classes cfg srt s out g B S F H) as [C ->]. right. unfold output_text, ln at 1.
    exists (headers_text cfg (gh_headers g) ++ head_text (b_version cfg) (so_path s) (guard_of (so_path s)) ++ concat (map (class_text (b_naming cfg)) (gh_classes g)) ++ b "#endif // " ++ guard_of (so_path s)).
    split; [now rewrite <- !app_assoc|]. intros w E. pose proof (guard_word (so_path s)) as W. set (x := guard_of (so_path s)) in *.
    assert (Y : x = removelast x ++ [last x NUL]) by (apply app_removelast_last; discriminate).
    assert (L : word_char (last x NUL) = true) by (unfold word in W; rewrite Forall_forall in W; apply W; rewrite Y at 2; apply in_app_iff; right; now left).
    rewrite Y in E. rewrite !app_assoc in E. match type of E with trigraphs 0 (?u ++ [?c]) = _ => destruct (tri_last c u 0 ltac:(lia)) as (v & d & Q & D) end. rewrite Q in E.
    apply app_inj_tail in E as [_ ->]. destruct (D eq_refl) as [X|X]; rewrite X in L; discriminate L.
  Qed.

  (** Headers and their sources. *)
  Notation headed := (headed cfg srt).

  Lemma texts_end ss l : Forall2 headed ss l -> ends_line (concat (map fst l)).
  Proof.
    induction 1 as [|s x ss l (F & P & H) _ IH]; [now left|]. cbn [map concat]. pose proof (header_ends s _ _ F H) as [E|(u & E & N)]; [rewrite E; exact IH|].
    destruct IH as [-> |(v & -> & M)]; [rewrite app_nil_r; right; now exists u|]. right. exists (fst x ++ v). split; [now rewrite app_assoc|]. intros w Q. rewrite E, <- app_assoc in Q. cbn [app] in Q. rewrite tri_lf in Q.
    destruct (trigraphs 0 v) as [|d y] eqn:T.
    - apply (f_equal (fun l => last l NUL)) in Q. rewrite !last_last in Q. discriminate Q.
    - assert (Y : d :: y = removelast (d :: y) ++ [last (d :: y) NUL]) by (apply app_removelast_last; discriminate). set (p := removelast (d :: y)) in *. set (e := last (d :: y) NUL) in *.
      rewrite Y in Q. change (LF :: p ++ [e]) with ((LF :: p) ++ [e]) in Q. rewrite app_assoc in Q. apply app_inj_tail in Q as [_ Q]. apply (M p). rewrite ?T, Y, Q. reflexivity.
  Qed.

  (** What remains defined. *)
  Lemma texts_defined ss l : Forall2 headed ss l -> forall m, exists out m', preprocess ev m (concat (map fst l)) = Some (out, m') /\
    (forall w, ~ In w names -> In w m -> In w m') /\
    forall x, In x l -> In (gh_guard (snd x)) m' /\ forall r, In r (chosen (gh_headers (snd x)) gs) -> In r m'.
  Proof.
    assert (GN : forall file, ~ In (guard_of file) names) by (intros file I; apply (guard_other file), in_app_iff; now left).
    induction 1 as [|s x ss l (F & P & H) Fs IH]; intros m.
    - exists [], m. split; [reflexivity|]. split; [auto|intros x []].
    - destruct (header_text s _ _ m F P H) as (rt & m1 & E & GO & T & A1 & A2 & _). pose proof H as (_ & G).
      set (r := if is_defined m (gh_guard (snd x)) then (rt, m1) else (rt ++ standard_includes ++ body_of (snd x), gh_guard (snd x) :: m1)) in T.
      assert (M1 : In (gh_guard (snd x)) (snd r) /\ (forall w, In w m1 -> In w (snd r))).
      { unfold r. destruct (is_defined m (gh_guard (snd x))) eqn:D; cbn [snd]; [apply defined_iff in D; split; [now apply GO|auto]|split; [now left|now right]]. }
      destruct r as (o1, m2). cbn [snd] in M1. destruct M1 as [M1 M2]. destruct (IH m2) as (o2 & m3 & E3 & K & A). exists (o1 ++ o2), m3. cbn [map concat].
      split; [exact (preprocess_seq ev m _ _ _ _ _ _ (header_ends s _ _ F H) T E3)|]. split; [intros w N I; apply K; [exact N|]; now apply M2, A2|].
      intros y [<-|I]; [|now apply A]. split; [apply K; [rewrite G; apply GN|exact M1]|]. intros z Z. apply K; [destruct RG as (_ & R2 & _); apply R2; now apply chosen_incl in Z|]. now apply M2, A1.
  Qed.

  (** A header that was there already. *)
  Theorem text_twice ss l x m : Forall2 headed ss l -> In x l -> exists out m',
    preprocess ev m (concat (map fst l)) = Some (out, m') /\ preprocess ev m (concat (map fst l) ++ fst x) = Some (out, m').
  Proof.
    intros F I. destruct (texts_defined ss l F m) as (out & m' & E & _ & A). exists out, m'. split; [exact E|].
    destruct (A x I) as (A1 & A2).
    assert (X : exists s, headed s x).
    { clear - F I. induction F as [|s y ss l H F IH]; [destruct I|]. destruct I as [-> |I]; [now exists s|now apply IH]. }
    destruct X as (s & FS & P & H). destruct (header_text s _ _ m' FS P H) as (rt & m1 & _ & _ & T & _ & _ & _ & Z). destruct (Z A2) as [-> ->].
    apply defined_iff in A1. rewrite A1 in T. rewrite (preprocess_seq ev m _ _ _ _ _ _ (texts_end ss l F) E T). now rewrite app_nil_r.
  Qed.

  (** Headers with different guards: every class once, in order. *)
  Theorem text_all ss l m : Forall2 headed ss l -> paths_apart (map so_path ss) -> (forall s, In s ss -> ~ In (guard_of (so_path s)) m) ->
    exists parts m', preprocess ev m (concat (map fst l)) = Some (concat parts, m') /\
      Forall2 (fun x part => exists rt, part = rt ++ standard_includes ++ body_of (snd x)) l parts.
  Proof.
    intros F. revert m. induction F as [|s x ss l (F & P & H) Fs IH]; intros m PA N.
    - exists [], m. split; [reflexivity|constructor].
    - cbn [map paths_apart] in PA. destruct PA as [PA1 PA2]. destruct (header_text s _ _ m F P H) as (rt & m1 & E & GO & T & A1 & A2 & A3 & _). pose proof H as (_ & G).
      assert (D : is_defined m (gh_guard (snd x)) = false) by (apply not_true_iff_false; rewrite defined_iff, G; apply N; now left). rewrite D in T.
      destruct (IH (gh_guard (snd x) :: m1) PA2) as (parts & m2 & E2 & Q).
      + intros s' I J. pose proof (guard_other (so_path s')) as O. rewrite in_app_iff in O. destruct J as [J|J].
        * rewrite G in J. apply guard_alike in J. apply (PA1 (so_path s')); [now apply in_map|exact J].
        * apply A3 in J; [|tauto|tauto]. revert J. apply N. now right.
      + exists ((rt ++ standard_includes ++ body_of (snd x)) :: parts), m2. cbn [map concat]. split; [exact (preprocess_seq ev m _ _ _ _ _ _ (header_ends s _ _ F H) T E2)|].
        constructor; [now exists rt|exact Q].
  Qed.

  Theorem text_one s x m : headed s x -> exists rt m' body,
    preprocess ev m (headers_text cfg (gh_headers (snd x))) = Some (rt, m') /\ (forall n, preprocess ev n (classes_text cfg (snd x)) = Some (body, n)) /\
    (In (gh_guard (snd x)) m -> preprocess ev m (fst x) = Some (rt, m')) /\
    (~ In (gh_guard (snd x)) m -> preprocess ev m (fst x) = Some (rt ++ standard_includes ++ body, gh_guard (snd x) :: m')).
  Proof.
    intros (F & P & H). destruct (header_text s _ _ m F P H) as (rt & m' & E & _ & T & _). exists rt, m', (body_of (snd x)). split; [exact E|].
    split; [intros n; exact (tidy_preprocess ev n _ (classes_tidy _ (proj1 (source_classes cfg srt s _ _ B S F H))))|]. split.
    - intros I. apply defined_iff in I. now rewrite I in T.
    - intros I. rewrite <- defined_iff in I. apply not_true_iff_false in I. now rewrite I in T.
  Qed.

  Theorem text_each ss l m : Forall2 headed ss l -> paths_apart (map so_path ss) -> (forall s, In s ss -> ~ In (guard_of (so_path s)) m) ->
    exists parts m', preprocess ev m (concat (map fst l)) = Some (concat parts, m') /\
      Forall2 (fun x part => exists rt body, part = rt ++ standard_includes ++ body /\ forall n, preprocess ev n (classes_text cfg (snd x)) = Some (body, n)) l parts.
  Proof.
    intros F PA N. destruct (text_all ss l m F PA N) as (parts & m' & E & Q). exists parts, m'. split; [exact E|]. clear - F Q B S V. revert F.
    revert ss. induction Q as [|x part l parts (rt & ->) _ IH]; intros ss F; inversion F as [|s ? ss' ? (F1 & P & H) F2]; subst; constructor; [|exact (IH _ F2)].
    exists rt, (body_of (snd x)). split; [reflexivity|]. intros n. exact (tidy_preprocess ev n _ (classes_tidy _ (proj1 (source_classes cfg srt s _ _ B S F1 H)))).
  Qed.

  Theorem text_body s out g : source_fine s -> header_of cfg srt s out g -> forall m, preprocess ev m (classes_text cfg g) = Some (body_of g, m).
  Proof. intros F H m. destruct (source_classes cfg srt s out g B S F H) as [C _]. exact (tidy_preprocess ev m _ (classes_tidy g C)). Qed.
End Units.
