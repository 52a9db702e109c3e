(** The template tool (C39). *)
From Coq Require Import Lia.
From Verif Require Import Bytes BaseProofs IntProofs SpecProto SpecTemplate Template Cpp.

(** ** Lines *)
Lemma getlines_line l acc r : ~ In LF l -> getlines acc (l ++ LF :: r) = (rev acc ++ l) :: getlines [] r.
Proof.
  revert acc. induction l as [|c l IH]; intros acc H.
  - cbn [app getlines]. change (Ascii.eqb LF LF) with true. cbv iota. now rewrite app_nil_r.
  - cbn [app getlines]. destruct (Ascii.eqb_spec c LF) as [-> |]; [destruct H; now left|].
    rewrite IH by (intros X; apply H; now right). cbn [rev]. now rewrite <- app_assoc.
Qed.

Lemma getlines_last acc l : ~ In LF l -> getlines acc l = [].
Proof.
  revert acc. induction l as [|c l IH]; intros acc H; [reflexivity|]. cbn [getlines].
  destruct (Ascii.eqb_spec c LF) as [-> |]; [destruct H; now left|]. apply IH. intros X. apply H. now right.
Qed.

Lemma getlines_file ls last : Forall line_ok ls -> line_ok last -> getlines [] (file_text ls last) = ls.
Proof.
  intros H L. unfold file_text. induction H as [|l ls X _ IH]; [now apply getlines_last|].
  cbn [map concat]. rewrite <- !app_assoc. change ([LF] ++ concat (map (fun l => l ++ [LF]) ls) ++ last) with (LF :: concat (map (fun l => l ++ [LF]) ls) ++ last).
  rewrite getlines_line by exact X. cbn [rev app]. exact (f_equal (cons l) IH).
Qed.

(** ** Searching *)
Lemma prefixb_spec p s : prefixb p s = true <-> exists r, s = p ++ r.
Proof.
  revert s. induction p as [|x p IH]; intros s; [split; [exists s; reflexivity|reflexivity]|].
  destruct s as [|y s]; cbn [prefixb]; [split; [discriminate|intros (r & H); discriminate]|].
  rewrite andb_true_iff, IH, Ascii.eqb_eq. split.
  - intros (-> & r & ->). exists r. reflexivity.
  - intros (r & H). injection H as -> ->. split; [reflexivity|now exists r].
Qed.

Lemma find_split_some p s u v : find_split p s = Some (u, v) -> s = u ++ p ++ v.
Proof.
  revert u v. induction s as [|c s IH]; intros u v; cbn [find_split].
  - destruct (prefixb p []) eqn:E; [|discriminate]. apply prefixb_spec in E as (r & E). destruct p; [|discriminate]. cbn.
    intros H. injection H as <- <-. reflexivity.
  - destruct (prefixb p (c :: s)) eqn:E.
    + apply prefixb_spec in E as (r & ->). intros H. injection H as <- <-. cbn [app].
      replace (skipn (length p) (p ++ r)) with r; [reflexivity|]. rewrite skipn_app, skipn_all, Nat.sub_diag. reflexivity.
    + destruct (find_split p s) as [[u' v']|] eqn:F; [|discriminate]. intros H. injection H as <- <-. cbn [app].
      f_equal. now apply IH.
Qed.

Lemma find_split_none p s : find_split p s = None <-> ~ occurs p s.
Proof.
  induction s as [|c s IH]; cbn [find_split].
  - destruct (prefixb p []) eqn:E.
    + apply prefixb_spec in E as (r & E). split; [discriminate|]. intros H. destruct H. exists [], r. exact E.
    + split; [|reflexivity]. intros _ (u & v & H). destruct u; [|discriminate]. assert (prefixb p [] = true) by (apply prefixb_spec; now exists v). congruence.
  - destruct (prefixb p (c :: s)) eqn:E.
    + apply prefixb_spec in E as (r & E). split; [discriminate|]. intros H. destruct H. exists [], r. exact E.
    + destruct (find_split p s) as [[u v]|] eqn:F.
      * split; [discriminate|]. intros H. destruct H. apply find_split_some in F. exists (c :: u), v. now rewrite F.
      * split; [|reflexivity]. intros _ (u & v & H). destruct u as [|d u].
        -- assert (prefixb p (c :: s) = true) by (apply prefixb_spec; now exists v). congruence.
        -- injection H as -> ->. apply (proj1 IH eq_refl). now exists u, v.
Qed.

Lemma removed_spec l : removed l = true <-> auto_remove l.
Proof.
  unfold removed, auto_remove. destruct l as [|c r].
  - split; [discriminate|]. intros [(r & H) _]. discriminate H.
  - rewrite andb_true_iff, Ascii.eqb_eq. destruct (find_split (b "AUTO-REMOVE") (c :: r)) as [[u v]|] eqn:F.
    + apply find_split_some in F. split.
      * intros [-> _]. split; [now exists r|now exists u, v].
      * intros [(r' & H) _]. injection H as -> _. auto.
    + apply find_split_none in F. split; [intros [_ H]; discriminate|]. intros [_ H]. contradiction.
Qed.

(** ** Versions *)
Definition quiet (c : ascii) : Prop := c <> "X"%char /\ c <> "Y"%char /\ c <> "Z"%char.

(** What is needed of the version: no X, Y, Z and no underscore at the end. *)
Definition naming_ok (n : bytes) : Prop := exists c d r, n = c :: r ++ [d] /\ quiet c /\ d <> "_"%char /\ Forall quiet (r ++ [d]).

Lemma dec_digit_list x : 0 <= x -> exists r d, dec x = r ++ [d] /\ is_digit d = true /\ forallb is_digit (r ++ [d]) = true.
Proof.
  intros H. unfold dec. rewrite (proj2 (Z.ltb_ge x 0)) by lia. destruct (dec_nat_spec x H) as (_ & D & _).
  pose proof (dec_nat_nonempty x H) as N. destruct (exists_last N) as (r & d & E). rewrite E in *. exists r, d.
  split; [reflexivity|]. split; [|exact D]. rewrite forallb_app in D. apply andb_true_iff in D as [_ D]. cbn in D. now rewrite andb_true_r in D.
Qed.

Lemma digit_quiet c : is_digit c = true -> quiet c.
Proof. intros H. repeat split; intros ->; discriminate H. Qed.

Lemma version_ok n : version_naming n -> naming_ok n.
Proof.
  intros (x & y & z & X & Y & Z & ->). destruct (dec_digit_list z Z) as (r & d & E & D & F).
  destruct (dec_digit_list x X) as (r1 & d1 & E1 & _ & F1). destruct (dec_digit_list y Y) as (r2 & d2 & E2 & _ & F2).
  rewrite E, E1, E2. exists "_"%char, d, ((r1 ++ [d1]) ++ b "_" ++ (r2 ++ [d2]) ++ b "_" ++ r). unfold bytes in *.
  split; [change (b "_") with ["_"%char]; repeat (cbn [app]; rewrite <- ?app_assoc); reflexivity|].
  split; [repeat split; discriminate|]. split; [intros ->; discriminate D|].
  assert (Q : forall l, forallb is_digit l = true -> Forall quiet l).
  { intros l H. rewrite forallb_forall in H. rewrite Forall_forall. intros c C. now apply digit_quiet, H. }
  assert (U : Forall quiet (b "_")) by (repeat constructor; discriminate).
  rewrite <- !app_assoc. apply Forall_app. split; [|apply Forall_app; split; [|apply Forall_app; split; [exact U|apply Forall_app; split; [|apply Forall_app; split; [|apply Forall_app; split; [exact U|]]]]]].
  all: try (apply Q in F1; apply Forall_app in F1 as [F1 F1']; try exact F1; try exact F1').
  all: try (apply Q in F2; apply Forall_app in F2 as [F2 F2']; try exact F2; try exact F2').
  now apply Q.
Qed.

Definition P : bytes := b "_X_Y_Z".

Lemma qeqb c d : c <> d -> Ascii.eqb c d = false.
Proof. apply Ascii.eqb_neq. Qed.

(** No occurrence starts inside the version. *)
Lemma inside_naming s v : s <> [] -> (exists r d, s = r ++ [d] /\ d <> "_"%char /\ Forall quiet (r ++ [d])) -> prefixb P (s ++ v) = false.
Proof.
  intros N (r & d & -> & D & Q). change P with ["_"; "X"; "_"; "Y"; "_"; "Z"]%char. destruct r as [|x r].
  - cbn [app prefixb]. rewrite (qeqb "_" d) by congruence. reflexivity.
  - cbn [app prefixb]. inversion Q as [|? ? _ Q']; subst. destruct r as [|y r]; cbn [app] in *; inversion Q' as [|? ? (Y & _ & _) _]; subst; cbn [prefixb];
    [rewrite (qeqb "X" d) by congruence|rewrite (qeqb "X" y) by congruence]; now rewrite andb_false_r.
Qed.

(** No occurrence crosses the start of the version. *)
Lemma before_naming n s v : naming_ok n -> prefixb P s = false -> prefixb P (s ++ n ++ v) = false.
Proof.
  intros (c & d & r & -> & C & D & Q) H. change P with ["_"; "X"; "_"; "Y"; "_"; "Z"]%char in *. destruct C as (CX & CY & CZ).
  assert (NX : forall x w, quiet x -> exists y z, (r ++ [d]) ++ w = y :: z /\ quiet y).
  { intros _ w _. destruct r as [|y r]; cbn [app] in *; inversion Q; subst; eauto. }
  destruct (NX c v (conj CX (conj CY CZ))) as (y & z & E & (YX & YY & YZ)).
  assert (TL : (c :: r ++ [d]) ++ v = c :: y :: z) by (cbn [app]; now rewrite E). rewrite TL. clear TL.
  destruct s as [|s0 s]; [|destruct s as [|s1 s]; [|destruct s as [|s2 s]; [|destruct s as [|s3 s]; [|destruct s as [|s4 s]; [|destruct s as [|s5 s]]]]]]; cbn [app prefixb] in *;
    rewrite ?(qeqb "X" c), ?(qeqb "Y" c), ?(qeqb "Z" c), ?(qeqb "X" y), ?(qeqb "Y" y), ?(qeqb "Z" y) by congruence;
    rewrite ?andb_false_r; try reflexivity; try exact H.
Qed.

Lemma find_naming n u v : naming_ok n -> ~ occurs P u ->
  find_split P (u ++ n ++ v) = match find_split P v with Some (x, y) => Some (u ++ n ++ x, y) | None => None end.
Proof.
  intros N. induction u as [|c u IH]; intros U.
  - cbn [app]. destruct N as (c & d & r & -> & C & D & Q).
    assert (F : forall s, (exists r d, s = r ++ [d] /\ d <> "_"%char /\ Forall quiet (r ++ [d])) \/ s = [] ->
      find_split P (s ++ v) = match find_split P v with Some (x, y) => Some (s ++ x, y) | None => None end).
    { induction s as [|x s IH]; intros H; [cbn [app]; destruct (find_split P v) as [[? ?]|]; reflexivity|].
      cbn [app find_split]. destruct H as [H|H]; [|discriminate]. pose proof (inside_naming (x :: s) v ltac:(discriminate) H) as I. cbn [app] in I. rewrite I.
      rewrite IH. { destruct (find_split P v) as [[? ?]|]; reflexivity. }
      destruct H as (r' & d' & E & D' & Q'). destruct r' as [|y r']; [right; now injection E|]. injection E as -> ->. left. exists r', d'.
      inversion Q'; subst. auto. }
    apply (F (c :: r ++ [d])). left. exists (c :: r), d. split; [reflexivity|]. split; [exact D|]. cbn [app]. constructor; assumption.
  - cbn [app find_split]. assert (PU : prefixb P (c :: u) = false).
    { destruct (prefixb P (c :: u)) eqn:E; [|reflexivity]. apply prefixb_spec in E as (r & E). destruct U. exists [], r. exact E. }
    pose proof (before_naming n (c :: u) v N PU) as B. cbn [app] in B. rewrite B. rewrite IH.
    + destruct (find_split P v) as [[? ?]|]; reflexivity.
    + intros (x & y & E). apply U. exists (c :: x), y. now rewrite E.
Qed.

(** The separators are found in order. *)
Lemma before_sep s v : prefixb P s = false -> s <> [] -> ~ (exists r, s = P ++ r) -> prefixb P (s ++ P ++ v) = false.
Proof.
  intros H N _. change P with ["_"; "X"; "_"; "Y"; "_"; "Z"]%char in *.
  destruct s as [|s0 s]; [contradiction|]. destruct s as [|s1 s]; [|destruct s as [|s2 s]; [|destruct s as [|s3 s]; [|destruct s as [|s4 s]; [|destruct s as [|s5 s]]]]]; cbn [app prefixb] in *;
    try reflexivity; rewrite ?andb_false_r; try reflexivity; try exact H.
Qed.

Lemma find_sep u v : ~ occurs P u -> find_split P (u ++ P ++ v) = Some (u, v).
Proof.
  induction u as [|c u IH]; intros U.
  - cbn [app]. change (P ++ v) with ("_"%char :: (["X"; "_"; "Y"; "_"; "Z"]%char ++ v)). cbn [find_split].
    change ("_"%char :: (["X"; "_"; "Y"; "_"; "Z"]%char ++ v)) with (P ++ v).
    assert (E : prefixb P (P ++ v) = true) by (apply prefixb_spec; now exists v). rewrite E. reflexivity.
  - cbn [app find_split]. assert (PU : prefixb P (c :: u) = false).
    { destruct (prefixb P (c :: u)) eqn:E; [|reflexivity]. apply prefixb_spec in E as (r & E). destruct U. exists [], r. exact E. }
    assert (B := before_sep (c :: u) v PU ltac:(discriminate)). cbn [app] in B. rewrite B.
    + rewrite IH; [reflexivity|]. intros (x & y & E). apply U. exists (c :: x), y. now rewrite E.
    + intros (r & E). apply U. exists [], r. exact E.
Qed.

(** Replacing: [done] is the part already handled. *)
Definition settled (done : bytes) : Prop :=
  forall w, find_split P (done ++ w) = match find_split P w with Some (x, y) => Some (done ++ x, y) | None => None end.

Lemma settled_nil : settled [].
Proof. intros w. cbn [app]. destruct (find_split P w) as [[? ?]|]; reflexivity. Qed.

Lemma settled_step naming done u : naming_ok naming -> settled done -> ~ occurs P u -> settled (done ++ u ++ naming).
Proof.
  intros N D U w. rewrite <- !app_assoc. rewrite D, find_naming by assumption.
  destruct (find_split P w) as [[? ?]|]; [|reflexivity]. now rewrite <- !app_assoc.
Qed.

Lemma replace_join naming us : naming_ok naming -> us <> [] -> Forall (fun u => ~ occurs P u) us -> forall n done,
  (length us <= n)%nat -> settled done -> replace_all n naming (done ++ join P us) = Some (done ++ join naming us).
Proof.
  intros N NE F. induction us as [|u us IH]; [contradiction|]. inversion F as [|? ? U F']; subst. intros n done L D.
  destruct n as [|n]; [cbn in L; lia|]. cbn [replace_all]. fold P. rewrite D.
  destruct us as [|u' us].
  - cbn [join]. apply find_split_none in U. now rewrite U.
  - change (join P (u :: u' :: us)) with (u ++ P ++ join P (u' :: us)). change (join naming (u :: u' :: us)) with (u ++ naming ++ join naming (u' :: us)).
    rewrite find_sep by exact U.
    specialize (IH ltac:(discriminate) F' n (done ++ u ++ naming) ltac:(cbn in L |- *; lia) (settled_step _ _ _ N D U)).
    rewrite <- !app_assoc in IH. rewrite <- !app_assoc. exact IH.
Qed.

Lemma join_length us : (length us <= S (length (join P us)))%nat.
Proof.
  induction us as [|u us IH]; [cbn; lia|]. destruct us as [|u' us]; [cbn; lia|].
  change (join P (u :: u' :: us)) with (u ++ P ++ join P (u' :: us)). rewrite !app_length. change (length P) with 6%nat. cbn [length] in *. lia.
Qed.

(** Every line has its replacement. *)
Lemma split_all line : exists us, us <> [] /\ Forall (fun u => ~ occurs P u) us /\ line = join P us.
Proof.
  assert (G : forall n l, (length l < n)%nat -> exists us, us <> [] /\ Forall (fun u => ~ occurs P u) us /\ l = join P us).
  { induction n as [|n IH]; intros l L; [lia|]. destruct (find_split P l) as [[u v]|] eqn:E.
    - assert (U : ~ occurs P u).
      { clear IH L. revert u v E. induction l as [|c l IHl]; intros u v; cbn [find_split].
        - discriminate.
        - destruct (prefixb P (c :: l)) eqn:EP.
          + intros H. injection H as <- _. intros (x & y & H). destruct x; discriminate H.
          + destruct (find_split P l) as [[u' v']|] eqn:F; [|discriminate]. intros H. injection H as <- <-. specialize (IHl _ _ eq_refl).
            intros (x & y & H). destruct x as [|d x].
            * assert (prefixb P (c :: l) = true); [|congruence]. apply prefixb_spec. apply find_split_some in F. rewrite F.
              exists (y ++ P ++ v'). rewrite app_comm_cons. rewrite H. cbn [app]. now rewrite <- !app_assoc.
            * injection H as -> H. apply IHl. exists x, y. exact H. }
      apply find_split_some in E. destruct (IH v) as (us & N & F & ->); [rewrite E, !app_length in L; change (length P) with 6%nat in L; lia|].
      exists (u :: us). split; [discriminate|]. split; [now constructor|]. rewrite E. destruct us; [contradiction|reflexivity].
    - apply find_split_none in E. exists [l]. split; [discriminate|]. split; [now constructor|reflexivity]. }
  apply (G (S (length line))). lia.
Qed.

Theorem replace_exact naming n line : version_naming naming -> (length line < n)%nat ->
  exists x, replace_all n naming line = Some x /\ versioned naming line x.
Proof.
  intros V L. destruct (split_all line) as (us & N & F & ->). exists (join naming us). split.
  - pose proof (replace_join naming us (version_ok _ V) N F n [] ltac:(pose proof (join_length us); lia) settled_nil) as R. exact R.
  - exists us. auto.
Qed.

Lemma versioned_unique naming line x y : version_naming naming -> versioned naming line x -> versioned naming line y -> x = y.
Proof.
  intros V (us & N & F & -> & ->) (vs & N' & F' & E & ->).
  pose proof (replace_join naming us (version_ok _ V) N F (S (length (join P us))) [] (join_length us) settled_nil) as R.
  pose proof (replace_join naming vs (version_ok _ V) N' F' (S (length (join P us))) []) as R'. cbn [app] in R, R'.
  change (b "_X_Y_Z") with P in *. rewrite E in R at 2. rewrite R' in R; [now injection R| |apply settled_nil].
  rewrite E. apply join_length.
Qed.

(** ** Trigraphs *)
Lemma trigraph_in c d : trigraph c = Some d -> In c (b "=/'()!<>-").
Proof.
  unfold trigraph. intros H.
  repeat match type of H with (if Ascii.eqb c ?x then _ else _) = _ => destruct (Ascii.eqb_spec c x) as [-> |]; [vm_compute; tauto|] end.
  discriminate H.
Qed.

Lemma tri_id s : forall q, (q <= 2)%nat -> no_trigraph (repeat "?"%char q ++ s) -> trigraphs q s = repeat "?"%char q ++ s.
Proof.
  induction s as [|c s IH]; intros q Q H; cbn [trigraphs].
  - now rewrite app_nil_r.
  - destruct (Ascii.eqb_spec c "?") as [-> |N].
    + destruct q as [|[|[|q]]]; [| | |lia].
      * rewrite IH by (lia || exact H). reflexivity.
      * rewrite IH by (lia || exact H). reflexivity.
      * rewrite IH; [reflexivity|lia|]. intros u d v E. apply (H ("?"%char :: u) d v). cbn [repeat app] in *. now rewrite E.
    + assert (R : trigraphs 0 s = s).
      { rewrite IH; [reflexivity|lia|]. intros u d v E. apply (H (repeat "?"%char q ++ c :: u) d v). rewrite <- app_assoc. cbn [repeat app] in *. now rewrite E. }
      rewrite R. destruct (trigraph c) as [d|] eqn:T; destruct q as [|[|[|q]]]; try reflexivity; try lia.
      apply trigraph_in in T. exfalso. exact (H [] c s eq_refl T).
Qed.

Lemma trigraphs_id s : no_trigraph s -> trigraphs 0 s = s.
Proof. intros H. rewrite (tri_id s 0); [reflexivity|lia|exact H]. Qed.

(** A character that is neither '?' nor the end of a trigraph. *)
Lemma tri_cut c : c <> "?"%char -> trigraph c = None -> forall u q v, (q <= 2)%nat -> trigraphs q (u ++ c :: v) = trigraphs q u ++ c :: trigraphs 0 v.
Proof.
  intros N T. induction u as [|x u IH]; intros q v Q; cbn [app trigraphs].
  - rewrite (proj2 (Ascii.eqb_neq c "?") N), T. destruct q as [|[|[|q]]]; reflexivity.
  - destruct (Ascii.eqb_spec x "?") as [-> |NX].
    + destruct q as [|[|[|q]]]; [rewrite IH by lia; reflexivity| rewrite IH by lia; reflexivity| |lia]. rewrite IH by lia. reflexivity.
    + destruct q as [|[|[|q]]]; try lia; destruct (trigraph x); rewrite IH by lia; reflexivity.
Qed.

Lemma no_trigraph_tail c s : no_trigraph (c :: s) -> no_trigraph s.
Proof. intros H u d v E. apply (H (c :: u) d v). now rewrite E. Qed.

(** Escaping adds no trigraph. *)
Lemma tri_escape s : forall q, (q <= 2)%nat -> no_trigraph (repeat "?"%char q ++ s) -> trigraphs q (escape s) = repeat "?"%char q ++ escape s.
Proof.
  unfold escape. induction s as [|c s IH]; intros q Q H; cbn [map concat].
  - cbn [trigraphs]. now rewrite app_nil_r.
  - assert (R : c <> "?"%char -> trigraphs 0 (concat (map escape_char s)) = concat (map escape_char s)).
    { intros _. rewrite IH; [reflexivity|lia|]. intros u d v E. apply (H (repeat "?"%char q ++ c :: u) d v). rewrite <- app_assoc. cbn [repeat app] in *. now rewrite E. }
    unfold escape_char at 1 3. destruct (Ascii.eqb_spec c """") as [-> |N1]; [|destruct (Ascii.eqb_spec c "\") as [-> |N2]].
    + specialize (R ltac:(discriminate)). change (b "\""" ++ concat (map escape_char s)) with ([] ++ "\"%char :: [] ++ """"%char :: concat (map escape_char s)).
      rewrite tri_cut by (lia || discriminate || reflexivity). rewrite tri_cut by (lia || discriminate || reflexivity). rewrite R. cbn [app trigraphs repeat]. reflexivity.
    + specialize (R ltac:(discriminate)). change (b "\\" ++ concat (map escape_char s)) with ([] ++ "\"%char :: [] ++ "\"%char :: concat (map escape_char s)).
      rewrite tri_cut by (lia || discriminate || reflexivity). rewrite tri_cut by (lia || discriminate || reflexivity). rewrite R. cbn [app trigraphs repeat]. reflexivity.
    + cbn [app trigraphs]. destruct (Ascii.eqb_spec c "?") as [-> |N].
      * destruct q as [|[|[|q]]]; [| | |lia].
        -- rewrite IH by (lia || exact H). reflexivity.
        -- rewrite IH by (lia || exact H). reflexivity.
        -- rewrite IH; [reflexivity|lia|]. intros u d v E. apply (H ("?"%char :: u) d v). cbn [repeat app] in *. now rewrite E.
      * rewrite (R N). destruct (trigraph c) as [d|] eqn:T; destruct q as [|[|[|q]]]; try reflexivity; try lia.
        apply trigraph_in in T. exfalso. exact (H [] c s eq_refl T).
Qed.

Lemma tri_literal x t : no_trigraph x -> trigraphs 0 (literal_line x ++ t) = literal_line x ++ trigraphs 0 t.
Proof.
  intros H. unfold literal_line. rewrite <- !app_assoc.
  change (b "    """ ++ escape x ++ b "\n"" \" ++ [LF] ++ t) with ((b "    ") ++ """"%char :: (escape x ++ "\"%char :: (b "n"" ") ++ "\"%char :: [] ++ LF :: t)).
  rewrite tri_cut by (lia || discriminate || reflexivity). rewrite tri_cut by (lia || discriminate || reflexivity). rewrite tri_cut by (lia || discriminate || reflexivity).
  rewrite tri_cut by (lia || discriminate || reflexivity). pose proof (tri_escape x 0 ltac:(lia) H) as E. cbn [repeat app] in E. rewrite E. reflexivity.
Qed.

(** ** Line splicing *)
Lemma splice_join u v : ~ In LF u -> splice (u ++ "\"%char :: LF :: v) = u ++ splice v.
Proof.
  induction u as [|c u IH]; intros H.
  - reflexivity.
  - specialize (IH (fun X => H (or_intror X))). destruct u as [|d u].
    + cbn [app] in *. cbn [splice]. cbn [splice] in IH. rewrite IH. change (Ascii.eqb "\" LF) with false. rewrite andb_false_r. reflexivity.
    + cbn [app] in *. remember (d :: u ++ "\"%char :: LF :: v) as r eqn:R. cbn [splice]. rewrite R at 1.
      destruct (Ascii.eqb_spec d LF) as [-> |_]; [destruct H; right; now left|]. rewrite andb_false_r. now rewrite IH.
Qed.

Lemma splice_line u v : ~ In LF u -> (forall w, u <> w ++ ["\"%char]) -> splice (u ++ LF :: v) = u ++ LF :: splice v.
Proof.
  induction u as [|c u IH]; intros H N.
  - cbn [app splice]. destruct v; [reflexivity|]. change (Ascii.eqb LF "\") with false. reflexivity.
  - assert (IH' : splice (u ++ LF :: v) = u ++ LF :: splice v).
    { apply IH; [intros X; apply H; now right|]. intros w E. apply (N (c :: w)). now rewrite E. }
    destruct u as [|d u].
    + cbn [app] in *. remember (LF :: v) as r eqn:R. cbn [splice]. rewrite R at 1. change (Ascii.eqb LF LF) with true. rewrite andb_true_r.
      destruct (Ascii.eqb_spec c "\") as [-> |_]; [destruct (N []); reflexivity|]. rewrite IH'. reflexivity.
    + cbn [app] in *. remember (d :: u ++ LF :: v) as r eqn:R. cbn [splice]. rewrite R at 1.
      destruct (Ascii.eqb_spec d LF) as [-> |_]; [destruct H; right; now left|]. rewrite andb_false_r. now rewrite IH'.
Qed.

Lemma escape_no_lf x : ~ In LF x -> ~ In LF (escape x).
Proof.
  intros H X. unfold escape in X. apply in_concat in X as (y & Y & I). apply in_map_iff in Y as (c & <- & C). unfold escape_char in I.
  destruct (Ascii.eqb c """"); [vm_compute in I; repeat (destruct I as [I|I]; [discriminate I|]); exact I|].
  destruct (Ascii.eqb c "\"); [vm_compute in I; repeat (destruct I as [I|I]; [discriminate I|]); exact I|].
  destruct I as [I|[]]. subst. auto.
Qed.

Definition literal (x : bytes) : bytes := b "    """ ++ escape x ++ b "\n"" ".

Lemma no_lf_app (u v : bytes) : ~ In LF u -> ~ In LF v -> ~ In LF (u ++ v).
Proof. intros U V X. apply in_app_iff in X as [X|X]; auto. Qed.

Ltac not_in := let H := fresh in intros H; vm_compute in H; repeat (destruct H as [H|H]; [discriminate H|]); exact H.

Lemma literal_no_lf x : ~ In LF x -> ~ In LF (literal x).
Proof. intros H. unfold literal. apply no_lf_app; [not_in|]. apply no_lf_app; [now apply escape_no_lf|not_in]. Qed.

Lemma splice_literal x t : ~ In LF x -> splice (literal_line x ++ t) = literal x ++ splice t.
Proof.
  intros H. rewrite <- splice_join by now apply literal_no_lf. f_equal. unfold literal_line, literal. rewrite <- !app_assoc. reflexivity.
Qed.

(** ** Values of the literals *)
Lemma literals_escape x t : ~ In LF x -> literals (Some LText) (escape x ++ t) = option_map (app x) (literals (Some LText) t).
Proof.
  unfold escape. induction x as [|c x IH]; intros H.
  - cbn [map concat app]. destruct (literals (Some LText) t); reflexivity.
  - specialize (IH (fun X => H (or_intror X))). cbn [map concat]. rewrite <- app_assoc. unfold escape_char at 1.
    destruct (Ascii.eqb_spec c """") as [-> |N1]; [|destruct (Ascii.eqb_spec c "\") as [-> |N2]].
    + change (b "\""" ++ concat (map escape_char x) ++ t) with ("\"%char :: """"%char :: concat (map escape_char x) ++ t). cbn [literals].
      change (Ascii.eqb "\" """") with false. change (Ascii.eqb """" """") with true. cbn [andb].
      change (lit_step LText "\") with (Some ([] : bytes, LEsc)). cbv iota beta. change (lit_step LEsc """") with (Some ([""""%char], LText)). cbv iota beta. rewrite IH.
      destruct (literals (Some LText) t); reflexivity.
    + change (b "\\" ++ concat (map escape_char x) ++ t) with ("\"%char :: "\"%char :: concat (map escape_char x) ++ t). cbn [literals].
      change (Ascii.eqb "\" """") with false. cbn [andb].
      change (lit_step LText "\") with (Some ([] : bytes, LEsc)). cbv iota beta. change (lit_step LEsc "\") with (Some (["\"%char], LText)). cbv iota beta. rewrite IH.
      destruct (literals (Some LText) t); reflexivity.
    + cbn [app literals]. rewrite (proj2 (Ascii.eqb_neq c """") N1). cbn [andb]. unfold lit_step, text_step.
      rewrite (proj2 (Ascii.eqb_neq c """") N1), (proj2 (Ascii.eqb_neq c "\") N2).
      destruct (Ascii.eqb_spec c LF) as [-> |_]; [destruct H; now left|]. cbn [orb]. rewrite IH. destruct (literals (Some LText) t); reflexivity.
Qed.

Lemma literals_literal x t : ~ In LF x -> literals None (literal x ++ t) = option_map (fun v => x ++ [LF] ++ v) (literals None t).
Proof.
  intros H. unfold literal. rewrite <- !app_assoc. change (b "    """ ++ escape x ++ b "\n"" " ++ t) with (b "    " ++ """"%char :: escape x ++ b "\n"" " ++ t).
  change (literals None (b "    " ++ """"%char :: escape x ++ b "\n"" " ++ t)) with (literals (Some LText) (escape x ++ b "\n"" " ++ t)).
  rewrite literals_escape by exact H. change (literals (Some LText) (b "\n"" " ++ t)) with (option_map (app ([] : bytes)) (option_map (app [LF]) (match Some [] : option bytes, literals None t with Some x, Some y => Some (x ++ y) | _, _ => None end))).
  destruct (literals None t); reflexivity.
Qed.

Lemma literals_all xs : Forall line_ok xs -> forall t, literals None (concat (map literal xs) ++ t) = option_map (app (concat (map (fun x => x ++ [LF]) xs))) (literals None t).
Proof.
  induction 1 as [|x xs H _ IH]; intros t; cbn [map concat].
  - cbn [app]. destruct (literals None t); reflexivity.
  - rewrite <- app_assoc. rewrite literals_literal by exact H. rewrite IH. destruct (literals None t); [|reflexivity]. cbn [option_map]. unfold bytes. now rewrite <- !app_assoc.
Qed.

(** ** One macro *)
Lemma macro_no c name : macro_name name -> ~ macro_char c -> ~ In c name.
Proof. intros H N I. unfold macro_name in H. rewrite Forall_forall in H. auto. Qed.

Ltac no_macro := let H := fresh in intros [H|H]; [discriminate H|change (code _) with 0 in H || idtac; vm_compute in H; intuition congruence].

Lemma macro_not_lf : ~ macro_char LF.
Proof. intros [H|[H|H]]; [discriminate H| |]; vm_compute in H; destruct H as [H1 H2]; try (now apply H1); now apply H2. Qed.
Lemma macro_not_space : ~ macro_char " ".
Proof. intros [H|[H|H]]; [discriminate H| |]; vm_compute in H; destruct H as [H1 H2]; try (now apply H1); now apply H2. Qed.
Lemma macro_not_quest : ~ macro_char "?".
Proof. intros [H|[H|H]]; [discriminate H| |]; vm_compute in H; destruct H as [H1 H2]; try (now apply H1); now apply H2. Qed.

Lemma no_quest s : ~ In "?"%char s -> no_trigraph s.
Proof. intros H u c v E. destruct H. rewrite E. apply in_or_app. right. apply in_or_app. left. now left. Qed.

Lemma tri_define name t : macro_name name ->
  trigraphs 0 (b "#define " ++ name ++ b " \" ++ [LF] ++ t) = b "#define " ++ name ++ b " \" ++ [LF] ++ trigraphs 0 t.
Proof.
  intros H. change (b "#define " ++ name ++ b " \" ++ [LF] ++ t) with ((b "#define") ++ " "%char :: (name ++ " "%char :: [] ++ "\"%char :: [] ++ LF :: t)).
  rewrite !tri_cut by (lia || discriminate || reflexivity). rewrite (trigraphs_id name); [reflexivity|]. apply no_quest. apply macro_no; [exact H|apply macro_not_quest].
Qed.

Lemma splice_define name t : macro_name name ->
  splice (b "#define " ++ name ++ b " \" ++ [LF] ++ t) = b "#define " ++ name ++ b " " ++ splice t.
Proof.
  intros H. change (b "#define " ++ name ++ b " \" ++ [LF] ++ t) with (b "#define " ++ name ++ [" "%char] ++ "\"%char :: LF :: t).
  rewrite !app_assoc. rewrite splice_join; [rewrite <- !app_assoc; reflexivity|]. apply no_lf_app; [apply no_lf_app; [not_in|apply macro_no; [exact H|apply macro_not_lf]]|not_in].
Qed.

Lemma define_line_value name body : macro_name name -> define_line (b "#define " ++ name ++ b " " ++ body) = Some (name, literals None body).
Proof.
  intros H. unfold define_line. assert (E : prefixb (b "#define ") (b "#define " ++ name ++ b " " ++ body) = true) by (apply prefixb_spec; eexists; reflexivity).
  rewrite E. change (skipn 8 (b "#define " ++ name ++ b " " ++ body)) with (name ++ " "%char :: body).
  rewrite span_exact.
  - cbn [literals]. change (Ascii.eqb " " " ") with true. reflexivity.
  - apply forallb_forall. intros c C. destruct (Ascii.eqb_spec c " ") as [-> |]; [|reflexivity]. destruct (macro_no " " name H macro_not_space C).
  - reflexivity.
Qed.

Lemma splice_literals xs t : Forall line_ok xs -> splice (concat (map literal_line xs) ++ t) = concat (map literal xs) ++ splice t.
Proof. induction 1 as [|x xs H _ IH]; [reflexivity|]. cbn [map concat]. rewrite <- !app_assoc, splice_literal by exact H. now rewrite IH. Qed.

Lemma tri_literals xs t : Forall no_trigraph xs -> trigraphs 0 (concat (map literal_line xs) ++ t) = concat (map literal_line xs) ++ trigraphs 0 t.
Proof. induction 1 as [|x xs H _ IH]; [reflexivity|]. cbn [map concat]. rewrite <- !app_assoc, tri_literal by exact H. now rewrite IH. Qed.

Lemma literals_no_lf xs : Forall line_ok xs -> ~ In LF (concat (map literal xs)).
Proof. induction 1 as [|x xs H _ IH]; [intros []|]. cbn [map concat]. apply no_lf_app; [now apply literal_no_lf|exact IH]. Qed.

(** ** Trigraphs of a joined text *)
Lemma nt_cut c : c <> "?"%char -> ~ In c (b "=/'()!<>-") -> forall u v, no_trigraph (u ++ c :: v) <-> no_trigraph u /\ no_trigraph v.
Proof.
  intros N T u v. split.
  - intros H. split; intros x d y E I.
    + apply (H x d (y ++ c :: v)); [|exact I]. rewrite E, <- !app_assoc. reflexivity.
    + apply (H (u ++ c :: x) d y); [|exact I]. rewrite E, <- !app_assoc. reflexivity.
  - intros [U V] x d y E I. symmetry in E. change (b "??" ++ d :: y) with ("?"%char :: "?"%char :: d :: y) in E. apply app_eq_app in E as (l & [[E1 E2]|[E1 E2]]).
    + destruct l as [|a l]; [injection E2 as E2 _; congruence|]. injection E2 as <- E2. apply (V l d y); [exact E2|exact I].
    + destruct l as [|a l]; [injection E2 as E2 _; congruence|]. injection E2 as <- E2. destruct l as [|a l]; [injection E2 as E2 _; congruence|].
      injection E2 as <- E2. destruct l as [|a l]; [injection E2 as <- _; contradiction|]. injection E2 as <- E2. apply (U x d l); [exact E1|exact I].
Qed.

Definition plain (c : ascii) : Prop := c <> "?"%char /\ ~ In c (b "=/'()!<>-") /\ c <> LF.

Lemma nt_plain w : w <> [] -> Forall plain w -> forall u v, no_trigraph (u ++ w ++ v) <-> no_trigraph u /\ no_trigraph v.
Proof.
  intros NE F. destruct w as [|c w]; [contradiction|]. inversion F as [|? ? (N & T & _) F']; subst. intros u v. cbn [app]. rewrite nt_cut by assumption.
  enough (G : forall w, Forall plain w -> forall v, no_trigraph (w ++ v) <-> no_trigraph v) by now rewrite G.
  clear. induction 1 as [|c w (N & T & _) _ IH]; intros v; [reflexivity|]. cbn [app]. change (c :: w ++ v) with ([] ++ c :: (w ++ v)). rewrite nt_cut by assumption.
  rewrite IH. split; [tauto|]. intros H. split; [|exact H]. intros u d y E. destruct u; discriminate E.
Qed.

Lemma nt_join w us : w <> [] -> Forall plain w -> us <> [] -> no_trigraph (join w us) <-> Forall no_trigraph us.
Proof.
  intros W F. induction us as [|u us IH]; intros N; [contradiction|]. destruct us as [|u' us].
  - cbn [join]. split; [intros H; now constructor|intros H; now inversion H].
  - change (join w (u :: u' :: us)) with (u ++ w ++ join w (u' :: us)). rewrite nt_plain by assumption. rewrite IH by discriminate.
    split; [intros []; now constructor|]. intros H. now inversion H.
Qed.

Lemma digit_plain c : is_digit c = true -> plain c.
Proof.
  intros H. split; [intros ->; discriminate H|]. split; [|intros ->; discriminate H]. intros I. vm_compute in I.
  repeat (destruct I as [<- |I]; [discriminate H|]). exact I.
Qed.

Lemma underscore_plain : Forall plain (b "_").
Proof. repeat constructor; [discriminate|not_in|discriminate]. Qed.

Lemma dec_plain x : 0 <= x -> Forall plain (dec x).
Proof.
  intros H. destruct (dec_digit_list x H) as (r & d & -> & _ & F). rewrite forallb_forall in F. apply Forall_forall. intros c C. now apply digit_plain, F.
Qed.

Lemma version_plain n : version_naming n -> n <> [] /\ Forall plain n.
Proof.
  intros (x & y & z & X & Y & Z & ->). split; [discriminate|]. pose proof underscore_plain as U.
  repeat (apply Forall_app; split); auto using dec_plain.
Qed.

Lemma P_plain : Forall plain P.
Proof. repeat constructor; try discriminate; not_in. Qed.

Lemma versioned_fine naming line x : version_naming naming -> versioned naming line x -> no_trigraph line -> line_ok line -> no_trigraph x /\ line_ok x.
Proof.
  intros V (us & N & _ & -> & ->) T L. destruct (version_plain _ V) as [NE NP]. split.
  - apply nt_join; auto. apply nt_join in T; auto; [discriminate|exact P_plain].
  - assert (G : forall w, ~ In LF w -> line_ok (join w us) <-> Forall line_ok us).
    { clear - N. intros w W. induction us as [|u us IH]; [contradiction|]. destruct us as [|u' us].
      - cbn [join]. split; [intros H; now constructor|intros H; now inversion H].
      - specialize (IH ltac:(discriminate)). change (join w (u :: u' :: us)) with (u ++ w ++ join w (u' :: us)). split.
        + intros H. constructor; [intros X; apply H, in_or_app; now left|]. apply IH. intros X. apply H, in_or_app. right. apply in_or_app. now right.
        + intros H. inversion H; subst. apply no_lf_app; [assumption|]. apply no_lf_app; [assumption|]. now apply IH. }
    apply G; [|apply (G P); [not_in|exact L]]. intros X. rewrite Forall_forall in NP. now destruct (NP _ X) as (_ & _ & Y).
Qed.

(** ** [copy] *)
Definition logical (text : bytes) : list bytes := getlines [] (splice (trigraphs 0 text)).

Lemma logical_block name xs tail rest : macro_name name -> Forall line_ok xs -> Forall no_trigraph xs ->
  (forall t, trigraphs 0 (tail ++ LF :: t) = tail ++ LF :: trigraphs 0 t) ->
  (forall t, splice (tail ++ LF :: t) = tail ++ LF :: splice t) -> ~ In LF tail ->
  logical (b "#define " ++ name ++ b " \" ++ [LF] ++ concat (map literal_line xs) ++ tail ++ LF :: rest) =
  (b "#define " ++ name ++ b " " ++ concat (map literal xs) ++ tail) :: logical rest.
Proof.
  intros M L T T1 T2 T3. unfold logical. rewrite tri_define by exact M. rewrite tri_literals by exact T. rewrite T1.
  rewrite splice_define by exact M. rewrite splice_literals by exact L. rewrite T2.
  replace (b "#define " ++ name ++ b " " ++ concat (map literal xs) ++ tail ++ LF :: splice (trigraphs 0 rest))
    with ((b "#define " ++ name ++ b " " ++ concat (map literal xs) ++ tail) ++ LF :: splice (trigraphs 0 rest)) by (rewrite <- !app_assoc; reflexivity).
  rewrite getlines_line; [reflexivity|]. apply no_lf_app; [not_in|]. apply no_lf_app; [apply macro_no; [exact M|apply macro_not_lf]|].
  apply no_lf_app; [not_in|]. apply no_lf_app; [now apply literals_no_lf|exact T3].
Qed.

Lemma copy_lines_exact naming n ls : version_naming naming -> Forall (fun l => (length l < n)%nat) ls -> Forall line_ok ls -> Forall no_trigraph ls ->
  exists xs, copy_lines n naming ls = Some (concat (map literal_line xs)) /\ Forall line_ok xs /\ Forall no_trigraph xs /\
    embedded naming ls (concat (map (fun x => x ++ [LF]) xs)).
Proof.
  intros V. induction ls as [|l ls IH]; intros L K T; [exists []; repeat split; constructor|].
  inversion L; inversion K; inversion T; subst. destruct IH as (xs & C & X1 & X2 & E); auto. cbn [copy_lines]. destruct (removed l) eqn:R.
  - exists xs. repeat split; auto. apply em_drop; [now apply removed_spec|exact E].
  - destruct (replace_exact naming n l V) as (x & RX & VX); auto. rewrite RX, C. exists (x :: xs).
    destruct (versioned_fine _ _ _ V VX) as [F1 F2]; auto. repeat split; try (constructor; assumption).
    cbn [map concat]. rewrite <- app_assoc. apply em_line; auto. intros A. apply removed_spec in A. congruence.
Qed.

Theorem copy_exact naming n ls final name : version_naming naming -> Forall (fun l => (length l < n)%nat) ls ->
  Forall line_ok ls -> line_ok final -> Forall no_trigraph ls -> macro_name name ->
  exists out value, copy n naming (file_text ls final) name = Some out /\ embedded naming ls value /\ defines out = [(name, Some (value ++ [LF]))].
Proof.
  intros V L K KL T M. destruct (copy_lines_exact naming n ls) as (xs & C & X1 & X2 & E); auto. unfold copy. rewrite getlines_file by assumption. rewrite C.
  eexists _, _. split; [reflexivity|]. split; [exact E|]. unfold defines. fold (logical (b "#define " ++ name ++ b " \" ++ [LF] ++ concat (map literal_line xs) ++ b "    ""\n""" ++ [LF])).
  change (b "    ""\n""" ++ [LF]) with (b "    ""\n""" ++ LF :: []). rewrite logical_block; auto.
  - change (logical []) with (@nil bytes). cbn [flat_map app]. rewrite define_line_value by exact M. rewrite literals_all by exact X1. reflexivity.
  - intros t. apply splice_line; [not_in|]. intros w H. assert (X : last (b "    ""\n""") NUL = "\"%char) by (rewrite H; apply last_last). discriminate X.
  - not_in.
Qed.

(** ** [process] *)
Lemma process_section body r : Forall (fun l => ~ starts (b "------") l) body -> process_lines true (body ++ r) = concat (map literal_line body) ++ process_lines true r.
Proof.
  induction 1 as [|l body H _ IH]; [reflexivity|]. cbn [app process_lines map concat]. destruct (prefixb (b "------") l) eqn:E; [destruct H; now apply prefixb_spec in E|].
  rewrite IH. now rewrite <- app_assoc.
Qed.

Lemma process_exact_lines ls secs rest : sections ls secs -> Forall line_ok ls -> Forall no_trigraph ls -> Forall (fun s => macro_name (fst s)) secs ->
  logical (process_lines false ls ++ rest) =
  map (fun s => b "#define " ++ fst s ++ b " " ++ concat (map literal (snd s))) secs ++ logical rest.
Proof.
  induction 1 as [|l r s N _ IH|name body e r s B E _ IH]; intros L T M.
  - reflexivity.
  - inversion L; inversion T; subst. cbn [process_lines]. destruct (prefixb (b "--- ") l) eqn:F; [destruct N; now apply prefixb_spec in F|]. auto.
  - inversion L as [|? ? _ L']; inversion T as [|? ? _ T']; inversion M; subst. apply Forall_app in L' as [L1 L2]. apply Forall_app in T' as [T1 T2].
    inversion L2; inversion T2; subst. cbn [process_lines].
    assert (F : prefixb (b "--- ") (b "--- " ++ name) = true) by (apply prefixb_spec; now exists name). rewrite F.
    change (skipn 4 (b "--- " ++ name)) with name. rewrite process_section by exact B. cbn [process_lines].
    assert (G : prefixb (b "------") e = true) by (apply prefixb_spec; exact E). rewrite G.
    assert (A : forall r, (b "#define " ++ name ++ b " \" ++ [LF] ++ concat (map literal_line body) ++ LF :: r) ++ rest =
      b "#define " ++ name ++ b " \" ++ [LF] ++ concat (map literal_line body) ++ [] ++ LF :: (r ++ rest)).
    { intros q. rewrite <- !app_assoc. reflexivity. }
    rewrite A. rewrite logical_block; auto; [|intros t; apply (splice_line [] t); [not_in|intros w; destruct w; discriminate]]. rewrite app_nil_r. cbn [map fst snd]. rewrite <- app_comm_cons. f_equal. auto.
Qed.

Theorem process_exact ls last secs guard : sections ls secs -> Forall line_ok ls -> line_ok last -> Forall no_trigraph ls ->
  Forall (fun s => macro_name (fst s)) secs -> macro_name guard ->
  defines (process (file_text ls last) guard) =
  (guard, Some []) :: map (fun s => (fst s, Some (concat (map (fun l => l ++ [LF]) (snd s))))) secs.
Proof.
  intros S L LL T M G. unfold process. rewrite getlines_file by assumption. unfold defines.
  set (body := process_lines false ls ++ b "#endif // " ++ guard ++ [LF]).
  assert (NQ : ~ In "?"%char guard) by (apply macro_no; [exact G|apply macro_not_quest]).
  assert (NL : ~ In LF guard) by (apply macro_no; [exact G|apply macro_not_lf]).
  assert (NB : forall p w, ~ In "\"%char p -> p ++ guard <> w ++ ["\"%char]).
  { intros p w NP H. assert (X : In "\"%char (p ++ guard)) by (rewrite H; apply in_or_app; right; now left). apply in_app_iff in X as [X|X]; [auto|].
    revert X. apply macro_no; [exact G|]. intros [X|[X|X]]; [discriminate X| |]; vm_compute in X; destruct X as [X1 X2]; try (now apply X1); now apply X2. }
  assert (Q : forall p rest, ~ In "?"%char p -> ~ In LF p -> ~ In "\"%char p -> logical (p ++ guard ++ [LF] ++ rest) = (p ++ guard) :: logical rest).
  { intros p rest P1 P2 P3. unfold logical. change (p ++ guard ++ [LF] ++ rest) with (p ++ guard ++ LF :: rest). rewrite app_assoc.
    rewrite tri_cut by (lia || discriminate || reflexivity). rewrite trigraphs_id by (apply no_quest; intros X; apply in_app_iff in X as [X|X]; auto).
    rewrite splice_line; [|now apply no_lf_app|intros w; now apply NB]. rewrite getlines_line by now apply no_lf_app. reflexivity. }
  fold (logical (b "#ifndef " ++ guard ++ [LF] ++ b "#define " ++ guard ++ [LF] ++ body)). rewrite !Q by not_in. unfold body.
  rewrite (process_exact_lines ls secs) by assumption.
  change (b "#endif // " ++ guard ++ [LF]) with (b "#endif // " ++ guard ++ [LF] ++ []). rewrite Q by not_in. change (logical []) with (@nil bytes).
  cbn [flat_map]. change (define_line (b "#ifndef " ++ guard)) with (@None (bytes * option bytes)).
  assert (D : define_line (b "#define " ++ guard) = Some (guard, Some [])).
  { unfold define_line. assert (E : prefixb (b "#define ") (b "#define " ++ guard) = true) by (apply prefixb_spec; eexists; reflexivity). rewrite E.
    change (skipn 8 (b "#define " ++ guard)) with guard. rewrite <- (app_nil_r guard) at 1. rewrite span_exact; [reflexivity| |reflexivity].
    apply forallb_forall. intros c C. destruct (Ascii.eqb_spec c " ") as [-> |]; [|reflexivity]. destruct (macro_no " " guard G macro_not_space C). }
  rewrite D. cbn [app]. f_equal. rewrite flat_map_app. cbn [flat_map]. change (define_line (b "#endif // " ++ guard)) with (@None (bytes * option bytes)). cbn [app]. rewrite app_nil_r.
  assert (LB : Forall (fun s => Forall line_ok (snd s)) secs).
  { clear - S L. induction S; inversion L; subst; auto. match goal with H : Forall line_ok (_ ++ _) |- _ => apply Forall_app in H as [HA HB] end. inversion HB; subst. constructor; auto. }
  clear - M LB. induction secs as [|[n xs] secs IH]; [reflexivity|]. inversion M; inversion LB; subst. cbn [map flat_map fst snd] in *. rewrite define_line_value by assumption.
  cbn [app]. f_equal; [|auto]. f_equal. pose proof (literals_all xs ltac:(assumption) []) as X. rewrite app_nil_r in X. rewrite X. cbn [literals option_map]. now rewrite app_nil_r.
Qed.

Lemma macro_name_check w : forallb (fun c => Ascii.eqb c "_" || is_alpha c) w = true -> macro_name w.
Proof.
  intros H. apply Forall_forall. intros c C. rewrite forallb_forall in H. specialize (H c C). apply orb_true_iff in H as [H|H]; [left; now apply Ascii.eqb_eq|right].
  unfold is_alpha in H. apply orb_true_iff in H as [H|H]; apply andb_true_iff in H as [H1 H2]; apply Z.leb_le in H1; apply Z.leb_le in H2; auto.
Qed.
