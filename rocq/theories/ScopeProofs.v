(** Which schemas disturb the names of the generated header. *)
From Coq Require Import Lia Permutation.
From Verif Require Import Bytes BaseProofs Num Types ProtoLex ProtoParse SpecProto Cpp Gen MainC SpecGen SpecFile SpecOpts PRunProofs PTermProofs PAcceptProofs SpecTemplate SpecCpp GenText GenFile BackProofs BackMore SpecProgram ProgramProofs NameProofs Scope SpecScope.

(** ** The check, for classes of messages *)
Section Classes.
  Variables (msgs : list message) (obf lists numbers : bool).
  Notation cof := (class_of msgs obf lists numbers).

  Lemma spaces_iff m ns : In ns (namespaces (cof m)) <-> encloses ns (m_package m).
  Proof.
    unfold namespaces, encloses. cbn [class_of c_pkg]. destruct (m_package m) as [|a r] eqn:E.
    - split; [intros []|]. intros (X & _). contradiction.
    - rewrite prefixes_in. cbn [rev app]. split.
      + intros [-> |(u & v & K & ->)]; (split; [discriminate|]); [now left|right; exists v; exact K].
      + intros (_ & [-> |(v & K)]); [now left|right; exists ns, v; auto].
  Qed.

  Lemma hidden_iff d m w : hidden d (cof m) w = true <-> exists ns, encloses ns (m_package m) /\ In (full_name ns w) d.
  Proof.
    unfold hidden. rewrite existsb_exists. split; intros (ns & A & B); exists ns.
    - split; [now apply spaces_iff|]. now apply existsb_bytes in B.
    - split; [now apply spaces_iff|]. now apply existsb_bytes.
  Qed.

  (** The declarations met after the messages [u]. *)
  Definition met (u : list message) (d : list bytes) : Prop :=
    forall n, In n d <-> exists m', In m' u /\ (In n (structs m') \/ encloses n (m_package m')).

  Lemma hides_iff u d own m w : met u d ->
    (hidden ((d ++ namespaces (cof m)) ++ own) (cof m) w = true <-> hides own u m w \/ hides [] u m w).
  Proof.
    intros D. unfold met in D. rewrite hidden_iff. unfold hides. split.
    - intros (ns & A & B). left. exists ns. split; [exact A|]. rewrite !in_app_iff, D, spaces_iff in B.
      destruct B as [[(m' & M & [B|B])|B]|B]; [right; left; eauto|right; right; eauto|right; right; exists m; auto|now left].
    - assert (X : forall own', (exists ns, encloses ns (m_package m) /\ (In (full_name ns w) own' \/
          (exists m', In m' u /\ In (full_name ns w) (structs m')) \/ (exists m', (m' = m \/ In m' u) /\ encloses (full_name ns w) (m_package m')))) ->
          incl own' own -> exists ns, encloses ns (m_package m) /\ In (full_name ns w) ((d ++ namespaces (cof m)) ++ own)).
      { intros own' (ns & A & B) I. exists ns. split; [exact A|]. rewrite !in_app_iff, D, spaces_iff.
        destruct B as [B|[(m' & M & B)|(m' & [-> |M] & B)]]; [right; now apply I|left; left; eauto|left; now right|left; left; eauto]. }
      intros [H|H]; (eapply X; [exact H|]); [apply incl_refl|intros y []].
  Qed.

  Lemma hides_more own u m w : hides [] u m w -> hides own u m w.
  Proof. intros (ns & A & [[]|B]). exists ns. auto. Qed.
  Lemma hides_exact u d own m w : met u d -> (hidden ((d ++ namespaces (cof m)) ++ own) (cof m) w = true <-> hides own u m w).
  Proof. intros D. rewrite (hides_iff u d own m w D). split; [intros [H|H]; [exact H|now apply hides_more]|auto]. Qed.

  Lemma met_next u d m : met u d -> met (u ++ [m]) ((d ++ namespaces (cof m)) ++ struct_names (cof m)).
  Proof.
    intros D n. unfold met in D. rewrite !in_app_iff, D, spaces_iff. change (struct_names (cof m)) with (structs m). split.
    - intros [[(m' & M & B)|B]|B]; [exists m'|exists m|exists m]; rewrite in_app_iff; cbn [In]; auto.
    - intros (m' & M & B). apply in_app_iff in M as [M|[<-|[]]]; [left; left; eauto|]. destruct B; [now right|left; now right].
  Qed.

  Lemma elem_alone_iff f w : In w (elem_alone (value_elem msgs f)) <-> int_word (f_type f) = Some w.
  Proof.
    unfold elem_alone, value_elem. destruct (f_type f); cbn [prim_names int_word In];
      try (split; [intros [<-|[]]; reflexivity|intros X; inversion X; now left]); try (split; [intros []|discriminate]).
    destruct (f_ref f) as [k|]; [|split; [intros []|discriminate]]. destruct (nth_error msgs k); (split; [intros []|discriminate]).
  Qed.
  Lemma type_alone_iff f w : In w (type_alone (member_type msgs lists f)) <-> int_word (f_type f) = Some w.
  Proof.
    rewrite <- elem_alone_iff. unfold member_type, is_bytes. destruct (f_type f) eqn:T; try (destruct (f_repeated f)); cbn [type_alone]; try reflexivity;
      destruct (value_elem msgs f) as [p| |]; reflexivity.
  Qed.
  Lemma type_before_in lib f w : In w (type_before lib (member_type msgs lists f)) -> w = std_name \/ w = lib.
  Proof.
    unfold member_type. destruct (is_bytes f), (f_repeated f), (value_elem msgs f) as [p| |]; cbn [type_before elem_before In]; intuition.
  Qed.

  Lemma scopes_iff lib : forall ms u d, met u d ->
    (scopes_go lib d (map cof ms) = true <->
     forall x m v, ms = x ++ m :: v ->
       ~ hides (structs m) (u ++ x) m (b "std") /\ ~ hides (structs m) (u ++ x) m lib /\
       forall f w, In f (m_fields m) -> int_word (f_type f) = Some w ->
         ~ hides [full_name (m_package m) (m_name m ++ b "_type")] (u ++ x) m w /\ ~ In w (map f_name (m_fields m))).
  Proof.
    induction ms as [|m ms IH]; intros u d D.
    - cbn [map scopes_go]. split; [|reflexivity]. intros _ x m v E. destruct x; discriminate E.
    - cbn [map scopes_go]. cbv zeta. rewrite !andb_true_iff, (IH (u ++ [m]) _ (met_next u d m D)). clear IH.
      change (map snd (c_members (cof m))) with (map snd (map (fun f => (member_type msgs lists f, f_name f)) (m_fields m))). rewrite map_map. cbn [snd].
      change (in_pkg (c_pkg (cof m)) (c_name (cof m) ++ b "_type")) with (full_name (m_package m) (m_name m ++ b "_type")).
      set (model := full_name (m_package m) (m_name m ++ b "_type")).
      assert (AL : forall w, In w (flat_map (fun y => type_alone (fst y)) (c_members (cof m))) <-> exists f, In f (m_fields m) /\ int_word (f_type f) = Some w).
      { intros w. rewrite in_flat_map. cbn [class_of c_members]. split.
        - intros (y & Y & B). apply in_map_iff in Y as (f & <- & F). exists f. split; [exact F|]. now apply type_alone_iff in B.
        - intros (f & F & B). exists (member_type msgs lists f, f_name f). split; [now apply (in_map (fun f => (member_type msgs lists f, f_name f)))|]. now apply type_alone_iff. }
      assert (BE : forall w, In w (flat_map (fun y => type_before lib (fst y)) (c_members (cof m))) -> w = std_name \/ w = lib).
      { intros w I. apply in_flat_map in I as (y & Y & B). cbn [class_of c_members] in Y. apply in_map_iff in Y as (f & <- & F). now apply type_before_in in B. }
      assert (HM : forall w, hidden ((d ++ namespaces (cof m)) ++ [model]) (cof m) w = true <-> hides [model] u m w) by (intros w; now apply hides_exact).
      assert (HS : forall w, hidden ((d ++ namespaces (cof m)) ++ struct_names (cof m)) (cof m) w = true <-> hides (structs m) u m w) by (intros w; now apply hides_exact).
      assert (NB : forall t, negb t = true <-> t <> true) by (intros t; destruct t; cbn [negb]; split; congruence).
      assert (FA : forallb (fun w => negb (hidden ((d ++ namespaces (cof m)) ++ struct_names (cof m)) (cof m) w)) [std_name; lib] = true <->
                   ~ hides (structs m) u m (b "std") /\ ~ hides (structs m) u m lib).
      { cbn [forallb]. rewrite !andb_true_iff, !NB, !HS. change std_name with (b "std"). tauto. }
      rewrite FA. clear FA. rewrite !forallb_forall. split.
      + intros (((A & B) & C) & E) x m0 v Q. destruct x as [|y x]; cbn [app] in Q; injection Q as Q1 Q2.
        * rewrite app_nil_r, <- Q1. fold model. split; [apply C|]. split; [apply C|]. intros f w F W. split.
          -- rewrite <- HM, <- NB. apply A. apply in_app_iff. left. apply AL. eauto.
          -- specialize (B w). rewrite NB, existsb_bytes in B. apply B. apply AL. eauto.
        * specialize (E x m0 v Q2). rewrite <- app_assoc in E. rewrite <- Q1. exact E.
      + intros H. destruct (H [] m ms eq_refl) as (S1 & S2 & S3). rewrite app_nil_r in S1, S2, S3. split; [split; [split|auto]|].
        * intros w I. rewrite NB, HM. apply in_app_iff in I as [I|I].
          -- apply AL in I as (f & F & W). now apply (S3 f w F W).
          -- intros X. assert (Y : hides (structs m) u m w).
             { destruct X as (ns & P & [[R|[]]|R]); exists ns; (split; [exact P|]); [left|now right]. rewrite <- R. unfold structs. now left. }
             apply BE in I as [-> | ->]; contradiction.
        * intros w I. rewrite NB, existsb_bytes. apply AL in I as (f & F & W). now apply (S3 f w F W).
        * intros x m0 v ->. specialize (H (m :: x) m0 v eq_refl). rewrite <- app_assoc. exact H.
  Qed.

  Lemma known_iff lib pl w : In w (global_names lib pl) <-> well_known lib pl w.
  Proof. unfold global_names, well_known, int_names, std_name. cbn [map In app]. rewrite ?in_app_iff. cbn [In]. split; intuition congruence. Qed.

  Lemma outside_iff lib pl m : outside_ok lib pl (cof m) = true <->
    (m_package m = [] -> forall w, In w (structs m) -> ~ well_known lib pl w) /\
    (forall w ps, package_parts (m_package m) (w :: ps) -> ~ well_known lib pl w) /\
    (forall w, printed m w -> ~ In w (pf_macros pl)).
  Proof.
    assert (NB : forall t, negb t = true <-> t <> true) by (intros t; destruct t; cbn [negb]; split; congruence).
    unfold outside_ok. rewrite andb_true_iff, !forallb_forall.
    assert (R : forall w, In w (root_names (cof m)) <-> (m_package m = [] /\ In w (structs m)) \/ exists ps, package_parts (m_package m) (w :: ps)).
    { intros w. unfold root_names. cbn [class_of c_pkg]. pose proof (parts_ok (m_package m)) as P. unfold parts in P. destruct (m_package m) as [|a r] eqn:E.
      - unfold struct_names, structs. cbn [class_of c_pkg c_name]. rewrite E. split; [auto|]. intros [(_ & H)|(ps & [(_ & H)|(H & _)])]; [exact H|discriminate|contradiction].
      - destruct (components [] (a :: r)) as [|y l] eqn:C.
        + split; [intros []|]. intros [(H & _)|(ps & H)]; [discriminate|]. pose proof (package_parts_unique _ _ _ P H). discriminate.
        + cbn [In]. split.
          * intros [<-|[]]. right. exists l. exact P.
          * intros [(H & _)|(ps & H)]; [discriminate|]. pose proof (package_parts_unique _ _ _ P H) as X. inversion X; subst. now left. }
    assert (Q : forall w, In w (printed_names (cof m)) <-> printed m w).
    { intros w. unfold printed_names, printed. cbn [class_of c_pkg c_name c_members]. rewrite map_map. cbn [snd].
      rewrite !in_app_iff. cbn [In].
      assert (PP : In w match m_package m with [] => [] | p => components [] p end <-> exists ps, package_parts (m_package m) ps /\ In w ps).
      { pose proof (parts_ok (m_package m)) as P. unfold parts in P. destruct (m_package m) as [|a r]; (split; [intros J; eexists; split; [exact P|exact J]|]; intros (ps & J1 & J2); now rewrite (package_parts_unique _ _ _ P J1)). }
      rewrite PP. intuition. }
    assert (L : forall S T, (forall x : bytes, In x S -> negb (existsb (bytes_eqb x) T) = true) <-> (forall x, In x S -> ~ In x T)).
    { intros S T. split; intros H x I; specialize (H x I); [rewrite NB, existsb_bytes in H|rewrite NB, existsb_bytes]; exact H. }
    rewrite !L. split.
    - intros (A & B). split; [|split].
      + intros E w W. rewrite <- known_iff. apply A, R. auto.
      + intros w ps W. rewrite <- known_iff. apply A, R. eauto.
      + intros w W. apply B, Q, W.
    - intros (A & B & C). split.
      + intros w W. rewrite known_iff. apply R in W as [(E & W)|(ps & W)]; [now apply A|exact (B w ps W)].
      + intros w W. now apply C, Q.
  Qed.

  Lemma scopes_exact lib pl ms : scopes_ok lib pl (map cof ms) = true <-> lookup_fine lib ms /\ outside_fine lib pl ms.
  Proof.
    unfold scopes_ok. rewrite andb_true_iff, (scopes_iff lib ms [] []) by (intros n; split; [intros []|intros (m & [] & _)]).
    cbn [app]. unfold lookup_fine, outside_fine. rewrite forallb_forall. split; intros (A & B); (split; [exact A|]).
    - intros m M. apply outside_iff, B. now apply in_map.
    - intros c C. apply in_map_iff in C as (m & <- & M). now apply outside_iff, B.
  Qed.
End Classes.

(** ** Sorting the fields does not matter *)
Definition sorted_message (srt : list field -> list field) (m : message) : message :=
  Msg (srt (m_fields m)) (m_name m) (m_package m) (m_options m).

Lemma sorted_hides srt own u m w : hides own (map (sorted_message srt) u) (sorted_message srt m) w <-> hides own u m w.
Proof.
  unfold hides. change (m_package (sorted_message srt m)) with (m_package m). split; intros (ns & A & B); exists ns; (split; [exact A|]).
  - destruct B as [B|[(m' & M & B)|(m' & M & B)]]; [now left|right; left|right; right].
    + apply in_map_iff in M as (x & <- & M). exists x. auto.
    + destruct M as [-> |M]; [exists m; auto|]. apply in_map_iff in M as (x & <- & M). exists x. auto.
  - destruct B as [B|[(m' & M & B)|(m' & M & B)]]; [now left|right; left|right; right].
    + exists (sorted_message srt m'). split; [now apply in_map|exact B].
    + exists (sorted_message srt m'). split; [|exact B]. destruct M as [-> |M]; [now left|right; now apply in_map].
Qed.

Lemma sorted_in srt m f : permutes srt -> (In f (m_fields (sorted_message srt m)) <-> In f (m_fields m)).
Proof. intros S. cbn [sorted_message m_fields]. split; apply Permutation_in; [|symmetry]; apply S. Qed.
Lemma sorted_names srt m w : permutes srt -> (In w (map f_name (m_fields (sorted_message srt m))) <-> In w (map f_name (m_fields m))).
Proof. intros S. rewrite !in_map_iff. split; intros (f & E & F); exists f; (split; [exact E|]); now apply (sorted_in srt m f S). Qed.

Lemma sorted_lookup srt lib ms : permutes srt -> (lookup_fine lib (map (sorted_message srt) ms) <-> lookup_fine lib ms).
Proof.
  intros S. unfold lookup_fine. split.
  - intros H u m v ->. specialize (H (map (sorted_message srt) u) (sorted_message srt m) (map (sorted_message srt) v)).
    rewrite map_app in H. specialize (H eq_refl). rewrite !sorted_hides in H. destruct H as (A & B & C). split; [exact A|]. split; [exact B|].
    intros f w F W. specialize (C f w (proj2 (sorted_in srt m f S) F) W). rewrite sorted_hides, sorted_names in C by exact S. exact C.
  - intros H u m v E. apply map_eq_app in E as (u' & r & -> & <- & E). apply map_eq_cons in E as (m' & v' & -> & <- & <-).
    specialize (H u' m' v' eq_refl). rewrite !sorted_hides. destruct H as (A & B & C). split; [exact A|]. split; [exact B|].
    intros f w F W. rewrite sorted_hides, sorted_names by exact S. apply (C f w); [now apply (sorted_in srt m' f S)|exact W].
Qed.

Lemma sorted_outside srt lib pl ms : permutes srt -> (outside_fine lib pl (map (sorted_message srt) ms) <-> outside_fine lib pl ms).
Proof.
  intros S. assert (P : forall m w, printed (sorted_message srt m) w <-> printed m w).
  { intros m w. unfold printed. rewrite sorted_names by exact S. reflexivity. }
  unfold outside_fine. split.
  - intros H m M. destruct (H (sorted_message srt m) (in_map _ _ _ M)) as (A & B & C). split; [exact A|]. split; [exact B|]. intros w W. apply C. now apply P.
  - intros H m M. apply in_map_iff in M as (x & <- & M). destruct (H x M) as (A & B & C). split; [exact A|]. split; [exact B|]. intros w W. apply C. now apply P.
Qed.

(** ** The compiler *)
Lemma scope_run cfg srt text path e out h cs : build_fine cfg -> permutes srt -> run_text cfg srt text path = CExit 0 e out (Some (h, cs)) ->
  exists p ms, parse text path = POk p /\ Permutation ms (pr_messages p) /\
    map (fun c => (c_pkg c, c_name c)) cs = map (fun m => (m_package m, m_name m)) ms /\
    forall lib pl, scopes_ok lib pl cs = true <-> lookup_fine lib ms /\ outside_fine lib pl ms.
Proof.
  intros B S E. destruct (parse text path) as [p|m l c| |] eqn:P; [| unfold run_text in E; rewrite P in E; discriminate..].
  destruct (run_exact cfg srt text path p B S P) as [(F & h' & order & W & O & G)|(F & t & x & l & c & _ & G)]; rewrite G in E; [|discriminate].
  cbn zeta in E. inversion E; subst. clear E G.
  assert (O' : well_ordered (pr_messages (sort_fields srt p)) order) by (now apply sorted_ordered).
  destruct (order_perm (sort_fields srt p) order O') as (ms' & Q & ->).
  change (pr_messages (sort_fields srt p)) with (map (sorted_message srt) (pr_messages p)) in *.
  destruct (Permutation_map_inv _ _ Q) as (ms & -> & Q').
  exists p, ms. split; [reflexivity|]. split; [now symmetry|]. split.
  - rewrite !map_map. reflexivity.
  - intros lib pl. rewrite scopes_exact, sorted_lookup, sorted_outside by exact S. reflexivity.
Qed.

(** ** Names apart *)
Lemma comp_app x y : forall acc, components acc (x ++ "."%char :: y) = components acc x ++ components [] y.
Proof.
  induction x as [|c x IH]; intros acc; cbn [app components].
  - reflexivity.
  - destruct (Ascii.eqb c "."); [|apply IH]. cbn [app]. now rewrite IH.
Qed.
Lemma comp_one w : forall acc, ~ In "."%char w -> components acc w = [rev acc ++ w].
Proof.
  induction w as [|c w IH]; intros acc N; cbn [components].
  - now rewrite app_nil_r.
  - destruct (Ascii.eqb_spec c ".") as [-> |D]; [destruct N; now left|]. rewrite IH by (intros X; apply N; now right). cbn [rev]. now rewrite <- app_assoc.
Qed.
Lemma full_last ns w : ~ In "."%char w -> exists l, components [] (full_name ns w) = l ++ [w].
Proof.
  intros N. unfold full_name. destruct ns as [|a r]; [exists []; now rewrite comp_one|]. rewrite comp_app, (comp_one w []) by exact N. eauto.
Qed.
Lemma full_inj ns w q n : ~ In "."%char w -> ~ In "."%char n -> full_name ns w = full_name q n -> w = n.
Proof.
  intros A B E. destruct (full_last ns w A) as (l & L). destruct (full_last q n B) as (l' & L'). rewrite E, L' in L. now apply app_inj_tail in L.
Qed.
Lemma space_part ns w pkg : ~ In "."%char w -> encloses (full_name ns w) pkg -> exists ps, package_parts pkg ps /\ In w ps.
Proof.
  intros N (P & E). exists (parts pkg). split; [apply parts_ok|]. unfold parts. destruct pkg as [|a r] eqn:X; [contradiction|]. rewrite <- X in *. clear P.
  destruct (full_last ns w N) as (l & L). destruct E as [E|(t & E)].
  - rewrite <- E, L, in_app_iff. right. now left.
  - rewrite E, comp_app, L, !in_app_iff. left. right. now left.
Qed.

Lemma parsed_message_name text path p m : parse text path = POk p -> In m (pr_messages p) -> ident (m_name m).
Proof.
  intros E I. pose proof (parse_no_runtime (length text + 3) text path) as W. fold (parse text path) in W. rewrite E in W.
  destruct W as [[W _] _]. rewrite Forall_forall in W. destruct (W m I) as ((_ & _ & _ & N & _) & _).
  destruct N as [[N _]|[N|N]]; [exact N| |]; rewrite N; cbn [ident]; (split; [vm_compute; intuition congruence|]);
    repeat (constructor; [left; vm_compute; intuition congruence|]); constructor.
Qed.
Lemma ident_dotless w : ident w -> ~ In "."%char w.
Proof.
  intros H I. destruct w as [|c r]; [destruct H|]. destruct H as (H & F). rewrite Forall_forall in F.
  assert (X : pletter "."%char \/ pdigit "."%char) by (destruct I as [<-|I]; auto). unfold pletter, pdigit in X. change (code "."%char) with 46 in X. lia.
Qed.

Lemma reserved_dotless lib w : ~ In "."%char lib -> reserved lib w -> ~ In "."%char w.
Proof.
  intros L [R|R]; [|now rewrite R]. cbn [map In] in R.
  repeat (destruct R as [R|R]; [rewrite <- R; cbv; intuition discriminate|]). destruct R.
Qed.

Lemma apart_lookup text path p lib ms : parse text path = POk p -> Permutation ms (pr_messages p) -> ~ In "."%char lib ->
  names_apart lib (pr_messages p) -> lookup_fine lib ms.
Proof.
  intros P Q L A u m v ->.
  assert (IN : forall x, x = m \/ In x u -> In x (pr_messages p)).
  { intros x X. eapply Permutation_in; [exact Q|]. apply in_app_iff. destruct X as [-> |X]; [right; now left|now left]. }
  assert (ST : forall ns w x, reserved lib w -> x = m \/ In x u -> ~ In (full_name ns w) (structs x)).
  { intros ns w x R X I. apply IN in X. destruct (A x X) as (A1 & A2 & _). pose proof (ident_dotless _ (parsed_message_name _ _ _ _ P X)) as D.
    pose proof (reserved_dotless _ _ L R) as D'. unfold structs in I. destruct I as [I|[I|[]]]; symmetry in I; apply full_inj in I; auto; try congruence.
    intros Y. apply in_app_iff in Y as [Y|Y]; [contradiction|]. revert Y. cbv. intuition discriminate. }
  assert (H : forall own w, reserved lib w -> incl own (structs m) -> ~ hides own u m w).
  { intros own w R O (ns & _ & [B|[(m' & M & B)|(m' & M & B)]]).
    - apply O in B. exact (ST ns w m R (or_introl eq_refl) B).
    - exact (ST ns w m' R (or_intror M) B).
    - apply (space_part ns w) in B as (ps & B1 & B2); [|exact (reserved_dotless _ _ L R)]. destruct (A m' (IN m' M)) as (_ & _ & A3 & _). exact (A3 ps w B1 B2 R). }
  assert (IW : forall t w, int_word t = Some w -> reserved lib w).
  { intros t w W. left. destruct t; cbn [int_word] in W; inversion W; cbn [map In]; auto 10. }
  split; [|split].
  - apply H; [|apply incl_refl]. left. now left.
  - apply H; [now right|apply incl_refl].
  - intros f w F W. split.
    + apply H; [exact (IW _ _ W)|]. intros y [<-|[]]. unfold structs. now left.
    + intros I. apply in_map_iff in I as (g & <- & G). assert (M : In m (pr_messages p)) by (apply IN; now left). destruct (A m M) as (_ & _ & _ & A4). exact (A4 g G (IW _ _ W)).
Qed.

Lemma outside_perm lib pl ms l : Permutation ms l -> outside_fine lib pl l -> outside_fine lib pl ms.
Proof. intros Q H m M. apply H. eapply Permutation_in; [exact Q|exact M]. Qed.

Lemma header_fine cfg srt text path p pl : build_fine cfg -> permutes srt -> parse text path = POk p -> proto_fine p ->
  (forall h, wanted (pr_messages p) h -> cpp_fine p h) ->
  let lib := b "protogen" ++ b_naming cfg in
  ~ In "."%char lib -> names_apart lib (pr_messages p) -> outside_fine lib pl (pr_messages p) ->
  exists out h cs env, run_text cfg srt text path = CExit 0 [] out (Some (h, cs)) /\
    program_ty h cs = Some env /\ header_ty lib pl h cs = Some env.
Proof.
  intros B S P F C lib L A O. destruct (compiled_program cfg srt text path p B S P F C) as (h & order & T & env & E & W & Q & A1 & _).
  destruct (scope_run _ _ _ _ _ _ _ _ B S E) as (p' & ms & P' & M & _ & X). rewrite P in P'. inversion P'; subst p'.
  eexists. exists h. eexists. exists env. split; [exact E|]. split; [exact A1|]. unfold header_ty.
  rewrite (proj2 (X lib pl)); [exact A1|]. split; [exact (apart_lookup _ _ _ _ _ P M L A)|exact (outside_perm _ _ _ _ M O)].
Qed.
