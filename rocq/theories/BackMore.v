(** Consequences of the exact description of the generator. *)
From Coq Require Import Lia Permutation.
From Verif Require Import Bytes BaseProofs Num Types SpecNum IntProofs ProtoLex ProtoParse SpecProto SpecTemplate SpecSchema PTermProofs PAcceptProofs Cpp Gen MainC SpecPrint SpecGen SpecCpp SpecFile SpecOpts SortProofs GenText GenFile BackProofs.

Lemma Forall2_impl {A B} (R R' : A -> B -> Prop) l l' : (forall x y, R x y -> R' x y) -> Forall2 R l l' -> Forall2 R' l l'.
Proof. intros H. induction 1; constructor; auto. Qed.

Lemma Forall2_length {A B} (R : A -> B -> Prop) l l' : Forall2 R l l' -> length l = length l'.
Proof. induction 1; cbn [length]; auto. Qed.

(** ** C31 *)
Lemma generate_order cfg p t h cs : build_fine cfg -> refs_ok (pr_messages p) -> generate cfg p = (t, GOk (h, cs)) ->
  exists order, well_ordered (pr_messages p) order /\ cs = classes_of p order /\ t = output_text cfg (pr_file p) h cs /\ wanted (pr_messages p) h /\ proto_fine p.
Proof.
  intros B R E. destruct (generate_exact cfg p B R) as [(F & h' & order & W & O & G)|(F & t' & e & l & c & G & _)]; rewrite G in E; [|discriminate].
  inversion E; subst. exists order. auto.
Qed.

Lemma classes_names p order : (forall k, In k order -> (k < length (pr_messages p))%nat) ->
  Forall2 (fun k c => exists m, nth_error (pr_messages p) k = Some m /\ c_pkg c = m_package m /\ c_name c = m_name m) order (classes_of p order).
Proof.
  unfold classes_of. induction order as [|k l IH]; intros H; [constructor|]. cbn [map concat].
  destruct (nth_error (pr_messages p) k) as [m|] eqn:M; [|apply nth_error_None in M; specialize (H k (or_introl eq_refl)); lia].
  cbn [app]. constructor; [exists m; auto|]. apply IH. intros x X. apply H. now right.
Qed.

Lemma compiled_order cfg srt text path e out h cs : build_fine cfg -> permutes srt -> run_text cfg srt text path = CExit 0 e out (Some (h, cs)) ->
  exists p order, parse text path = POk p /\ well_ordered (pr_messages p) order /\
    Forall2 (fun k c => exists m, nth_error (pr_messages p) k = Some m /\ c_pkg c = m_package m /\ c_name c = m_name m) order cs /\
    out = output_text cfg path h cs.
Proof.
  intros B S E. destruct (parse text path) as [p|m l c| |] eqn:P; [| unfold run_text in E; rewrite P in E; discriminate..].
  destruct (run_exact cfg srt text path p B S P) as [(F & h' & order & W & O & G)|(F & t & x & l & c & _ & G)]; rewrite G in E; [|discriminate].
  cbn zeta in E. inversion E; subst. exists p, order. split; [reflexivity|]. split; [exact O|]. split; [|reflexivity].
  destruct O as (O & _). pose proof (classes_names (sort_fields srt p) order) as C. rewrite sorted_length in C. specialize (C (fun k K => proj1 (O k) K)).
  eapply Forall2_impl; [|exact C]. cbv beta. intros k c (m & M & N). rewrite sorted_nth in M. destruct (nth_error (pr_messages p) k) as [m0|]; [|discriminate].
  inversion M; subst. exists m0. split; [reflexivity|exact N].
Qed.

Lemma failure_circular p e l c x : failure p e l c -> e = b "circular reference with '" ++ x -> circular (pr_messages p) e.
Proof.
  intros [(n & o & _ & _ & _ & E & _)|[(C & _)|(m & _ & [(_ & E & _)|(f & _ & [(o & _ & _ & E & _)|[(_ & o & _ & _ & E & _)|(_ & _ & E & _)]])])]] X;
    try exact C; rewrite E in X; discriminate X.
Qed.

Lemma generate_circular cfg p : build_fine cfg -> refs_ok (pr_messages p) -> (forall n, In n file_flags -> is_bool (pr_options p) n) ->
  (cyclic (pr_messages p) <-> exists t x, generate cfg p = (t, GThrow (b "circular reference with '" ++ x) 0 0)).
Proof.
  intros B R O. split.
  - intros C. destruct (sort_exact (pr_messages p) R) as [(order & S & W & N)|(e & S & (k & m & M & K & ->) & X)]; [contradiction|].
    eexists. exists (m_name m ++ b "'"). unfold generate.
    erewrite gbind_eq; [|apply opt_bool_eq, O; now left|]. 2:{ erewrite gbind_eq; [|apply opt_bool_eq, O; right; now left|]. 2:{ erewrite gbind_eq; [|apply opt_bool_eq, O; right; right; now left|].
      2:{ erewrite gbind_eq; [|now apply inclusions_eq|]. 2:{ unfold gen_file. cbv zeta. unfold gbind at 1. erewrite gbind_eq; [|apply g_header|]. 2:{ rewrite S. unfold gbind. cbn [fst snd]. reflexivity. }
        cbn [fst snd]. reflexivity. } reflexivity. } reflexivity. } reflexivity. }
    reflexivity.
  - intros (t & x & G). destruct (generate_exact cfg p B R) as [(_ & h & order & _ & _ & G')|(_ & t' & e & l & c & G' & F)]; rewrite G' in G; [discriminate|].
    inversion G; subst. destruct (failure_circular p _ _ _ x F eq_refl) as (k & m & _ & K & _). now exists k.
Qed.

(** ** C41 *)
Lemma generate_many cfg p m : build_fine cfg -> refs_ok (pr_messages p) -> In m (pr_messages p) -> (64 < length (m_fields m))%nat ->
  exists t e l c, generate cfg p = (t, GThrow e l c) /\ failure p e l c.
Proof.
  intros B R M L. destruct (generate_exact cfg p B R) as [((_ & F & _) & _)|(_ & t & e & l & c & G & X)]; [|exists t, e, l, c; auto].
  destruct (F m M). lia.
Qed.

Lemma generate_many_reason cfg p t x l c : build_fine cfg -> refs_ok (pr_messages p) ->
  generate cfg p = (t, GThrow (b "more than 64 fields in message '" ++ x ++ b "'") l c) ->
  exists m, In m (pr_messages p) /\ m_name m = x /\ (64 < length (m_fields m))%nat.
Proof.
  intros B R E. destruct (generate_exact cfg p B R) as [(_ & h & order & _ & _ & G)|(_ & t' & e & l' & c' & G & F)]; rewrite G in E; [discriminate|].
  assert (Q : e = b "more than 64 fields in message '" ++ x ++ b "'") by congruence. clear E G. subst e.
  destruct F as [(n & o & _ & _ & _ & X & _)|[((k & m & _ & _ & X) & _)|(m & M & [(L & X & _)|(f & _ & [(o & _ & _ & X & _)|[(_ & o & _ & _ & X & _)|(_ & _ & X & _)]])])]]; try discriminate X.
  exists m. split; [exact M|]. apply app_inv_head in X. apply app_inv_tail in X. auto.
Qed.

Lemma generate_only_size cfg p : build_fine cfg -> refs_ok (pr_messages p) -> (forall n, In n file_flags -> is_bool (pr_options p) n) ->
  (forall m, In m (pr_messages p) -> Forall field_fine (m_fields m)) -> ~ cyclic (pr_messages p) ->
  ((forall m, In m (pr_messages p) -> (length (m_fields m) <= 64)%nat) /\ exists t d, generate cfg p = (t, GOk d)) \/
  (exists t m, In m (pr_messages p) /\ (64 < length (m_fields m))%nat /\ generate cfg p = (t, GThrow (b "more than 64 fields in message '" ++ m_name m ++ b "'") 0 0)).
Proof.
  intros B R O F C. destruct (generate_exact cfg p B R) as [((_ & X & _) & h & order & _ & _ & G)|(_ & t & e & l & c & G & X)].
  - left. split; [intros m M; apply (X m M)|]. eauto.
  - right. destruct X as [(n & o & N & Q & T & _)|[((k & m & _ & K & _) & _)|(m & M & [(L & -> & -> & ->)|(f & I & Q)])]].
    + specialize (O n N). unfold is_bool in O. rewrite Q in O. contradiction.
    + destruct C. now exists k.
    + exists t, m. auto.
    + exfalso. specialize (F m M). rewrite Forall_forall in F. destruct (F f I) as [T NF]. destruct Q as [(o & Q & X & _)|[(TR & o & Q & X & _)|(TR & X & _)]].
      * unfold is_bool in T. rewrite Q in T. contradiction.
      * destruct (NF TR) as (Y & _). rewrite Q in Y. contradiction.
      * destruct (NF TR) as (_ & Y1 & Y2). tauto.
Qed.

(** ** C35 *)
Lemma options_bool o l n : options_are o l -> (is_bool o n <-> bool_opt l n) /\ (bool_opt l n -> flag o n = on l n).
Proof.
  intros H. specialize (H n). unfold is_bool, bool_opt, flag, on. destruct (last_value l n) as [v|], (o_find n o) as [e|]; try contradiction; [|tauto].
  destruct H as (_ & T & V). rewrite T, V. destruct v as [x| | |]; cbn [value_type value_text]; split; try tauto; try (split; [discriminate|contradiction]).
  intros _. now destruct x.
Qed.

Lemma field_opts all pkg f s : field_is all pkg f s -> (field_fine f <-> field_opts_fine s) /\
  (field_opts_fine s -> transient f = on (sf_opts s) (b "transient") /\ (transient f = false -> given_name f = sname s)).
Proof.
  intros (_ & _ & _ & _ & N & _ & O). destruct (options_bool _ _ (b "transient") O) as [B1 B2].
  assert (NM : name_fine f <-> name_opt s).
  { specialize (O (b "name")). unfold name_fine, name_opt, given_name. rewrite N. destruct (last_value (sf_opts s) (b "name")) as [v|], (o_find (b "name") (f_options f)) as [e|]; try contradiction.
    - destruct O as (_ & T & V). rewrite T, V. destruct v as [x| | |]; cbn [value_type value_text]; (split; [intros (X & Y); try discriminate X; tauto|intros X; try contradiction; tauto]).
    - tauto. }
  assert (GN : name_opt s -> given_name f = sname s).
  { specialize (O (b "name")). unfold name_opt, given_name, sname. rewrite N. destruct (last_value (sf_opts s) (b "name")) as [v|], (o_find (b "name") (f_options f)) as [e|]; try contradiction; [|reflexivity].
    destruct O as (_ & T & V). rewrite V. destruct v; try contradiction. reflexivity. }
  unfold field_fine, field_opts_fine, transient in *. split.
  - split; intros [X Y]; (split; [tauto|]); intros Z; apply NM, Y.
    + now rewrite B2 by tauto.
    + now rewrite <- B2 by tauto.
  - intros [X Y]. split; [now apply B2|]. rewrite B2 by exact X. intros Z. now apply GN, Y.
Qed.

Lemma Forall2_nth {A B} (R : A -> B -> Prop) l l' : Forall2 R l l' -> forall k,
  match nth_error l k, nth_error l' k with Some x, Some y => R x y | None, None => True | _, _ => False end.
Proof. induction 1 as [|x y l l' H _ IH]; intros [|k]; cbn [nth_error]; [exact I|exact I|exact H|exact (IH k)]. Qed.

Lemma Forall2_in1 {A B} (R : A -> B -> Prop) l l' x : Forall2 R l l' -> In x l -> exists y, In y l' /\ R x y.
Proof. induction 1 as [|a c l l' H _ IH]; [intros []|]. intros [-> |X]; [exists c; split; [now left|exact H]|]. destruct (IH X) as (y & Y & Q). exists y. split; [now right|exact Q]. Qed.
Lemma Forall2_in2 {A B} (R : A -> B -> Prop) l l' y : Forall2 R l l' -> In y l' -> exists x, In x l /\ R x y.
Proof. induction 1 as [|a c l l' H _ IH]; [intros []|]. intros [-> |X]; [exists a; split; [now left|exact H]|]. destruct (IH X) as (x & Y & Q). exists x. split; [now right|exact Q]. Qed.

Lemma first_named_unique l q j k : first_named l q j -> first_named l q k -> j = k.
Proof.
  intros ((p & n & i & N & E) & M) ((p' & n' & i' & N' & E') & M').
  destruct (Nat.lt_total j k) as [L|[L|L]]; [|exact L|].
  - elim (M' j p n i L N E).
  - elim (M k p' n' i' L N' E').
Qed.

Lemma schema_refers p decls i j : proto_is p decls -> (refers (pr_messages p) i j <-> srefers (messages_of [] decls) i j).
Proof.
  intros [H _]. pose proof (Forall2_nth _ _ _ H i) as N. unfold refers, srefers. split.
  - intros (m & f & M & F & R). rewrite M in N. destruct (nth_error (messages_of [] decls) i) as [[[pkg name] items]|]; [|contradiction].
    destruct N as (_ & _ & FS & _). destruct (Forall2_in1 _ _ _ _ FS F) as (s & S & FI). destruct FI as (_ & T & _).
    exists pkg, name, items, s. destruct (sf_type s) as [| | | | | | | | | | | | | | |w]; try (destruct T; congruence). exists w.
    destruct T as (_ & k & K & FN). rewrite K in R. inversion R; subst. auto.
  - intros (pkg & name & items & s & w & M & S & T & FN). rewrite M in N. destruct (nth_error (pr_messages p) i) as [m|] eqn:Q; [|contradiction].
    destruct N as (_ & _ & FS & _). destruct (Forall2_in2 _ _ _ _ FS S) as (f & F & FI). exists m, f. split; [reflexivity|]. split; [exact F|].
    destruct FI as (_ & X & _). rewrite T in X. destruct X as (_ & k & K & FK). rewrite K. f_equal. eapply first_named_unique; eassumption.
Qed.

Lemma schema_fine_iff p decls : proto_is p decls -> (proto_fine p <-> schema_fine decls).
Proof.
  intros H. pose proof H as [HM HO]. unfold proto_fine, schema_fine.
  assert (C : cyclic (pr_messages p) <-> exists k, sreaches (messages_of [] decls) k k).
  { assert (RR : forall i j, reaches (pr_messages p) i j <-> sreaches (messages_of [] decls) i j).
    { intros i j. split; (induction 1 as [x y R|x y z R _ IH]; [constructor|econstructor; [|exact IH]]); apply (schema_refers p decls x y H); exact R. }
    unfold cyclic. split; intros (k & K); exists k; now apply RR. }
  assert (MF : forall m d, message_is (messages_of [] decls) m d -> (message_fine m <-> let '(_, _, items) := d in (length (item_fields items) <= 64)%nat /\ Forall field_opts_fine (item_fields items))).
  { intros m [[pkg name] items] (_ & _ & FS & _). unfold message_fine. rewrite (Forall2_length _ _ _ FS). rewrite !Forall_forall. split; intros [A B]; (split; [exact A|]).
    - intros s S. destruct (Forall2_in2 _ _ _ _ FS S) as (f & F & FI). apply (field_opts _ _ _ _ FI). now apply B.
    - intros f F. destruct (Forall2_in1 _ _ _ _ FS F) as (s & S & FI). apply (field_opts _ _ _ _ FI). now apply B. }
  rewrite C. split; intros (A & B & D); (split; [|split; [|exact D]]).
  - intros n N. apply (options_bool _ _ n HO). now apply A.
  - intros pkg name items I. destruct (Forall2_in2 _ _ _ _ HM I) as (m & M & MI). apply (MF m _ MI). now apply B.
  - intros n N. apply (options_bool _ _ n HO). now apply A.
  - intros m M. destruct (Forall2_in1 _ _ _ _ HM M) as ([[pkg name] items] & I & MI). apply (MF m _ MI). now apply (B pkg name items).
Qed.

(** The compiler on the text of a schema. *)
Lemma schema_compiles cfg srt stray decls text next path : build_fine cfg -> permutes srt ->
  laid stray (schema_pieces decls) text next -> schema_ok decls -> sep stray next ->
  (schema_fine decls /\ exists out d, run_text cfg srt (text ++ next) path = CExit 0 [] out (Some d)) \/
  (~ schema_fine decls /\ exists err out, run_text cfg srt (text ++ next) path = CExit 1 err out None).
Proof.
  intros B S L K N. destruct (recovers stray decls text next path L K N) as (p & P & I & F).
  destruct (run_exact cfg srt (text ++ next) path p B S P) as [(X & h & order & _ & _ & G)|(X & t & e & l & c & _ & G)].
  - left. split; [now apply (schema_fine_iff p decls I)|]. cbn zeta in G. eauto.
  - right. split; [intros Y; apply X; now apply (schema_fine_iff p decls I)|]. eauto.
Qed.

(** ** C36 *)
Lemma word_char_spec c : word_char c = true <-> pletter c \/ pdigit c.
Proof. unfold word_char, pletter, pdigit. rewrite !orb_true_iff, !andb_true_iff, !Z.leb_le, Z.eqb_eq. tauto. Qed.

Lemma guard_ident file : ident (guard_of file).
Proof.
  unfold guard_of. change (b "GUARD_") with ("G"%char :: b "UARD_"). cbn [app]. split; [left; vm_compute; intuition discriminate|].
  apply Forall_app. split.
  - apply Forall_forall. intros c C. apply word_char_spec. vm_compute in C. repeat (destruct C as [<-|C]; [reflexivity|]). destruct C.
  - apply Forall_forall. intros c C. apply in_map_iff in C as (d & <- & _). apply word_char_spec. destruct (word_char d) eqn:W; [exact W|reflexivity].
Qed.

Lemma guard_alike f g : guard_of f = guard_of g <-> alike f g.
Proof.
  unfold guard_of, alike. split.
  - intros H. apply app_inv_head in H. revert g H. induction f as [|c f IH]; intros [|d g] H; try discriminate H; [constructor|].
    cbn [map] in H. inversion H as [[A B]]. constructor; [|now apply IH]. unfold special. destruct (word_char c) eqn:C, (word_char d) eqn:D; subst; auto.
  - intros H. f_equal. induction H as [|c d f g A _ IH]; [reflexivity|]. cbn [map]. rewrite IH. f_equal. destruct A as [-> |[[C| ->] [D| ->]]]; try reflexivity.
    + now rewrite C, D.
    + now rewrite C.
    + now rewrite D.
Qed.

(** ** C37 *)
Lemma components_join p : forall acc, ~ In "."%char acc ->
  components acc p <> [] /\ join (b ".") (components acc p) = rev acc ++ p /\ Forall (fun c => ~ In "."%char c) (components acc p).
Proof.
  induction p as [|c p IH]; intros acc H; cbn [components].
  - split; [discriminate|]. cbn [join]. rewrite app_nil_r. split; [reflexivity|]. repeat constructor. now rewrite <- in_rev.
  - destruct (Ascii.eqb_spec c ".") as [-> |N].
    + destruct (IH [] (fun x => x)) as (A & B & C). split; [discriminate|]. split; [|constructor; [now rewrite <- in_rev|exact C]].
      destruct (components [] p) as [|y l] eqn:E; [contradiction|]. change (join (b ".") (rev acc :: y :: l)) with (rev acc ++ b "." ++ join (b ".") (y :: l)).
      rewrite B. reflexivity.
    + destruct (IH (c :: acc)) as (A & B & C); [intros [X|X]; congruence || contradiction|]. split; [exact A|]. split; [|exact C].
      rewrite B. cbn [rev]. rewrite <- app_assoc. reflexivity.
Qed.

Lemma parts_ok pkg : package_parts pkg (parts pkg).
Proof.
  unfold package_parts, parts. destruct pkg as [|c p]; [now left|right]. destruct (components_join (c :: p) [] (fun x => x)) as (A & B & C).
  split; [discriminate|]. auto.
Qed.

Lemma join_split x ps y qs : ~ In "."%char x -> ~ In "."%char y -> join (b ".") (x :: ps) = join (b ".") (y :: qs) ->
  x = y /\ (ps = [] <-> qs = []) /\ (ps <> [] -> qs <> [] -> join (b ".") ps = join (b ".") qs).
Proof.
  intros HX HY. assert (K : forall u v x y, ~ In "."%char x -> ~ In "."%char y -> x ++ "."%char :: u = y ++ "."%char :: v -> x = y /\ u = v).
  { clear. intros u v. induction x as [|c x IH]; intros [|d y] HX HY E; cbn in E; inversion E; subst.
    - auto.
    - destruct HY. now left.
    - destruct HX. now left.
    - destruct (IH y) as [-> ->]; auto; intros X; [apply HX|apply HY]; now right. }
  destruct ps as [|p ps], qs as [|q qs]; cbn [join].
  - intros ->. split; [reflexivity|]. split; [tauto|]. congruence.
  - intros ->. destruct HX. apply in_app_iff. right. now left.
  - intros <-. destruct HY. apply in_app_iff. right. now left.
  - intros E. apply K in E; auto. destruct E as [-> E]. split; [reflexivity|]. split; [split; discriminate|]. intros _ _. exact E.
Qed.

Lemma package_parts_unique pkg ps qs : package_parts pkg ps -> package_parts pkg qs -> ps = qs.
Proof.
  intros [[E ->]|(N & A & J & F)] [[E' ->]|(N' & A' & J' & F')]; try congruence. rewrite <- J' in J. clear N N' J' pkg.
  revert qs A' J F'. induction F as [|x ps HX _ IH]; [now destruct A|]. intros [|y qs] A' J F'; [now destruct A'|]. inversion F'; subst.
  destruct (join_split x ps y qs) as (-> & E & J'); auto. destruct ps as [|p ps]; [now rewrite (proj1 E eq_refl)|]. destruct qs as [|q qs]; [now rewrite (proj2 E eq_refl)|].
  apply (f_equal (cons y)). apply IH; auto; [discriminate|discriminate|]. apply J'; discriminate.
Qed.

Lemma namespaces_balanced m ps : package_parts (m_package m) ps ->
  gen_namespace m true = (concat (map (fun c => b "namespace " ++ c ++ b " {" ++ [LF]) ps), GOk tt) /\
  gen_namespace m false = (concat (map (fun c => b "} // namespace " ++ c ++ [LF]) ps), GOk tt).
Proof.
  intros H. rewrite (package_parts_unique _ _ _ H (parts_ok _)). rewrite gen_namespace_open, gen_namespace_close. unfold opening, closing, ln.
  split; f_equal; f_equal; apply map_ext; intros c; now rewrite <- !app_assoc.
Qed.

Lemma count_app c s t : count c (s ++ t) = (count c s + count c t)%nat.
Proof. induction s as [|d s IH]; [reflexivity|]. cbn [app count]. rewrite IH. lia. Qed.
Lemma count_none c s : ~ In c s -> count c s = 0%nat.
Proof. induction s as [|d s IH]; intros H; [reflexivity|]. cbn [count]. rewrite IH by (intros X; apply H; now right). destruct (Ascii.eqb_spec d c) as [-> |]; [destruct H; now left|reflexivity]. Qed.

Lemma namespaces_count m ps : package_parts (m_package m) ps -> ~ In "{"%char (m_package m) -> ~ In "}"%char (m_package m) ->
  count "{" (fst (gen_namespace m true)) = length ps /\ count "}" (fst (gen_namespace m true)) = 0%nat /\
  count "}" (fst (gen_namespace m false)) = length ps /\ count "{" (fst (gen_namespace m false)) = 0%nat.
Proof.
  intros H A B. destruct (namespaces_balanced m ps H) as [-> ->]. cbn [fst].
  assert (I : forall x c, In x ps -> In c x -> In c (m_package m)).
  { intros x c X C. destruct H as [[_ ->]|(_ & _ & <- & _)]; [destruct X|]. clear - X C. induction ps as [|y l IH]; [destruct X|].
    destruct l as [|z l]; [destruct X as [-> |[]]; exact C|]. change (join (b ".") (y :: z :: l)) with (y ++ b "." ++ join (b ".") (z :: l)).
    destruct X as [-> |X]; [apply in_app_iff; now left|]. rewrite !in_app_iff. right. right. now apply IH. }
  assert (NB : forall x, In x ps -> ~ In "{"%char x /\ ~ In "}"%char x) by (intros x X; split; intros C; [apply A|apply B]; now apply (I x)).
  clear - NB. induction ps as [|x l IH]; [cbn; auto|]. destruct (NB x (or_introl eq_refl)) as [N1 N2].
  destruct IH as (I1 & I2 & I3 & I4); [intros y Y; apply NB; now right|]. cbn [map concat length]. rewrite !count_app, I1, I2, I3, I4, (count_none _ _ N1), (count_none _ _ N2).
  vm_compute (count _ (b _)). cbn. auto.
Qed.

Lemma package_part_idents w : dotted w -> exists ps, package_parts w ps /\ Forall ident ps.
Proof.
  assert (ND : forall w, ident w -> ~ In "."%char w).
  { intros [|c r] H; [destruct H|]. destruct H as [L F]. rewrite Forall_forall in F. intros [-> |I].
    - unfold pletter in L. vm_compute in L. intuition congruence || (destruct L as [[? ?]|[[? ?]|?]]; congruence).
    - destruct (F _ I) as [X|X]; unfold pletter, pdigit in X; vm_compute in X; intuition congruence. }
  assert (NE : forall w, ident w -> w <> []) by (intros [|]; [intros []|discriminate]).
  induction 1 as [w I|w r I D (ps & [[-> ->]|(N & NP & J & F)] & IP)].
  - exists [w]. split; [|repeat constructor; exact I]. right. split; [now apply NE|]. split; [discriminate|]. split; [reflexivity|]. repeat constructor. now apply ND.
  - exists [w; []]. exfalso. inversion D as [x X|x y X]; [destruct X|]. destruct x; [destruct X|discriminate].
  - exists (w :: ps). split; [|constructor; assumption]. right. split; [destruct w; discriminate|]. split; [discriminate|]. split; [|constructor; [now apply ND|exact F]].
    destruct ps as [|p ps]; [contradiction|]. change (join (b ".") (w :: p :: ps)) with (w ++ b "." ++ join (b ".") (p :: ps)). now rewrite J.
Qed.

(** What the generator prints is printed as far as it gets (C49). *)
Lemma main_exact cfg srt fs input output text path : build_fine cfg -> permutes srt ->
  fs_read fs input = Some text -> fs_real fs input = Some path -> fs_create fs output = true -> parse text path <> PFuel ->
  exists status err out d, run_text cfg srt text path = CExit status err out d /\
    main cfg srt fs [input; output] = PrExit status err [] (Some (output, out)) /\
    main cfg srt fs [input] = PrExit status err out None /\
    (status = 0 <-> exists p, parse text path = POk p /\ proto_fine p) /\ (status = 0 \/ status = 1).
Proof.
  intros B S R P C H. pose proof (run_total cfg srt text path B S) as T. destruct (run_text cfg srt text path) as [s e o d| | |] eqn:E; try contradiction.
  exists s, e, o, d. split; [reflexivity|]. unfold main. cbv zeta. rewrite R, P, C, E. destruct T as (T1 & T2 & _). split; [reflexivity|]. split; [reflexivity|]. split; [exact T1|tauto].
Qed.

Lemma main_never_bad cfg srt fs args r : build_fine cfg -> permutes srt -> main cfg srt fs args = PrBad r ->
  r = CHangs /\ exists input text path, fs_read fs input = Some text /\ fs_real fs input = Some path /\ parse text path = PFuel.
Proof.
  intros B S. unfold main. cbv zeta.
  destruct args as [|i [|o [|x y]]]; try discriminate; (destruct (fs_read fs i) as [text|] eqn:R; [|discriminate]); try (destruct (fs_create fs o); [|discriminate]);
    (destruct (fs_real fs i) as [path|] eqn:P; [|discriminate]); pose proof (run_total cfg srt text path B S) as T; (destruct (run_text cfg srt text path) as [s e t d| | |]; [discriminate|contradiction|contradiction|]);
    intros E; injection E as <-; (split; [reflexivity|]); exists i, text, path; auto.
Qed.

Lemma dec_numeral z : numeral z (dec z).
Proof.
  unfold numeral, dec. destruct (Z.ltb_spec z 0).
  - exists (dec_nat (- z)). split; [apply dec_nat_int_part; lia|]. split; [|reflexivity].
    change (dval (dec_nat (- z))) with (digits_val (dec_nat (- z))). rewrite (proj1 (dec_nat_spec (- z) ltac:(lia))). lia.
  - exists (dec_nat z). split; [apply dec_nat_int_part; lia|]. split; [|reflexivity].
    change (dval (dec_nat z)) with (digits_val (dec_nat z)). rewrite (proj1 (dec_nat_spec z ltac:(lia))). lia.
Qed.

Lemma report_spec path m l c : exists lt ct, numeral l lt /\ numeral c ct /\
  report path m l c = path ++ b ":" ++ lt ++ b ":" ++ ct ++ b ": error: " ++ m ++ b " (" ++ lt ++ b ":" ++ ct ++ b ")" ++ [LF].
Proof.
  exists (dec l), (dec c). split; [apply dec_numeral|]. split; [apply dec_numeral|].
  unfold report, cause. repeat rewrite <- app_assoc. reflexivity.
Qed.

Lemma run_message cfg srt text path s err out d : build_fine cfg -> permutes srt ->
  run_text cfg srt text path = CExit s err out d ->
  (s = 0 /\ err = []) \/
  (s = 1 /\ exists m l c lt ct, numeral l lt /\ numeral c ct /\
     err = path ++ b ":" ++ lt ++ b ":" ++ ct ++ b ": error: " ++ m ++ b " (" ++ lt ++ b ":" ++ ct ++ b ")" ++ [LF] /\
     ((parse text path = PThrow m l c /\ out = []) \/ exists p, parse text path = POk p /\ failure p m l c)).
Proof.
  intros B S E. destruct (parse text path) as [p|m l c| |] eqn:P.
  - destruct (run_exact cfg srt text path p B S P) as [(_ & h & order & _ & _ & G)|(_ & t & x & l & c & F & G)]; rewrite G in E.
    + left. cbn zeta in E. injection E as <- <- _ _. auto.
    + right. cbn zeta in E. injection E as <- <- _ _. split; [reflexivity|]. destruct (report_spec path x l c) as (lt & ct & N1 & N2 & R).
      exists x, l, c, lt, ct. split; [exact N1|]. split; [exact N2|]. split; [exact R|]. right. exists p. auto.
  - right. unfold run_text in E. rewrite P in E. injection E as <- <- <- _. split; [reflexivity|].
    destruct (report_spec path m l c) as (lt & ct & N1 & N2 & R). exists m, l, c, lt, ct. split; [exact N1|]. split; [exact N2|]. split; [exact R|]. left. auto.
  - unfold run_text in E. rewrite P in E. discriminate E.
  - unfold run_text in E. rewrite P in E. discriminate E.
Qed.

(** Before the schema is read. *)
Lemma main_refused cfg srt fs :
  (forall args, length args <> 1%nat -> length args <> 2%nat ->
     main cfg srt fs args = PrExit 1 (b "protogen " ++ b_version cfg ++ [LF] ++ b "Usage: protogen <proto3 file> [ <output file> ]" ++ [LF]) [] None) /\
  (forall i more, (length more <= 1)%nat -> fs_read fs i = None ->
     main cfg srt fs (i :: more) = PrExit 1 (b "ERROR: Unable to open '" ++ i ++ b "'" ++ [LF]) [] None) /\
  (forall i o text, fs_read fs i = Some text -> fs_create fs o = false ->
     main cfg srt fs [i; o] = PrExit 1 (b "ERROR: Unable to open '" ++ o ++ b "'" ++ [LF]) [] None) /\
  (forall i text, fs_read fs i = Some text -> fs_real fs i = None ->
     main cfg srt fs [i] = PrExit 1 [] [] None /\
     forall o, fs_create fs o = true -> main cfg srt fs [i; o] = PrExit 1 [] [] (Some (o, []))).
Proof.
  unfold main. cbv zeta. repeat split.
  - intros [|i [|o [|x y]]] A B; try reflexivity; [now elim A|now elim B].
  - intros i [|o [|x y]] L R; [now rewrite R|now rewrite R|cbn [length] in L; lia].
  - intros i o text R C. now rewrite R, C.
  - now rewrite H, H0.
  - intros o C. now rewrite H, C, H0.
Qed.
