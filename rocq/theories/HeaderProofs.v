(** Exactly the accepted schemas compile, and the names of their fields. *)
From Coq Require Import Lia Permutation.
From Verif Require Import Bytes BaseProofs Num Types Read SpecInterp SpecWrite ProtoLex ProtoParse SpecProto SpecTemplate Cpp Gen MainC SpecGen SpecCpp SpecFile SpecOpts
  GenText GenFile BackProofs BackMore PAcceptProofs SpecProgram ProgramProofs NameProofs CheckProofs EndProofs SpecLiteral LiteralProofs SpecHeader.

(** ** Names *)
Definition wn (p : proto) (f : field) : bytes :=
  if obfuscated p then effective true (SpecHeader.label p f) else match lit_string (SpecHeader.label p f) with Some v => v | None => [] end.
Definition wkey (p : proto) (f : field) : bytes := if obfuscated p then reveal (wn p f) else wn p f.
Definition lit_exists (p : proto) (f : field) : Prop := obfuscated p = false -> exists v, denotes (SpecHeader.label p f) v.

Lemma to_nul_any v : exists n, to_nul v n.
Proof. exists (cstr v). now apply to_nul_iff. Qed.

Lemma known_iff p f n : lit_exists p f -> (known_as p f n <-> n = wn p f).
Proof.
  unfold known_as, wn, lit_exists. intros L. destruct (obfuscated p); [reflexivity|]. destruct (L eq_refl) as (v & D). destruct (to_nul_any v) as (x & T).
  pose proof (proj2 (lit_string_iff _ x) (ex_intro _ v (conj D T))) as E. rewrite E. split.
  - intros H. apply lit_string_iff in H. congruence.
  - intros ->. now exists v.
Qed.

Lemma wn_values p f : lit_exists p f ->
  lit_string (literal_of (obfuscated p) (SpecHeader.label p f)) = Some (wkey p f) /\ label_value (Label (obfuscated p) (literal_of (obfuscated p) (SpecHeader.label p f))) = Some (wn p f).
Proof.
  intros L. unfold wkey, wn. destruct (obfuscated p) eqn:O; cbn [literal_of label_value].
  - exact (label_means true (SpecHeader.label p f) ltac:(discriminate)).
  - destruct (L O) as (v & D). destruct (to_nul_any v) as (x & T). pose proof (proj2 (lit_string_iff _ x) (ex_intro _ v (conj D T))) as E. rewrite E. split; reflexivity.
Qed.

Lemma wkey_eqb p f name : bytes_eqb (wkey p f) (if obfuscated p then reveal name else name) = bytes_eqb (wn p f) name.
Proof.
  unfold wkey. destruct (obfuscated p); [|reflexivity]. destruct (bytes_eqb (wn p f) name) eqn:E.
  - apply bytes_eqb_true in E. rewrite <- E. apply bytes_eqb_refl.
  - apply bytes_eqb_false in E. apply bytes_eqb_false. intros K. apply E. apply (f_equal reveal) in K. now rewrite !reveal_inv in K.
Qed.

Fixpoint wn_at (p : proto) (k : nat) (l : list field) : list (nat * bytes) :=
  match l with
  | [] => []
  | f :: r => if transient f then wn_at p (S k) r else (k, wn p f) :: wn_at p (S k) r
  end.

Lemma written_as_iff p l : (forall f, In f l -> transient f = false -> lit_exists p f) -> forall k w, written_as p k l w <-> w = wn_at p k l.
Proof.
  induction l as [|f l IH]; intros L k w; cbn [written_as wn_at]; [reflexivity|]. destruct (transient f) eqn:T.
  - apply IH. intros g G. apply L. now right.
  - pose proof (L f (or_introl eq_refl) T) as Lf. assert (L' : forall g, In g l -> transient g = false -> lit_exists p g) by (intros g G; apply L; now right). split.
    + intros (n & w' & -> & K & W). apply (known_iff p f n Lf) in K. apply (IH L') in W. now subst.
    + intros ->. exists (wn p f), (wn_at p (S k) l). split; [reflexivity|]. split; [now apply known_iff|now apply IH].
Qed.

Section Tables.
  Context (p : proto).
  Let obf := obfuscated p.
  Let lab := SpecHeader.label p.

  Lemma write_table' l : forall pre, NoDup (map f_name (pre ++ l)) -> (forall f, In f l -> transient f = false -> lit_exists p f) ->
    all_some (map (fun x => match member_pos (map f_name (pre ++ l)) (fst x), label_value (snd x) with Some k, Some s => Some (k, s) | _, _ => None end)
                  (map (fun f => (f_name f, Label obf (literal_of obf (lab f)))) (keep l))) = Some (wn_at p (length pre) l).
  Proof.
    induction l as [|f l IH]; intros pre N F; [reflexivity|]. rewrite keep_cons. cbn [wn_at]. specialize (IH (pre ++ [f])). rewrite <- app_assoc in IH. cbn [app] in IH.
    specialize (IH N (fun g G => F g (or_intror G))). rewrite app_length in IH. cbn [length] in IH. replace (length pre + 1)%nat with (S (length pre)) in IH by lia.
    destruct (transient f) eqn:E; [exact IH|]. cbn [map all_some fst snd]. unfold obf, lab in *. rewrite (proj2 (wn_values p f (F f (or_introl eq_refl) E))).
    rewrite map_app. cbn [map]. rewrite member_pos_at.
    - rewrite map_length. rewrite map_app in IH. cbn [map] in IH. rewrite IH. reflexivity.
    - rewrite map_app in N. cbn [map] in N. apply NoDup_remove_2 in N. intros X. apply N. apply in_app_iff. now left.
  Qed.

  Lemma index_table' l : forall i, (forall f, In f l -> lit_exists p f) ->
    all_some (map (fun x => option_map (fun s => (s, snd x)) (lit_string (fst x)))
                  (map (fun x => (literal_of obf (lab (snd x)), fst x)) (numbered i l))) =
    Some (map (fun x => (wkey p (snd x), fst x)) (numbered i l)).
  Proof.
    induction l as [|f l IH]; intros i F; [reflexivity|]. cbn [numbered map all_some fst snd]. unfold obf, lab in *.
    rewrite (proj1 (wn_values p f (F f (or_introl eq_refl)))). cbn [option_map]. rewrite IH by (intros g G; apply F; now right). reflexivity.
  Qed.

  Lemma index_later' l name : forall i, index_lookup (map (fun x => (wkey p (snd x), fst x)) (numbered i l)) name = -1 \/
    i <= index_lookup (map (fun x => (wkey p (snd x), fst x)) (numbered i l)) name.
  Proof.
    induction l as [|f l IH]; intros i; [now left|]. cbn [numbered map index_lookup fst snd]. destruct (bytes_eqb _ name); [right; lia|].
    destruct (IH (i + 1)); [now left|right; lia].
  Qed.

  Lemma select_at' l name : forall i k, 0 <= i ->
    (let idx := index_lookup (map (fun x => (wkey p (snd x), fst x)) (numbered i (keep l))) (if obf then reveal name else name) in
     if idx <? 0 then None else case_lookup (cases_at i k l) idx) = member_named (wn_at p k l) name.
  Proof.
    cbv zeta. induction l as [|f l IH]; intros i k I; [reflexivity|]. rewrite keep_cons. cbn [cases_at wn_at]. destruct (transient f); [now apply IH|].
    cbn [numbered map index_lookup fst snd member_named]. unfold obf at 1 3. rewrite wkey_eqb.
    destruct (bytes_eqb (wn p f) name).
    - rewrite (proj2 (Z.ltb_ge i 0)) by lia. cbn [case_lookup]. now rewrite Z.eqb_refl.
    - rewrite <- (IH (i + 1) (S k)) by lia. cbn [case_lookup]. fold obf.
      destruct (index_later' (keep l) (if obf then reveal name else name) (i + 1)) as [-> |K]; [reflexivity|].
      rewrite (proj2 (Z.ltb_ge _ 0)) by lia. now rewrite (proj2 (Z.eqb_neq i _)) by lia.
  Qed.
End Tables.

(** ** One class *)
Lemma message_lits p m : message_accepted p m -> forall f, In f (m_fields m) -> transient f = false -> lit_exists p f.
Proof. intros (_ & _ & _ & _ & L) f F T O. exact (L f F T O). Qed.

Lemma class_means' p h env T m :
  let o := pr_options p in
  message_accepted p m ->
  (forall f, In f (m_fields m) -> member_ty h env (member_type (pr_messages p) (flag o (b "cpp_use_lists")) f) = Some (field_ty h T f)) ->
  exists g, class_ty h env (class_of (pr_messages p) (flag o (b "obfuscate_strings")) (flag o (b "cpp_use_lists")) (flag o (b "number_names")) m) = Some (TMsg (map (field_ty h T) (m_fields m)) g) /\
    g_write g = wn_at p 0 (m_fields m) /\ forall name, select_member g name = member_named (g_write g) name.
Proof.
  intros o A H. pose proof (message_lits p m A) as L. destruct A as (N & K & KM & _ & _). unfold class_ty, class_of. cbn [c_members c_name c_empty c_clear c_equal c_swap c_write c_index c_cases c_obf]. cbv zeta.
  rewrite map_snd_members. cbn [forallb]. rewrite !names_same. cbn [negb].
  assert (E1 : existsb is_keyword (map f_name (m_fields m)) = false).
  { apply not_true_is_false. rewrite existsb_exists. intros (w & I & E). apply in_map_iff in I as (f & <- & I). rewrite keyword_no in E; [discriminate|]. rewrite keywords_iff. exact (K f I). }
  rewrite E1, (keyword_no (m_name m)) by (rewrite keywords_iff; exact KM). rewrite (proj2 (nodupb_spec _) N). cbn [orb negb].
  assert (E2 : all_some (map (fun x => member_ty h env (fst x)) (map (fun f => (member_type (pr_messages p) (flag o (b "cpp_use_lists")) f, f_name f)) (m_fields m))) = Some (map (field_ty h T) (m_fields m)))
    by (rewrite map_map; apply all_some_map; exact H).
  rewrite E2. clear E2.
  pose proof (write_table' p (m_fields m) [] N L) as W. cbn [app length] in W. unfold written. fold (keep (m_fields m)).
  unfold obfuscated, SpecHeader.label in W. fold o in W. rewrite W. clear W.
  pose proof (cases_table p (m_fields m) [] 0 N) as C. cbn [app length] in C. rewrite C. clear C.
  pose proof (index_table' p (keep (m_fields m)) 0) as X. unfold obfuscated at 1, SpecHeader.label in X. fold o in X.
  rewrite X; [|intros f I; apply filter_In in I as (I & E); apply (L f I); now apply negb_true_iff]. clear X.
  eexists. split; [reflexivity|]. cbn [g_write]. split; [reflexivity|]. intros name. unfold select_member, gen_index. cbn [g_obf g_index g_cases].
  pose proof (select_at' p (m_fields m) name 0 O ltac:(lia)) as S. cbv zeta in S. rewrite <- S.
  destruct (keep (m_fields m)) as [|x r]; [reflexivity|]. reflexivity.
Qed.

(** ** All classes *)
Definition solves_at (p : proto) (h : headers) (T : nat -> ty) (k : nat) : Prop :=
  forall m, nth_error (pr_messages p) k = Some m ->
    exists g, T k = TMsg (map (field_ty h T) (m_fields m)) g /\ g_write g = wn_at p 0 (m_fields m) /\
      forall name, select_member g name = member_named (g_write g) name.

Lemma classes_means' p h order : refs_ok (pr_messages p) -> wanted (pr_messages p) h -> well_ordered (pr_messages p) order ->
  (forall m, In m (pr_messages p) -> message_accepted p m) -> NoDup (concat (map structs (pr_messages p))) -> bytes_cpp p h ->
  forall v u T env, order = u ++ v -> means p u T env -> (forall k, In k u -> solves_at p h T k) ->
  exists T' env', classes_ty h env (classes_of p v) = Some env' /\ means p order T' env' /\ (forall k, In k order -> solves_at p h T' k).
Proof.
  intros R W (O1 & O2 & O3) C N B. induction v as [|k v IH]; intros u T env E M S.
  - rewrite app_nil_r in E. subst. exists T, env. auto.
  - assert (K : In k order) by (rewrite E; apply in_app_iff; right; now left). pose proof (proj1 (O1 k) K) as L.
    destruct (nth_error (pr_messages p) k) as [m|] eqn:F; [|apply nth_error_None in F; lia]. pose proof (nth_error_In _ _ F) as I.
    assert (KU : ~ In k u) by (rewrite E in O2; apply NoDup_remove_2 in O2; intros X; apply O2; apply in_app_iff; now left).
    destruct (class_means' p h env T m (C m I)) as (g & G1 & G2 & G3).
    { intros f J. apply (member_means p h u T env f m); try assumption. intros j Q. apply (O3 u k v E). exists m, f. auto. }
    set (t := TMsg (map (field_ty h T) (m_fields m)) g) in *. set (T' := fun j => if Nat.eqb j k then t else T j).
    assert (TU : forall j, In j u -> T' j = T j) by (intros j J; unfold T'; destruct (Nat.eqb_spec j k); [subst; contradiction|reflexivity]).
    assert (TK : T' k = t) by (unfold T'; now rewrite Nat.eqb_refl).
    assert (REF : forall i m' f j, In i (u ++ [k]) -> nth_error (pr_messages p) i = Some m' -> In f (m_fields m') -> f_ref f = Some j -> In j u).
    { intros i m' f j Q1 Q2 Q3 Q4. apply in_app_iff in Q1 as [Q1|[<-|[]]].
      - apply in_split in Q1 as (u1 & u2 & Q1). rewrite Q1 in E. rewrite <- app_assoc in E. cbn [app] in E.
        rewrite Q1. apply in_app_iff. left. apply (O3 u1 i (u2 ++ k :: v) E). exists m', f. auto.
      - apply (O3 u k v E). exists m', f. auto. }
    destruct (IH (u ++ [k]) T' (env ++ [(m_package m, m_name m, t)])) as (T2 & env2 & X1 & X2 & X3).
    + rewrite <- app_assoc. exact E.
    + apply Forall2_app.
      * clear - M TU. unfold means in *. induction M as [|i e u env (m0 & A & Q) M IHM]; constructor.
        -- exists m0. split; [exact A|]. rewrite TU by now left. exact Q.
        -- apply IHM. intros j J. apply TU. now right.
      * constructor; [|constructor]. exists m. split; [exact F|]. now rewrite TK.
    + intros i Q1 m' Q2. assert (XT : map (field_ty h T) (m_fields m') = map (field_ty h T') (m_fields m')).
      { apply map_ext_in. intros f J. apply field_ty_ext. intros j Q. symmetry. apply TU. exact (REF i m' f j Q1 Q2 J Q). }
      apply in_app_iff in Q1 as [Q1|[<-|[]]].
      * rewrite TU by exact Q1. rewrite <- XT. exact (S i Q1 m' Q2).
      * assert (m' = m) by congruence. subst m'. rewrite TK. unfold t. rewrite <- XT. exists g. auto.
    + exists T2, env2. split; [|auto]. unfold classes_of. cbn [map concat]. rewrite F. cbn [app classes_ty].
      unfold t in X1, G1. rewrite G1. exact X1.
Qed.

(** ** Names of structures and namespaces *)
Definition names_accepted (p : proto) : Prop :=
  NoDup (concat (map structs (pr_messages p))) /\
  (forall m m' ns, In m (pr_messages p) -> In m' (pr_messages p) -> encloses ns (m_package m) -> ~ In ns (structs m')) /\
  (forall m ps w, In m (pr_messages p) -> package_parts (m_package m) ps -> In w ps -> ~ In w reserved_words).

Lemma keyword_iff w : is_keyword w = true <-> In w reserved_words.
Proof. unfold is_keyword. rewrite existsb_bytes. apply keywords_iff. Qed.

Lemma namespaces_iff o1 o2 o3 msgs m ns : In ns (namespaces (class_of msgs o1 o2 o3 m)) <-> encloses ns (m_package m).
Proof.
  unfold namespaces. cbn [class_of c_pkg]. unfold encloses. destruct (m_package m) as [|a r] eqn:E; [split; [intros []|intros (X & _); congruence]|].
  rewrite prefixes_in. cbn [rev app]. split.
  - intros K. split; [discriminate|]. destruct K as [K|(u & v & K & ->)]; [now left|right; now exists v].
  - intros (_ & [-> |(v & K)]); [now left|right; now exists ns, v].
Qed.

Lemma names_iff p order : well_ordered (pr_messages p) order -> (names_ok (classes_of p order) = true <-> names_accepted p).
Proof.
  intros O. destruct (order_perm p order O) as (ms & P & ->).
  assert (X : forall o1 o2 o3, flat_map struct_names (map (class_of (pr_messages p) o1 o2 o3) ms) = concat (map structs ms)).
  { intros o1 o2 o3. rewrite flat_map_concat_map, map_map. reflexivity. }
  assert (PS : Permutation (concat (map structs (pr_messages p))) (concat (map structs ms))) by (rewrite <- !flat_map_concat_map; apply Permutation_flat_map; now symmetry).
  unfold names_ok, names_accepted. cbv zeta. rewrite X, !andb_true_iff. rewrite and_assoc.
  assert (S : forall ns, existsb (bytes_eqb ns) (concat (map structs ms)) = true <-> exists m', In m' (pr_messages p) /\ In ns (structs m')).
  { intros ns. rewrite existsb_bytes, in_concat. split.
    - intros (l & J & Q). apply in_map_iff in J as (m' & <- & J). exists m'. split; [exact (Permutation_in _ P J)|exact Q].
    - intros (m' & J & Q). exists (structs m'). split; [|exact Q]. apply in_map. exact (Permutation_in _ (Permutation_sym P) J). }
  rewrite nodupb_spec. split.
  - intros (N & A & K). split; [exact (Permutation_NoDup (Permutation_sym PS) N)|]. split.
    + intros m m' ns M M' E I. rewrite forallb_forall in A. specialize (A ns). rewrite negb_true_iff in A.
      enough (Y : existsb (bytes_eqb ns) (concat (map structs ms)) = false) by (rewrite (proj2 (S ns)) in Y; [discriminate|eauto]). apply A.
      apply in_flat_map. eexists. split; [apply in_map; exact (Permutation_in _ (Permutation_sym P) M)|]. now apply namespaces_iff.
    + intros m ps w M PP W I. rewrite forallb_forall in K. specialize (K _ (in_map _ _ _ (Permutation_in _ (Permutation_sym P) M))). cbn [class_of c_pkg] in K.
      rewrite (package_parts_unique _ _ _ PP (parts_ok _)) in W. unfold parts in W. destruct (m_package m) as [|a r] eqn:E; [destruct W|].
      apply negb_true_iff in K. apply not_true_iff_false in K. apply K. apply existsb_exists. exists w. split; [exact W|now apply keyword_iff].
  - intros (N & A & K). split; [exact (Permutation_NoDup PS N)|]. split.
    + apply forallb_forall. intros ns I. apply negb_true_iff, not_true_is_false. intros J. apply S in J as (m' & M' & J).
      apply in_flat_map in I as (c & I & Q). apply in_map_iff in I as (m & <- & I). apply namespaces_iff in Q. exact (A m m' ns (Permutation_in _ P I) M' Q J).
    + apply forallb_forall. intros c I. apply in_map_iff in I as (m & <- & I). cbn [class_of c_pkg]. destruct (m_package m) as [|a r] eqn:E; [reflexivity|].
      apply negb_true_iff, not_true_is_false. rewrite existsb_exists. intros (w & J & Q). apply keyword_iff in Q.
      pose proof (parts_ok (m_package m)) as PP. unfold parts in PP. rewrite E in PP. refine (K m _ w (Permutation_in _ P I) _ J Q). rewrite E. exact PP.
Qed.

(** ** Only accepted schemas compile *)
Lemma class_needs p h e m t : class_ty h e (class_of (pr_messages p) (flag (pr_options p) (b "obfuscate_strings")) (flag (pr_options p) (b "cpp_use_lists")) (flag (pr_options p) (b "number_names")) m) = Some t ->
  NoDup (map f_name (m_fields m)) /\ (forall f, In f (m_fields m) -> ~ In (f_name f) reserved_words) /\ ~ In (m_name m) reserved_words /\
  (forall f, In f (m_fields m) -> transient f = false -> lit_exists p f).
Proof.
  unfold class_ty, class_of. cbn [c_members c_name c_empty c_clear c_equal c_swap c_write c_index c_cases c_obf]. cbv zeta. rewrite map_snd_members.
  destruct (existsb is_keyword (map f_name (m_fields m)) || is_keyword (m_name m) || negb (nodupb (map f_name (m_fields m)))) eqn:E; [discriminate|].
  apply orb_false_iff in E as (E & E3). apply orb_false_iff in E as (E1 & E2). match goal with |- (if negb ?x then _ else _) = _ -> _ => destruct (negb x); [discriminate|] end.
  match goal with |- match all_some ?x with _ => _ end = _ -> _ => destruct (all_some x) as [ms|]; [|discriminate] end.
  match goal with |- match all_some ?x with _ => _ end = _ -> _ => destruct (all_some x) as [w|] eqn:W; [|discriminate] end. intros _. refine (conj _ (conj _ (conj _ _))).
  - apply nodupb_spec. now apply negb_false_iff.
  - intros f F I. apply not_true_iff_false in E1. apply E1. apply existsb_exists. exists (f_name f). split; [now apply in_map|now apply keyword_iff].
  - intros I. apply keyword_iff in I. congruence.
  - intros f F T O. destruct (all_some_in _ _ W (match member_pos (map f_name (m_fields m)) (f_name f), label_value (Label (obfuscated p) (literal_of (obfuscated p) (SpecHeader.label p f))) with Some k, Some s => Some (k, s) | _, _ => None end)) as (y & Y).
    { rewrite map_map. apply in_map_iff. exists f. split; [reflexivity|]. unfold written. apply filter_In. split; [exact F|]. now rewrite T. }
    destruct (member_pos (map f_name (m_fields m)) (f_name f)) as [pos|]; [|discriminate]. rewrite O in Y. cbn [label_value literal_of] in Y.
    destruct (lit_string (SpecHeader.label p f)) as [n|] eqn:Q; [|discriminate]. apply lit_string_iff in Q as (v & D & _). now exists v.
Qed.

Lemma program_needs p h order env : well_ordered (pr_messages p) order -> program_ty h (classes_of p order) = Some env ->
  (forall m, In m (pr_messages p) -> message_accepted p m) /\ names_accepted p.
Proof.
  unfold program_ty. intros O E. destruct (names_ok (classes_of p order)) eqn:N; [|discriminate]. apply (names_iff p order O) in N. split; [|exact N].
  intros m M. destruct (In_nth_error _ _ M) as (k & K).
  assert (I : In (class_of (pr_messages p) (flag (pr_options p) (b "obfuscate_strings")) (flag (pr_options p) (b "cpp_use_lists")) (flag (pr_options p) (b "number_names")) m) (classes_of p order)).
  { unfold classes_of. apply in_concat. eexists. split; [apply in_map_iff; exists k; split; [reflexivity|]|rewrite K; now left].
    apply O. apply nth_error_Some. congruence. }
  destruct (classes_ty_all _ _ _ _ E _ I) as (e & t & C). destruct (class_needs p h e m t C) as (A1 & A2 & A3 & A4). destruct N as (_ & _ & N).
  refine (conj A1 (conj A2 (conj A3 (conj _ A4)))). intros ps w P W. exact (N m ps w M P W).
Qed.

Theorem program_accepts p h order : refs_ok (pr_messages p) -> wanted (pr_messages p) h -> well_ordered (pr_messages p) order -> accepted p ->
  exists T env, (forall k, (k < length (pr_messages p))%nat -> solves_at p h T k) /\ program_ty h (classes_of p order) = Some env /\ means p order T env.
Proof.
  intros R W O (C & N & NS & B).
  assert (BC : bytes_cpp p h) by (destruct W as (W1 & W2 & W3 & _); unfold bytes_cpp; rewrite W1, W2, W3; exact B).
  destruct (classes_means' p h order R W O C N BC order [] (fun _ => TStr) []) as (T & env & A & X & D); [reflexivity|constructor|intros k []|].
  exists T, env. split; [|split; [|exact X]].
  - intros k K. apply D. now apply O.
  - unfold program_ty. rewrite (proj2 (names_iff p order O)); [exact A|]. split; [exact N|]. split; [exact NS|]. intros m ps w M. destruct (C m M) as (_ & _ & _ & Q & _). apply Q.
Qed.

(** ** Sorting *)
Lemma sorted_message_accepted srt p m : permutes srt ->
  (message_accepted (sort_fields srt p) (Msg (srt (m_fields m)) (m_name m) (m_package m) (m_options m)) <-> message_accepted p m).
Proof.
  intros S. unfold message_accepted. cbn [m_fields m_name m_package].
  assert (I : forall f, In f (srt (m_fields m)) <-> In f (m_fields m)) by (intros f; split; apply Permutation_in; [apply S|symmetry; apply S]).
  assert (N : NoDup (map f_name (srt (m_fields m))) <-> NoDup (map f_name (m_fields m))) by (split; apply Permutation_NoDup, Permutation_map; [apply S|symmetry; apply S]).
  rewrite N. change (obfuscated (sort_fields srt p)) with (obfuscated p).
  split; intros (A & B & C & D & E); refine (conj A (conj _ (conj C (conj D _)))); intros f F; first [apply B; now apply I|apply E; now apply I].
Qed.

Lemma sorted_accepted srt p : permutes srt -> (accepted (sort_fields srt p) <-> accepted p).
Proof.
  intros S. unfold accepted. rewrite sorted_structs, !(sorted_uses srt S p).
  assert (A : (forall m, In m (pr_messages (sort_fields srt p)) -> message_accepted (sort_fields srt p) m) <-> (forall m, In m (pr_messages p) -> message_accepted p m)).
  { cbn [sort_fields pr_messages]. split.
    - intros H m M. apply (sorted_message_accepted srt p m S). apply H. apply in_map_iff. exists m. auto.
    - intros H m M. apply in_map_iff in M as (m0 & <- & M). apply sorted_message_accepted; auto. }
  assert (B : (forall m m' ns, In m (pr_messages (sort_fields srt p)) -> In m' (pr_messages (sort_fields srt p)) -> encloses ns (m_package m) -> ~ In ns (structs m')) <->
    (forall m m' ns, In m (pr_messages p) -> In m' (pr_messages p) -> encloses ns (m_package m) -> ~ In ns (structs m'))).
  { cbn [sort_fields pr_messages]. split.
    - intros H m m' ns M M'. apply (H (Msg (srt (m_fields m)) (m_name m) (m_package m) (m_options m)) (Msg (srt (m_fields m')) (m_name m') (m_package m') (m_options m')) ns); apply in_map_iff; eauto.
    - intros H m m' ns M M'. apply in_map_iff in M as (m0 & <- & M). apply in_map_iff in M' as (m1 & <- & M'). exact (H m0 m1 ns M M'). }
  rewrite A, B. reflexivity.
Qed.

(** ** The compiler *)
Lemma accept_exact cfg srt text path p : build_fine cfg -> permutes srt -> parse text path = POk p -> proto_fine p ->
  exists out h cs, run_text cfg srt text path = CExit 0 [] out (Some (h, cs)) /\ wanted (pr_messages p) h /\
    ((exists env, program_ty h cs = Some env) <-> accepted p).
Proof.
  intros B S P F. destruct (run_exact cfg srt text path p B S P) as [(_ & h & order & W & O & E)|(N & _)]; [|contradiction]. cbn zeta in E.
  eexists _, h, _. split; [exact E|]. split; [exact W|]. assert (O' : well_ordered (pr_messages (sort_fields srt p)) order) by now apply sorted_ordered. split.
  - intros (env & X). destruct (program_needs _ h order env O' X) as (A & N & NS & _). pose proof (bytes_needed _ h order env O' X) as BC.
    apply (sorted_accepted srt p S). refine (conj A (conj N (conj NS _))).
    assert (W' : wanted (pr_messages (sort_fields srt p)) h) by now apply sorted_wanted. destruct W' as (W1 & W2 & W3 & _). unfold bytes_cpp in BC. rewrite W1, W2, W3 in BC. exact BC.
  - intros A. destruct (program_accepts (sort_fields srt p) h order) as (T & env & _ & X & _); [| | | |exists env; exact X].
    + apply sorted_refs; [exact S|]. exact (parsed_refs text path p P).
    + now apply sorted_wanted.
    + exact O'.
    + now apply sorted_accepted.
Qed.

(** ** What the classes are *)
Lemma wn_at_fst p l : forall k, (forall j, In j (map fst (wn_at p k l)) -> (k <= j < k + length l)%nat) /\ NoDup (map fst (wn_at p k l)).
Proof.
  induction l as [|f l IH]; intros k; cbn [wn_at length]; [split; [intros j []|constructor]|]. destruct (IH (S k)) as (A & B).
  destruct (transient f); cbn [map fst].
  - split; [intros j J; specialize (A j J); lia|exact B].
  - split; [intros j [<-|J]; [lia|specialize (A j J); lia]|]. constructor; [intros J; specialize (A k J); lia|exact B].
Qed.

Lemma wn_at_snd p l : forall k, map snd (wn_at p k l) = map (wn p) (filter (fun f => negb (transient f)) l).
Proof. induction l as [|f l IH]; intros k; cbn [wn_at filter]; [reflexivity|]. destruct (transient f); cbn [negb map snd]; rewrite IH; reflexivity. Qed.

Lemma solves_at_lookup p h T order : well_ordered (pr_messages p) order -> (forall k, (k < length (pr_messages p))%nat -> solves_at p h T k) -> forall k, (k < length (pr_messages p))%nat -> lookup_ok (T k).
Proof.
  intros O S. apply (along_order _ order (fun k => lookup_ok (T k)) O). intros k m E H.
  destruct (S k ltac:(apply nth_error_Some; congruence) m E) as (g & -> & _ & G). cbn [lookup_ok]. split; [exact G|].
  induction (m_fields m) as [|f l IH]; cbn [map]; [exact I|]. split; [|apply IH; intros f' j Q; apply H; now right].
  apply (field_ty_prop lookup_ok); try (intros; exact I); [intros t X; exact X|]. intros j Q. exact (H f j (or_introl eq_refl) Q).
Qed.

Lemma known_names p m : message_accepted p m -> forall ns, Forall2 (known_as p) (written m) ns -> ns = map (wn p) (written m).
Proof.
  intros A. pose proof (message_lits p m A) as L.
  assert (X : forall f, In f (written m) -> lit_exists p f) by (intros f F; unfold written in F; apply filter_In in F as (F & T); apply (L f F); now apply negb_true_iff).
  clear A L. revert X. induction (written m) as [|f l IH]; intros X ns H; inversion H as [|? n ? ns' K H']; subst; [reflexivity|]. cbn [map].
  apply (known_iff p f n (X f (or_introl eq_refl))) in K. subst n. f_equal. apply IH; [|exact H']. intros g G. apply X. now right.
Qed.

Lemma solves_at_tables strict p h T order : refs_ok (pr_messages p) -> well_ordered (pr_messages p) order -> (forall k, (k < length (pr_messages p))%nat -> solves_at p h T k) ->
  (forall m, In m (pr_messages p) -> message_accepted p m) -> known_fine strict p -> forall k, (k < length (pr_messages p))%nat -> tables_ok strict (T k).
Proof.
  intros R O S A W. apply (along_order _ order (fun k => tables_ok strict (T k)) O). intros k m E H. destruct (S k ltac:(apply nth_error_Some; congruence) m E) as (g & -> & G & _).
  destruct (W m (nth_error_In _ _ E)) as (ns & N & W1 & W2). apply (known_names p m (A m (nth_error_In _ _ E))) in N. subst ns. rewrite Forall_map, Forall_forall in W2.
  cbn [tables_ok]. rewrite G. destruct (wn_at_fst p (m_fields m) 0) as (X & B).
  pose proof (wn_at_snd p (m_fields m) 0) as C. fold (written m) in C.
  split.
  - refine (conj B (conj _ (conj _ _))).
    + rewrite C. exact W1.
    + intros j label I. split; [|rewrite map_length; apply (in_map fst) in I; specialize (X j I); lia].
      apply (in_map snd) in I. rewrite C in I. apply in_map_iff in I as (f & F & I). cbn [snd] in F. rewrite <- F. now apply W2.
    + intros q I. apply in_map_iff in I as (f & F & I). revert F. apply (field_ty_prop (fun t => t <> TPrim q)); try discriminate. intros j Q.
      destruct (R m f (nth_error_In _ _ E) I) as (L & _). specialize (L j Q). destruct (nth_error (pr_messages p) j) as [m'|] eqn:M; [|apply nth_error_None in M; lia].
      destruct (S j L m' M) as (g' & -> & _). discriminate.
  - clear - H. induction (m_fields m) as [|f l IH]; cbn [map]; [exact I|]. split; [|apply IH; intros f' j Q; apply H; now right].
    apply (field_ty_prop (tables_ok strict)); try (intros; exact I); [intros t X; exact X|]. intros j Q. exact (H f j (or_introl eq_refl) Q).
Qed.

Lemma sorted_known strict srt p : permutes srt -> known_fine strict p -> known_fine strict (sort_fields srt p).
Proof.
  intros S W m M. cbn [sort_fields pr_messages] in M. apply in_map_iff in M as (m0 & <- & M). destruct (W m0 M) as (ns & A & B & C).
  assert (P : Permutation (filter (fun f => negb (transient f)) (m_fields m0)) (filter (fun f => negb (transient f)) (srt (m_fields m0)))).
  { symmetry. generalize (S (m_fields m0)). generalize (srt (m_fields m0)), (m_fields m0). clear. intros l l' P. induction P; cbn [filter].
    - constructor.
    - destruct (negb (transient x)); [now constructor|exact IHP].
    - destruct (negb (transient x)), (negb (transient y)); try constructor; reflexivity.
    - etransitivity; eassumption. }
  unfold written in *. cbn [m_fields]. change (known_as (sort_fields srt p)) with (known_as p).
  assert (Q : exists ns', Permutation ns ns' /\ Forall2 (known_as p) (filter (fun f => negb (transient f)) (srt (m_fields m0))) ns').
  { revert P A. generalize (filter (fun f => negb (transient f)) (m_fields m0)), (filter (fun f => negb (transient f)) (srt (m_fields m0))). clear. intros l l' P. revert ns.
    induction P as [|x l l' P IH|x y l|l l1 l2 P1 IH1 P2 IH2]; intros ns A.
    - inversion A; subst. exists []. split; constructor.
    - inversion A as [|? n ? r K A']; subst. destruct (IH r A') as (r' & Q & F). exists (n :: r'). split; now constructor.
    - inversion A as [|? n ? r K A']; subst. inversion A' as [|? n' ? r' K' A'']; subst. exists (n' :: n :: r'). split; [constructor|]. constructor; [exact K'|]. now constructor.
    - destruct (IH1 ns A) as (n1 & Q1 & F1). destruct (IH2 n1 F1) as (n2 & Q2 & F2). exists n2. split; [etransitivity; eassumption|exact F2]. }
  destruct Q as (ns' & Q & F). exists ns'. split; [exact F|]. split; [exact (Permutation_NoDup Q B)|]. exact (Permutation_Forall Q C).
Qed.

Lemma accept_program cfg srt text path p env : build_fine cfg -> permutes srt -> parse text path = POk p -> SpecEnd.compiles cfg srt text path env ->
  proto_fine p /\ accepted p /\ exists h order T, wanted (pr_messages p) h /\ well_ordered (pr_messages (sort_fields srt p)) order /\
    means (sort_fields srt p) order T env /\ (forall k, (k < length (pr_messages (sort_fields srt p)))%nat -> solves_at (sort_fields srt p) h T k).
Proof.
  intros B S P (out & h & cs & R & X). destruct (run_exact cfg srt text path p B S P) as [(F & h' & order & W & O & E)|(N & t & e & l & c & _ & E)]; [|rewrite R in E; discriminate].
  cbn zeta in E. rewrite R in E. injection E as -> -> ->. assert (O' : well_ordered (pr_messages (sort_fields srt p)) order) by now apply sorted_ordered.
  destruct (accept_exact cfg srt text path p B S P F) as (out' & h'' & cs' & R' & _ & I). rewrite R in R'. injection R' as <- <- <-.
  pose proof (proj1 I (ex_intro _ env X)) as A. split; [exact F|]. split; [exact A|].
  destruct (program_accepts (sort_fields srt p) h' order) as (T & env' & Y & X' & M).
  - apply sorted_refs; [exact S|]. exact (parsed_refs text path p P).
  - now apply sorted_wanted.
  - exact O'.
  - now apply sorted_accepted.
  - rewrite X in X'. injection X' as <-. exists h', order, T. auto.
Qed.

Lemma written_sorted srt p l : forall k w, written_as (sort_fields srt p) k l w -> written_as p k l w.
Proof.
  induction l as [|f l IH]; intros k w; cbn [written_as]; [auto|]. destruct (transient f); [apply IH|].
  intros (n & w' & E & K & H). exists n, w'. split; [exact E|]. split; [exact K|]. now apply IH.
Qed.

Lemma accept_types cfg srt text path p env : build_fine cfg -> permutes srt -> parse text path = POk p -> SpecEnd.compiles cfg srt text path env ->
  accepted p /\ Permutation (map fst env) (map (fun m => (m_package m, m_name m)) (pr_messages p)) /\
  forall pkg name t, In (pkg, name, t) env ->
    (exists m ms g, In m (pr_messages p) /\ m_package m = pkg /\ m_name m = name /\ t = TMsg ms g /\ length ms = length (m_fields m) /\
       written_as p 0 (srt (m_fields m)) (g_write g) /\ dispatches g) /\
    lookup_ok t /\ (forall strict, known_fine strict p -> tables_ok strict t).
Proof.
  intros B S P X. destruct (accept_program cfg srt text path p env B S P X) as (F & A & h & order & T & W & O & M & D). split; [exact A|].
  assert (A' : accepted (sort_fields srt p)) by now apply sorted_accepted. split.
  - rewrite <- (sorted_names srt p). exact (env_perm _ _ _ _ O M).
  - intros pkg name t I. destruct (means_in _ _ _ _ M _ _ _ I) as (k & m & Q & <- & <- & ->).
    assert (K : (k < length (pr_messages (sort_fields srt p)))%nat) by (apply nth_error_Some; congruence). split; [|split].
    + destruct (D k K m Q) as (g & G1 & G2 & G3). assert (Q' := Q). rewrite sorted_nth in Q'. destruct (nth_error (pr_messages p) k) as [m0|] eqn:Y; [|discriminate Q'].
      injection Q' as <-. exists m0, (map (field_ty h T) (srt (m_fields m0))), g. split; [now apply nth_error_In in Y|]. split; [reflexivity|]. split; [reflexivity|].
      split; [exact G1|]. cbn [sorted_message m_fields] in G2. split; [rewrite map_length; apply Permutation_length, S|]. split.
      * apply (written_sorted srt). apply written_as_iff; [|exact G2]. intros f J J'.
        destruct A' as (A' & _). exact (message_lits _ _ (A' _ (nth_error_In _ _ Q)) f J J').
      * apply select_dispatches; [|exact G3]. rewrite G2. apply wn_at_fst.
    + exact (solves_at_lookup _ _ _ _ O D k K).
    + intros strict N. refine (solves_at_tables strict _ h T order _ O D _ _ k K).
      * apply sorted_refs; [exact S|]. exact (parsed_refs text path p P).
      * exact (proj1 A').
      * now apply sorted_known.
Qed.
