(** Compiled programs; names of the members. *)
From Coq Require Import Lia Permutation.
From Verif Require Import Bytes BaseProofs Num Types Read IntProofs DblProofs SpecJson SpecInterp SpecWrite ProtoLex ProtoParse SpecProto SpecTemplate Cpp Gen MainC SpecGen SpecCpp SpecFile SpecOpts GenText GenFile PAcceptProofs BackProofs BackMore SpecProgram ProgramProofs.

(** ** Sorting keeps the conditions *)
Lemma sorted_structs srt p : map structs (pr_messages (sort_fields srt p)) = map structs (pr_messages p).
Proof. cbn [sort_fields pr_messages]. rewrite map_map. reflexivity. Qed.

Lemma sorted_message_cpp srt p m : permutes srt -> message_cpp p m -> message_cpp (sort_fields srt p) (Msg (srt (m_fields m)) (m_name m) (m_package m) (m_options m)).
Proof.
  intros S (A & B & C & D & E). unfold message_cpp. cbn [m_fields m_name m_package sort_fields pr_options].
  refine (conj _ (conj _ (conj C (conj D _)))).
  - eapply Permutation_NoDup; [|exact A]. apply Permutation_map. symmetry. apply S.
  - intros f F. apply B. eapply Permutation_in; [apply S|exact F].
  - intros O f F. apply E; [exact O|]. eapply Permutation_in; [apply S|exact F].
Qed.

Lemma sorted_cpp srt p h : permutes srt -> cpp_fine p h -> cpp_fine (sort_fields srt p) h.
Proof.
  intros S ((A & B & C) & D). unfold cpp_fine, names_cpp. rewrite sorted_structs. refine (conj (conj _ (conj B _)) _).
  - intros m M. cbn [sort_fields pr_messages] in M. apply in_map_iff in M as (m0 & <- & M). now apply sorted_message_cpp, A.
  - intros m m' ns M M'. cbn [sort_fields pr_messages] in M, M'. apply in_map_iff in M as (m0 & <- & M). apply in_map_iff in M' as (m1 & <- & M'). exact (C m0 m1 ns M M').
  - unfold bytes_cpp. rewrite sorted_uses by exact S. exact D.
Qed.

Lemma sorted_wire_fine strict srt p : permutes srt -> wire_fine strict p -> wire_fine strict (sort_fields srt p).
Proof.
  intros S W m M. cbn [sort_fields pr_messages] in M. apply in_map_iff in M as (m0 & <- & M). destruct (W m0 M) as (A & B).
  unfold written in *. cbn [m_fields].
  assert (P : Permutation (filter (fun f => negb (transient f)) (srt (m_fields m0))) (filter (fun f => negb (transient f)) (m_fields m0))).
  { generalize (S (m_fields m0)). generalize (srt (m_fields m0)), (m_fields m0). clear. intros l l' P. induction P; cbn [filter].
    - constructor.
    - destruct (negb (transient x)); [now constructor|exact IHP].
    - destruct (negb (transient x)), (negb (transient y)); try constructor; reflexivity.
    - etransitivity; eassumption. }
  split.
  - eapply Permutation_NoDup; [|exact A]. apply (Permutation_map (wire p)). now symmetry.
  - intros f F. apply (B f). eapply Permutation_in; [exact P|exact F].
Qed.

(** ** The whole way: schema text, header, runtime types *)
Lemma compiled_program cfg srt text path p : build_fine cfg -> permutes srt -> parse text path = POk p -> proto_fine p ->
  (forall h, wanted (pr_messages p) h -> cpp_fine p h) ->
  let q := sort_fields srt p in
  exists h order T env, run_text cfg srt text path = CExit 0 [] (output_text cfg path h (classes_of q order)) (Some (h, classes_of q order)) /\
    wanted (pr_messages p) h /\ well_ordered (pr_messages p) order /\
    program_ty h (classes_of q order) = Some env /\ means q order T env /\ solves q h T.
Proof.
  intros B S P F C q. destruct (run_exact cfg srt text path p B S P) as [(_ & h & order & W & O & E)|(N & _)]; [|contradiction]. cbn zeta in E.
  pose proof (parsed_refs text path p P) as R.
  destruct (program_means q h order) as (T & env & A1 & A2 & A3).
  - now apply sorted_refs.
  - now apply sorted_wanted.
  - now apply sorted_ordered.
  - apply sorted_cpp; [exact S|]. now apply C.
  - exists h, order, T, env. auto 10.
Qed.

(** ** Dispatch *)
Lemma named_in ws name k : member_named ws name = Some k -> In (k, name) ws.
Proof.
  induction ws as [|(j, n) ws IH]; cbn [member_named]; [discriminate|]. destruct (bytes_eqb n name) eqn:E.
  - apply bytes_eqb_true in E. intros X. injection X as ->. subst. now left.
  - intros X. right. now apply IH.
Qed.

Lemma named_none ws name : ~ In name (map snd ws) -> member_named ws name = None.
Proof.
  induction ws as [|(j, n) ws IH]; cbn [member_named map snd]; [reflexivity|]. intros H. destruct (bytes_eqb n name) eqn:E.
  - apply bytes_eqb_true in E. exfalso. apply H. now left.
  - apply IH. intros X. apply H. now right.
Qed.

Lemma named_some ws name k : NoDup (map snd ws) -> In (k, name) ws -> member_named ws name = Some k.
Proof.
  induction ws as [|(j, n) ws IH]; cbn [member_named map snd]; [intros _ []|]. intros N I. inversion_clear N as [|? ? N1 N2]. destruct (bytes_eqb n name) eqn:E.
  - apply bytes_eqb_true in E. subst. destruct I as [I|I]; [congruence|]. exfalso. apply N1. now apply (in_map snd) in I.
  - apply bytes_eqb_false in E. destruct I as [I|I]; [congruence|now apply IH].
Qed.

Lemma named_first u k n v : member_named (u ++ (k, n) :: v) n <> None /\ forall j, member_named (u ++ (k, n) :: v) n = Some j -> In (j, n) (u ++ [(k, n)]).
Proof.
  induction u as [|(i, x) u (IH1 & IH2)]; cbn [app member_named].
  - rewrite bytes_eqb_refl. split; [discriminate|]. intros j X. injection X as ->. now left.
  - destruct (bytes_eqb x n) eqn:E; [|split; [exact IH1|intros j J; right; now apply IH2]]. split; [discriminate|]. intros j X. injection X as ->. apply bytes_eqb_true in E. subst. now left.
Qed.

Lemma named_dup u k n v k' w name : NoDup (map fst (u ++ (k, n) :: v ++ (k', n) :: w)) -> member_named (u ++ (k, n) :: v ++ (k', n) :: w) name <> Some k'.
Proof.
  intros N E. pose proof (named_in _ _ _ E) as I.
  assert (X : name = n).
  { assert (I2 : In (k', n) (u ++ (k, n) :: v ++ (k', n) :: w)) by (apply in_app_iff; right; right; apply in_app_iff; right; now left).
    revert N I I2. generalize (u ++ (k, n) :: v ++ (k', n) :: w). clear. induction l as [|(a, x) l IH]; [intros _ []|]. cbn [map fst]. intros N. inversion_clear N as [|? ? N1 N2]. intros [I|I] [J|J].
    - congruence.
    - injection I as -> ->. exfalso. apply N1. now apply (in_map fst) in J.
    - injection J as -> ->. exfalso. apply N1. now apply (in_map fst) in I.
    - now apply IH. }
  subst name. apply (proj2 (named_first u k n (v ++ (k', n) :: w))) in E.
  assert (F : In k' (map fst (u ++ [(k, n)]))) by now apply (in_map fst) in E.
  replace (u ++ (k, n) :: v ++ (k', n) :: w) with ((u ++ [(k, n)]) ++ v ++ (k', n) :: w) in N by (rewrite <- app_assoc; reflexivity).
  rewrite map_app in N. clear - N F. revert N F. generalize (map fst (u ++ [(k, n)])). induction l as [|a l IH]; [intros _ []|]. cbn [app]. intros N. inversion_clear N as [|? ? N1 N2]. intros [-> |F]; [|now apply IH].
  apply N1. apply in_app_iff. right. rewrite map_app. apply in_app_iff. right. now left.
Qed.

Lemma select_dispatches g : NoDup (map fst (g_write g)) -> (forall name, select_member g name = member_named (g_write g) name) -> dispatches g.
Proof.
  intros N H. unfold dispatches. refine (conj _ (conj _ _)).
  - intros k name D I. rewrite H. now apply named_some.
  - intros name I. rewrite H. now apply named_none.
  - intros u k n v k' w E name. rewrite H, E. apply named_dup. rewrite <- E. exact N.
Qed.

Lemma means_in p order T env : means p order T env -> forall pkg name t, In (pkg, name, t) env -> exists k m, nth_error (pr_messages p) k = Some m /\ m_package m = pkg /\ m_name m = name /\ t = T k.
Proof.
  induction 1 as [|k e order env (m & M & E) _ IH]; [intros ? ? ? []|]. intros pkg name t [X|X]; [|now apply IH]. subst. injection X as <- <- <-. exists k, m. auto.
Qed.

Lemma program_dispatches p h T k m : solves p h T -> nth_error (pr_messages p) k = Some m ->
  exists g, T k = TMsg (map (field_ty h T) (m_fields m)) g /\ g_write g = wire_at p 0 (m_fields m) /\ dispatches g.
Proof.
  intros S M. destruct (S k m M) as (g & A & B & C). exists g. split; [exact A|]. split; [exact B|]. apply select_dispatches; [|exact C].
  rewrite B. apply (wire_at_fst p (m_fields m) 0).
Qed.

(** The lookup of the generated classes, whatever the schema. *)
Lemma compiled_dispatch cfg srt text path p : build_fine cfg -> permutes srt -> parse text path = POk p -> proto_fine p ->
  (forall h, wanted (pr_messages p) h -> cpp_fine p h) ->
  exists out h cs env, run_text cfg srt text path = CExit 0 [] out (Some (h, cs)) /\ program_ty h cs = Some env /\
    Forall2 (fun c e => exists m g ms, In m (pr_messages p) /\ e = (m_package m, m_name m, TMsg ms g) /\ c_name c = m_name m /\
               g_write g = wire_at (sort_fields srt p) 0 (srt (m_fields m)) /\ dispatches g) cs env.
Proof.
  intros B S P F C. destruct (compiled_program cfg srt text path p B S P F C) as (h & order & T & env & E & W & O & A1 & A2 & A3).
  exists (output_text cfg path h (classes_of (sort_fields srt p) order)), h, (classes_of (sort_fields srt p) order), env. split; [exact E|]. split; [exact A1|].
  clear - S A2 A3. induction A2 as [|k e order env (m & M & X) _ IH]; [constructor|]. unfold classes_of in *. cbn [map concat]. rewrite M. cbn [app]. constructor; [|exact IH].
  destruct (program_dispatches _ _ _ _ _ A3 M) as (g & G1 & G2 & G3). assert (M' := M). rewrite sorted_nth in M'. destruct (nth_error (pr_messages p) k) as [m0|] eqn:Q; [|discriminate M'].
  injection M' as <-. exists m0, g, (map (field_ty h T) (srt (m_fields m0))). rewrite X, G1. cbn [class_of c_name m_package m_name m_fields]. split; [now apply nth_error_In in Q|].
  split; [reflexivity|]. split; [reflexivity|]. split; [exact G2|exact G3].
Qed.

(** ** Numbers as names *)
Lemma dec_digits n : 0 <= n -> Forall (fun c => 48 <= code c <= 57) (dec n).
Proof.
  intros N. unfold dec. rewrite (proj2 (Z.ltb_ge n 0)) by lia. destruct (dec_nat_spec n N) as (_ & D & _). rewrite forallb_forall in D. apply Forall_forall.
  intros c C. specialize (D c C). unfold is_digit in D. lia.
Qed.

Lemma dec_inj n m : 0 <= n -> 0 <= m -> dec n = dec m -> n = m.
Proof.
  intros N M. unfold dec. rewrite (proj2 (Z.ltb_ge n 0)), (proj2 (Z.ltb_ge m 0)) by lia. intros E.
  destruct (dec_nat_spec n N) as (A & _). destruct (dec_nat_spec m M) as (B & _). congruence.
Qed.

Lemma digits_clean s : Forall (fun c => 48 <= code c <= 57) s -> clean true s /\ literal_fine s.
Proof.
  intros H. rewrite Forall_forall in H. split.
  - apply Forall_forall. intros c C. specialize (H c C). unfold raw_char. lia.
  - assert (X : forall c, (code c < 48 \/ 57 < code c) -> ~ In c s) by (intros c C I; specialize (H c I); lia).
    unfold literal_fine. refine (conj _ (conj _ (conj _ (conj _ _)))); try (apply X; vm_compute; auto; fail).
    apply no_quest_tri, X. vm_compute. auto.
Qed.

Lemma number_names text path p : parse text path = POk p -> flag (pr_options p) (b "number_names") = true -> flag (pr_options p) (b "obfuscate_strings") = false ->
  wire_fine true p /\
  (forall m f, In m (pr_messages p) -> In f (m_fields m) -> wire p f = dec (f_index f) /\ literal_fine (json_label true f)).
Proof.
  intros P N O. assert (W : forall f, wire p f = dec (f_index f)) by (intros f; unfold wire; rewrite N, O; reflexivity). split.
  - intros m M. destruct (accepted_numbers text path p m P M) as (A & B). split.
    + unfold written. rewrite (map_ext _ (fun f => dec (f_index f)) W).
      assert (A' : NoDup (map f_index (filter (fun f => negb (transient f)) (m_fields m)))).
      { clear - A. induction (m_fields m) as [|f l IH]; [constructor|]. cbn [filter]. cbn [map] in A. inversion_clear A as [|? ? A1 A2]. destruct (negb (transient f)); [|now apply IH].
        cbn [map]. constructor; [|now apply IH]. intros X. apply A1. apply in_map_iff in X as (g & E & X). apply filter_In in X as (X & _). apply in_map_iff. eauto. }
      assert (B' : forall f, In f (filter (fun f => negb (transient f)) (m_fields m)) -> 0 <= f_index f) by (intros f F; apply filter_In in F as (F & _); destruct (B f F); lia).
      clear - A' B'. induction (filter (fun f => negb (transient f)) (m_fields m)) as [|f l IH]; [constructor|]. cbn [map] in *. inversion_clear A' as [|? ? A1 A2]. constructor.
      * intros X. apply A1. apply in_map_iff in X as (g & E & X). apply in_map_iff. exists g. split; [|exact X]. apply dec_inj; [apply B'; now right|apply B'; now left|exact E].
      * apply IH; [exact A2|]. intros g G. apply B'. now right.
    + intros f F. unfold written in F. apply filter_In in F as (F & _). rewrite W. apply digits_clean, dec_digits. destruct (B f F). lia.
  - intros m f M F. split; [apply W|]. unfold json_label. apply digits_clean, dec_digits. destruct (accepted_numbers text path p m P M) as (_ & B). destruct (B f F). lia.
Qed.

(** Obfuscation leaves a numeral alone except some of four digits. *)
Lemma mask_digit n : 48 <= name_mask n <= 57 -> (n mod 8 = 4)%nat /\ name_mask n = 57.
Proof.
  unfold name_mask. pose proof (Nat.mod_upper_bound n 8 ltac:(lia)) as B. set (k := (n mod 8)%nat) in *. clearbody k.
  do 8 (destruct k as [|k]; [cbn; lia|]). lia.
Qed.

Lemma digits_bounds n : 0 < n -> 10 ^ (Z.of_nat (length (dec n)) - 1) <= n < 10 ^ Z.of_nat (length (dec n)).
Proof.
  intros N. unfold dec. rewrite (proj2 (Z.ltb_ge n 0)) by lia. destruct (dec_nat_spec n ltac:(lia)) as (V & D & H).
  assert (G : forall ds a, forallb is_digit ds = true -> 0 <= a -> a * 10 ^ Z.of_nat (length ds) <= fold_left (fun a c => 10 * a + (code c - 48)) ds a < (a + 1) * 10 ^ Z.of_nat (length ds)).
  { induction ds as [|c ds IH]; intros a F A; [cbn; lia|]. cbn [forallb] in F. apply andb_true_iff in F as (F1 & F2). unfold is_digit in F1. cbn [fold_left].
    specialize (IH (10 * a + (code c - 48)) F2 ltac:(lia)). replace (Z.of_nat (length (c :: ds))) with (Z.of_nat (length ds) + 1) by (cbn [length]; lia).
    rewrite Z.pow_add_r by lia. change (10 ^ 1) with 10. pose proof (Z.pow_pos_nonneg 10 (Z.of_nat (length ds)) ltac:(lia) ltac:(lia)). nia. }
  assert (V' : fold_left (fun a c => 10 * a + (code c - 48)) (dec_nat n) 0 = n) by exact V.
  split.
  - destruct H as [E|(d & r & E & R)].
    + rewrite E in V'. cbn [fold_left] in V'. unfold digit in V'. rewrite code_chr_small in V' by lia. lia.
    + rewrite E in V', D |- *. cbn [fold_left forallb] in V', D. apply andb_true_iff in D as (_ & D). unfold digit in V'. rewrite code_chr_small in V' by lia.
      pose proof (G r (10 * 0 + (48 + d - 48)) D ltac:(lia)) as (X & _). rewrite V' in X. cbn [length]. replace (Z.of_nat (S (length r)) - 1) with (Z.of_nat (length r)) by lia.
      pose proof (Z.pow_pos_nonneg 10 (Z.of_nat (length r)) ltac:(lia) ltac:(lia)). nia.
  - pose proof (G (dec_nat n) 0 D ltac:(lia)) as (_ & X). rewrite V' in X. lia.
Qed.

Lemma number_obfuscated n : 0 < n < 2 ^ 29 -> (effective true (dec n) = dec n <-> ~ (1000 <= n <= 9999 /\ In "9"%char (dec n))).
Proof.
  intros N. rewrite effective_same. pose proof (digits_bounds n ltac:(lia)) as (L1 & L2). pose proof (dec_digits n ltac:(lia)) as D. rewrite Forall_forall in D.
  pose proof (name_mask_range (length (dec n))) as R. set (k := length (dec n)) in *. split.
  - intros H (Q & I). apply H. assert (K : k = 4%nat).
    { assert (Z.of_nat k - 1 < 4). { apply Z.nle_gt. intros X. assert (10 ^ 4 <= 10 ^ (Z.of_nat k - 1)) by (apply Z.pow_le_mono_r; lia). lia. }
      assert (3 < Z.of_nat k). { apply Z.nle_gt. intros X. assert (10 ^ Z.of_nat k <= 10 ^ 3) by (apply Z.pow_le_mono_r; lia). lia. } lia. }
    rewrite K. exact I.
  - intros H I. apply H. assert (M : 48 <= name_mask k <= 57) by (specialize (D _ I); rewrite code_chr_small in D by exact R; exact D).
    destruct (mask_digit k M) as (K & K'). rewrite K' in I. split; [|exact I].
    assert (B : (k <= 9)%nat). { destruct (le_lt_dec k 9) as [X|X]; [exact X|]. assert (10 ^ 9 <= 10 ^ (Z.of_nat k - 1)) by (apply Z.pow_le_mono_r; lia). lia. }
    assert (K4 : k = 4%nat). { clear - K B. do 10 (destruct k as [|k]; [cbn in K; lia|]). lia. }
    rewrite K4 in L1, L2. change (10 ^ (Z.of_nat 4 - 1)) with 1000 in L1. change (10 ^ Z.of_nat 4) with 10000 in L2. lia.
Qed.
