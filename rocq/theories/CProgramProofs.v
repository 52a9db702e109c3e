(** The text of the classes of a schema. *)
From Coq Require Import Lia Permutation.
From Verif Require Import Bytes Num Types Read Write ProtoLex ProtoParse SpecProto Cpp Gen MainC SpecGen SpecCpp SpecFile SpecOpts SpecProgram SpecEnd CLex CParse CExec SpecText
  BaseProofs PRunProofs PTermProofs BackProofs BackMore ProgramProofs EndProofs ScopeProofs CLexProofs CTextProofs CClassText CParseProofs CDeclProofs CExecProofs CUnitProofs.

(** What C++ does not check: the names are words, the numbers not negative. *)
Definition shaped (c : cls) : Prop :=
  words_ok (parts (c_pkg c)) /\ wordy (c_name c) = true /\
  Forall (fun m => type_ok (fst m) /\ wordy (snd m) = true) (c_members c) /\
  Forall (fun x => 0 <= fst x) (c_cases c) /\ Forall (fun x => 0 <= snd x) (c_index c).

Lemma pos_in names m k : member_pos names m = Some k -> In m names.
Proof. intros E. apply member_pos_nth in E. exact (nth_error_In _ _ E). Qed.
Lemma lit_some s x : lit_string s = Some x -> literal_ok s.
Proof. unfold lit_string, literal_ok. destruct (cpp_lit s) as [y|]; [eauto|discriminate]. Qed.
Lemma forall_both {A B} (P : A -> Prop) (R : A -> B -> Prop) l l' : Forall2 R l l' -> (forall x y, R x y -> P x) -> Forall P l.
Proof. induction 1; eauto. Qed.

Lemma class_fine h env c t : class_ty h env c = Some t -> shaped c -> forallb (fun w => negb (is_keyword w)) (parts (c_pkg c)) = true -> cls_ok c /\ names_free c.
Proof.
  intros CT (P & N & M & C & I) K. assert (G : exists ms g, t = TMsg ms g) by (destruct (class_msg h env c t CT) as (ms & g & X & _); eauto).
  destruct G as (ms & g & ->). pose proof (class_inv c ms g h env CT) as (ND & E1 & E2 & E3 & E4 & _ & W & J & CS & _).
  assert (KN : free (map snd (c_members c))).
  { unfold class_ty in CT. cbv zeta in CT. destruct (existsb is_keyword (map snd (c_members c))) eqn:X; [discriminate CT|]. clear - X.
    induction (map snd (c_members c)) as [|x l IH]; [constructor|]. cbn [existsb] in X. apply orb_false_iff in X as (X1 & X2). constructor; [exact X1|exact (IH X2)]. }
  assert (WN : words_ok (map snd (c_members c))) by (apply Forall_map; eapply Forall_impl; [|exact M]; cbn; tauto).
  unfold words_ok, free in *. rewrite Forall_forall in WN, KN.
  assert (PF : Forall (fun w => is_keyword w = false) (parts (c_pkg c))).
  { rewrite forallb_forall in K. apply Forall_forall. intros w X. specialize (K w X). now apply negb_true_iff in K. }
  assert (WN' : Forall (fun w => wordy w = true) (map snd (c_members c))) by now apply Forall_forall.
  assert (KN' : Forall (fun w => is_keyword w = false) (map snd (c_members c))) by now apply Forall_forall.
  assert (CI : Forall (fun x => In (snd x) (map snd (c_members c))) (c_cases c)).
  { eapply forall_both; [exact CS|]. cbn. intros x y (k & A & _). exact (pos_in _ _ _ A). }
  assert (WI : Forall (fun x => In (fst x) (map snd (c_members c)) /\ label_ok (snd x)) (c_write c)).
  { eapply forall_both; [exact W|]. cbn. intros [x l] y (k & s & A & L & _). cbn [fst snd] in *. split; [exact (pos_in _ _ _ A)|].
    destruct l as [r l]. cbn [label_value label_ok] in *. destruct (lit_string l) as [z|] eqn:Z; [exact (lit_some _ _ Z)|discriminate]. }
  split.
  - unfold cls_ok, words_ok. rewrite E1, E2, E3, E4. repeat match goal with |- _ /\ _ => split end; auto.
    + rewrite Forall_forall in *. intros x X. split; [apply WN, CI, X|apply C, X].
    + rewrite Forall_forall in *. intros x X. destruct (WI x X). split; [apply WN|]; assumption.
    + assert (LI : Forall (fun x => literal_ok (fst x)) (c_index c)) by (eapply forall_both; [exact J|]; cbn; intros x y (s & A & _); exact (lit_some _ _ A)).
      rewrite Forall_forall in *. auto.
  - unfold names_free, free. rewrite E1, E2, E3, E4. repeat match goal with |- _ /\ _ => split end; auto.
    + rewrite Forall_forall in *. intros x X. split; [apply KN, CI, X|apply C, X].
    + rewrite Forall_forall in *. intros x X. apply KN, WI, X.
Qed.

Lemma parts_free c : match c_pkg c with [] => true | p => negb (existsb is_keyword (components [] p)) end = true -> forallb (fun w => negb (is_keyword w)) (parts (c_pkg c)) = true.
Proof.
  unfold parts. destruct (c_pkg c) as [|x p]; [reflexivity|]. intros E. apply negb_true_iff in E. induction (components [] (x :: p)) as [|w l IH]; [reflexivity|].
  cbn [existsb forallb] in *. apply orb_false_iff in E as (-> & E). now rewrite IH.
Qed.

Lemma classes_fine h cs : forall env env', classes_ty h env cs = Some env' -> Forall shaped cs -> Forall (fun c => forallb (fun w => negb (is_keyword w)) (parts (c_pkg c)) = true) cs ->
  Forall cls_ok cs /\ Forall names_free cs.
Proof.
  induction cs as [|c cs IH]; intros env env' E S K; [split; constructor|]. cbn [classes_ty] in E. destruct (class_ty h env c) as [t|] eqn:CT; [|discriminate].
  inversion S. inversion K. subst. destruct (class_fine h env c t CT) as (A1 & A2); auto. destruct (IH _ _ E) as (B1 & B2); auto.
Qed.

Theorem program_declares v h cs env : word_text v -> program_ty h cs = Some env -> Forall shaped cs -> Forall (fun c => NoDup (map fst (c_cases c))) cs ->
  declares v h (concat (map (class_text v) cs)) env.
Proof.
  intros V E S ND. unfold program_ty in E. destruct (names_ok cs) eqn:N; [|discriminate].
  unfold names_ok in N. cbv zeta in N. apply andb_true_iff in N as (_ & N). rewrite forallb_forall in N.
  destruct (classes_fine h cs [] env E S) as (O & F).
  - apply Forall_forall. intros c I. apply parts_free, N, I.
  - now apply classes_declare.
Qed.

(** ** The classes of a schema *)
Lemma ident_wordy w : ident w -> wordy w = true.
Proof.
  assert (L : forall c, pletter c -> is_alpha_c c = true) by (intros c H; unfold pletter in H; unfold is_alpha_c; lia).
  assert (D : forall c, pdigit c -> is_word_c c = true) by (intros c H; unfold pdigit in H; unfold is_word_c, is_alpha_c, is_digit_c; lia).
  destruct w as [|c r]; [intros []|]. intros (P & F). cbn [wordy]. rewrite (L c P). cbn [andb]. apply forallb_forall. rewrite Forall_forall in F. intros d I.
  destruct (F d I) as [X|X]; [unfold is_word_c; now rewrite (L d X)|exact (D d X)].
Qed.
Lemma parsed_parts text path p m : parse text path = POk p -> In m (pr_messages p) -> words_ok (parts (m_package m)).
Proof.
  intros E I. pose proof (parse_no_runtime (length text + 3) text path) as W. fold (parse text path) in W. rewrite E in W.
  destruct W as [[W _] _]. rewrite Forall_forall in W. destruct (W m I) as ((_ & _ & _ & _ & P) & _). destruct P as [-> |(P & _)]; [constructor|].
  destruct (package_part_idents _ P) as (ps & A & F). rewrite (package_parts_unique _ _ _ (parts_ok (m_package m)) A).
  unfold words_ok. eapply Forall_impl; [|exact F]. exact ident_wordy.
Qed.

Lemma numbered_fst {T} (l : list T) : forall i, 0 <= i -> Forall (fun x => i <= fst x) (numbered i l) /\ NoDup (map fst (numbered i l)).
Proof.
  induction l as [|x l IH]; intros i I; cbn [numbered map]; [split; constructor|]. destruct (IH (i + 1) ltac:(lia)) as (A & B). cbn [fst]. split.
  - constructor; [cbn; lia|]. eapply Forall_impl; [|exact A]. cbn. intros y Y. lia.
  - constructor; [|exact B]. intros X. apply in_map_iff in X as (y & E & Y). rewrite Forall_forall in A. specialize (A y Y). lia.
Qed.

Lemma class_shaped msgs obf lists numbers m : words_ok (parts (m_package m)) -> wordy (m_name m) = true ->
  (forall f, In f (m_fields m) -> wordy (f_name f) = true) ->
  (forall k m', nth_error msgs k = Some m' -> words_ok (parts (m_package m')) /\ wordy (m_name m') = true) ->
  shaped (class_of msgs obf lists numbers m) /\ NoDup (map fst (c_cases (class_of msgs obf lists numbers m))).
Proof.
  intros P N F R. destruct (numbered_fst (written m) 0 ltac:(lia)) as (A & B). split.
  - unfold shaped. cbn [class_of c_pkg c_name c_members c_cases c_index]. split; [exact P|]. split; [exact N|]. split; [|split].
    + apply Forall_map, Forall_forall. intros f I. cbn [fst snd]. split; [|now apply F].
      assert (V : elem_ok (value_elem msgs f)).
      { unfold value_elem. destruct (f_type f); try reflexivity; try exact Logic.I. destruct (f_ref f) as [k|]; [|exact Logic.I]. destruct (nth_error msgs k) as [m'|] eqn:E; [|exact Logic.I]. exact (R k m' E). }
      unfold member_type. destruct (is_bytes f); [exact V|]. destruct (f_repeated f); [exact V|]. destruct (value_elem msgs f); exact V.
    + apply Forall_map. eapply Forall_impl; [|exact A]. cbn. auto.
    + apply Forall_map. eapply Forall_impl; [|exact A]. cbn. auto.
  - cbn [class_of c_cases]. rewrite map_map. exact B.
Qed.

Theorem schema_declares cfg srt text path p env : build_fine cfg -> permutes srt -> word_text (b_naming cfg) -> parse text path = POk p -> SpecEnd.compiles cfg srt text path env ->
  exists h cs body, run_text cfg srt text path =
    CExit 0 [] (headers_text cfg h ++ head_text (b_version cfg) path (guard_of path) ++ body ++ ln (b "#endif // " ++ guard_of path)) (Some (h, cs)) /\
    program_ty h cs = Some env /\ declares (b_naming cfg) h body env.
Proof.
  intros B S V P (out & h & cs & R & Y).
  destruct (run_exact cfg srt text path p B S P) as [(F & h' & order & W & O & E)|(F & t & x & l & c & _ & E)]; rewrite R in E; [|discriminate].
  cbn zeta in E. injection E as -> <- E. rewrite <- E in R. exists h, cs, (concat (map (class_text (b_naming cfg)) cs)). split; [exact R|]. split; [exact Y|].
  assert (X : forall k m, nth_error (pr_messages (sort_fields srt p)) k = Some m -> exists m0, In m0 (pr_messages p) /\ m_package m = m_package m0 /\ m_name m = m_name m0 /\ Permutation (m_fields m) (m_fields m0)).
  { intros k m K. change (pr_messages (sort_fields srt p)) with (map (sorted_message srt) (pr_messages p)) in K. rewrite nth_error_map in K.
    destruct (nth_error (pr_messages p) k) as [m0|] eqn:Z; [|discriminate]. injection K as <-. exists m0. split; [exact (nth_error_In _ _ Z)|]. split; [reflexivity|]. split; [reflexivity|apply S]. }
  assert (G : Forall (fun c => shaped c /\ NoDup (map fst (c_cases c))) cs).
  { apply Forall_forall. intros c I. rewrite E in I. unfold classes_of in I. cbv zeta in I. apply in_concat in I as (l & L & I). apply in_map_iff in L as (k & <- & _).
    destruct (nth_error _ k) as [m|] eqn:K; [|destruct I]. destruct I as [<-|[]]. destruct (X k m K) as (m0 & I0 & A1 & A2 & A3). apply class_shaped.
    - rewrite A1. exact (parsed_parts _ _ _ _ P I0).
    - rewrite A2. exact (ident_wordy _ (parsed_message_name _ _ _ _ P I0)).
    - intros f Q. apply ident_wordy. eapply parsed_names; [exact P|exact I0|]. eapply Permutation_in; eassumption.
    - intros j m' J. destruct (X j m' J) as (m1 & I1 & C1 & C2 & _). rewrite C1, C2. split; [exact (parsed_parts _ _ _ _ P I1)|exact (ident_wordy _ (parsed_message_name _ _ _ _ P I1))]. }
  rewrite Forall_forall in G. apply program_declares; [exact V|exact Y| |]; apply Forall_forall; intros c I; apply G, I.
Qed.
