(** Sufficient conditions that can be computed, and conditions that are necessary. *)
From Coq Require Import Lia Permutation.
From Verif Require Import Bytes BaseProofs Num Types Read SpecJson SpecInterp SpecWrite ProtoLex ProtoParse SpecProto SpecTemplate Cpp Gen MainC SpecGen SpecCpp SpecFile SpecOpts
  SortProofs PRunProofs PAcceptProofs GenText GenFile BackProofs BackMore SpecProgram ProgramProofs NameProofs.

(** ** A check of [cpp_fine] *)
Definition lit_ok (l : bytes) : bool :=
  forallb (fun c => negb (existsb (Ascii.eqb c) [""""; "\"; LF; NUL; "?"]%char)) l.

Lemma lit_ok_fine l : lit_ok l = true -> literal_fine l.
Proof.
  unfold lit_ok. rewrite forallb_forall. intros H.
  assert (X : forall c, In c [""""; "\"; LF; NUL; "?"]%char -> ~ In c l).
  { intros c C I. specialize (H c I). apply negb_true_iff in H. apply not_true_iff_false in H. apply H. apply existsb_exists. exists c. split; [exact C|apply Ascii.eqb_refl]. }
  unfold literal_fine. refine (conj _ (conj _ (conj _ (conj _ _)))); try (apply X; cbn [In]; tauto). apply no_quest_tri, X. cbn [In]. tauto.
Qed.

Definition not_keyword (w : bytes) : bool := negb (is_keyword w).
Lemma not_keyword_ok w : not_keyword w = true -> ~ In w cpp_keywords.
Proof. unfold not_keyword, is_keyword. rewrite negb_true_iff. intros E I. apply existsb_bytes in I. congruence. Qed.

Definition message_ok (p : proto) (m : message) : bool :=
  nodupb (map f_name (m_fields m)) && forallb not_keyword (map f_name (m_fields m)) && not_keyword (m_name m) && forallb not_keyword (parts (m_package m)) &&
  (flag (pr_options p) (b "obfuscate_strings") || forallb (fun f => transient f || lit_ok (json_label (flag (pr_options p) (b "number_names")) f)) (m_fields m)).

Lemma message_ok_cpp p m : message_ok p m = true -> message_cpp p m.
Proof.
  unfold message_ok, message_cpp. rewrite !andb_true_iff. intros ((((A & B) & C) & D) & E). rewrite forallb_forall in B, D. refine (conj _ (conj _ (conj _ (conj _ _)))).
  - now apply nodupb_spec.
  - intros f F. apply not_keyword_ok, B. now apply in_map.
  - now apply not_keyword_ok.
  - intros ps w P W. rewrite (package_parts_unique _ _ _ P (parts_ok _)) in W. now apply not_keyword_ok, D.
  - intros O f F T. rewrite O in E. cbn [orb] in E. rewrite forallb_forall in E. specialize (E f F). rewrite T in E. now apply lit_ok_fine.
Qed.

Definition spaces (m : message) : list bytes := match m_package m with [] => [] | p => prefixes [] p end.
Lemma prefixes_all p acc : In (rev acc ++ p) (prefixes acc p).
Proof.
  revert acc. induction p as [|c p IH]; intros acc; cbn [prefixes].
  - left. symmetry. apply app_nil_r.
  - specialize (IH (c :: acc)). cbn [rev] in IH. rewrite <- app_assoc in IH. cbn [app] in IH. destruct (Ascii.eqb c "."); [now right|exact IH].
Qed.
Lemma prefixes_some x r acc : In (rev acc ++ x) (prefixes acc (x ++ "."%char :: r)).
Proof.
  revert acc. induction x as [|c x IH]; intros acc; cbn [app prefixes].
  - rewrite Ascii.eqb_refl. left. symmetry. apply app_nil_r.
  - specialize (IH (c :: acc)). cbn [rev] in IH. rewrite <- app_assoc in IH. cbn [app] in IH. destruct (Ascii.eqb c "."); [now right|exact IH].
Qed.
Lemma encloses_spaces ns m : encloses ns (m_package m) -> In ns (spaces m).
Proof.
  unfold spaces. intros (N & [E|(r & E)]).
  - destruct (m_package m) as [|c p] eqn:M; [contradiction|]. subst ns. exact (prefixes_all (c :: p) []).
  - destruct (m_package m) as [|c p] eqn:M; [contradiction|]. rewrite E. exact (prefixes_some ns r []).
Qed.

Definition all_structs (p : proto) : list bytes := concat (map structs (pr_messages p)).
Definition names_check (p : proto) : bool :=
  forallb (message_ok p) (pr_messages p) && nodupb (all_structs p) &&
  forallb (fun m => forallb (fun n => negb (existsb (bytes_eqb n) (all_structs p))) (spaces m)) (pr_messages p).

Definition any (msgs : list message) (t : field -> bool) : bool := existsb (fun m => existsb t (m_fields m)) msgs.
Lemma any_uses msgs t : any msgs t = true <-> uses msgs (fun f => t f = true).
Proof.
  unfold any, uses. rewrite existsb_exists. split.
  - intros (m & M & E). apply existsb_exists in E as (f & F & E). exists m, f. auto.
  - intros (m & f & M & F & E). exists m. split; [exact M|]. apply existsb_exists. eauto.
Qed.
Definition is_num (f : field) : bool := match f_type f with FString | FBytes | FMessage => false | _ => true end.
Definition bytes_check (p : proto) : bool :=
  negb (any (pr_messages p) is_bytes) || any (pr_messages p) (fun f => f_repeated f && is_bytes f) ||
  any (pr_messages p) f_repeated && any (pr_messages p) is_num.

Lemma is_bytes_iff f : is_bytes f = true <-> f_type f = FBytes.
Proof. unfold is_bytes. destruct (f_type f); split; congruence. Qed.
Lemma is_num_iff f : is_num f = true <-> numeric f.
Proof. unfold is_num, numeric. destruct (f_type f); split; try congruence; try (intros (A & B & C); congruence); intros _; repeat split; discriminate. Qed.
Lemma uses_iff msgs P Q : (forall f, P f <-> Q f) -> (uses msgs P <-> uses msgs Q).
Proof. intros H. unfold uses. split; intros (m & f & M & F & X); exists m, f; repeat split; auto; now apply H. Qed.

Lemma bytes_check_iff p h : wanted (pr_messages p) h -> (bytes_check p = true <-> bytes_cpp p h).
Proof.
  intros (W1 & W2 & W3 & _). unfold bytes_check, bytes_cpp.
  assert (X : forall A B C D : Prop, (A <-> B) -> (C <-> D) -> ((A -> C) <-> (B -> D))) by tauto.
  pose proof (any_uses (pr_messages p) is_bytes) as U1. rewrite (uses_iff _ _ (fun f => f_type f = FBytes) is_bytes_iff) in U1.
  pose proof (any_uses (pr_messages p) (fun f => f_repeated f && is_bytes f)) as U2.
  rewrite (uses_iff _ _ (fun f => f_repeated f = true /\ f_type f = FBytes)) in U2 by (intros f; rewrite andb_true_iff, is_bytes_iff; reflexivity).
  pose proof (any_uses (pr_messages p) f_repeated) as U3.
  pose proof (any_uses (pr_messages p) is_num) as U4. rewrite (uses_iff _ _ numeric is_num_iff) in U4.
  rewrite W1, W2, W3, <- U1, <- U2, <- U3, <- U4. rewrite !orb_true_iff, andb_true_iff, negb_true_iff.
  destruct (any (pr_messages p) is_bytes), (any (pr_messages p) (fun f => f_repeated f && is_bytes f)), (any (pr_messages p) f_repeated), (any (pr_messages p) is_num); intuition congruence.
Qed.

Lemma names_checked p : names_check p = true -> names_cpp p.
Proof.
  unfold names_check, names_cpp. rewrite !andb_true_iff, !forallb_forall. intros ((A & B) & C). refine (conj _ (conj _ _)).
  - intros m M. apply message_ok_cpp. now apply A.
  - now apply nodupb_spec.
  - intros m m' ns M M' E I. specialize (C m M). rewrite forallb_forall in C. specialize (C ns (encloses_spaces _ _ E)). apply negb_true_iff in C. apply not_true_iff_false in C. apply C.
    apply existsb_bytes. apply in_concat. exists (structs m'). split; [now apply in_map|exact I].
Qed.

Lemma checked p : names_check p = true -> bytes_check p = true -> forall h, wanted (pr_messages p) h -> cpp_fine p h.
Proof. intros A B h W. split; [now apply names_checked|]. now apply bytes_check_iff. Qed.

(** ** Bytes without a serializer do not compile *)
Lemma classes_ty_all h l : forall env env', classes_ty h env l = Some env' -> forall c, In c l -> exists e t, class_ty h e c = Some t.
Proof.
  induction l as [|x l IH]; intros env env' E c I; [destruct I|]. cbn [classes_ty] in E. destruct (class_ty h env x) as [t|] eqn:T; [|discriminate].
  destruct I as [<-|I]; [eauto|]. exact (IH _ _ E c I).
Qed.

Lemma all_some_in {A} (l : list (option A)) r : all_some l = Some r -> forall x, In x l -> exists y, x = Some y.
Proof.
  revert r. induction l as [|[y|] l IH]; intros r E x I; cbn [all_some] in E; [destruct I| |discriminate].
  destruct (all_some l) as [r'|]; [|discriminate]. destruct I as [<-|I]; [eauto|]. exact (IH r' eq_refl x I).
Qed.

Lemma class_members_ty h e c t : class_ty h e c = Some t -> forall m, In m (c_members c) -> exists x, member_ty h e (fst m) = Some x.
Proof.
  unfold class_ty. cbv zeta. destruct (existsb is_keyword (map snd (c_members c)) || is_keyword (c_name c) || negb (nodupb (map snd (c_members c)))); [discriminate|].
  destruct (negb _); [discriminate|]. destruct (all_some (map (fun m => member_ty h e (fst m)) (c_members c))) as [ms|] eqn:A; [|discriminate]. intros _ m M.
  apply (all_some_in _ _ A). apply in_map_iff. eauto.
Qed.

Lemma bytes_needed p h order env : well_ordered (pr_messages p) order -> program_ty h (classes_of p order) = Some env -> bytes_cpp p h.
Proof.
  unfold program_ty. destruct (names_ok (classes_of p order)); [|discriminate]. intros (P & _) E (m & f & M & F & T).
  destruct (In_nth_error _ _ M) as (k & K).
  assert (I : In (class_of (pr_messages p) (flag (pr_options p) (b "obfuscate_strings")) (flag (pr_options p) (b "cpp_use_lists")) (flag (pr_options p) (b "number_names")) m) (classes_of p order)).
  { unfold classes_of. apply in_concat. eexists. split; [apply in_map_iff; exists k; split; [reflexivity|]|rewrite K; now left].
    apply P. apply nth_error_Some. congruence. }
  destruct (classes_ty_all _ _ _ _ E _ I) as (e & t & C).
  destruct (class_members_ty _ _ _ _ C (member_type (pr_messages p) (flag (pr_options p) (b "cpp_use_lists")) f, f_name f)) as (x & X).
  { unfold class_of. cbn [c_members]. apply in_map_iff. exists f. auto. }
  cbn [fst] in X. unfold member_type, is_bytes, value_elem in X. rewrite T in X. cbn [member_ty is_uint8 andb negb] in X. destruct (h_base64 h); [now left|]. cbn [andb] in X.
  right. destruct (h_array h); [|discriminate X]. unfold elem_ty in X. destruct (h_number h); [auto|discriminate X].
Qed.

(** ** A check of [wire_fine] *)
Definition raw_ok (strict : bool) (c : ascii) : bool :=
  negb (code c =? 34) && negb (code c =? 92) && (if strict then 32 <=? code c else negb (code c =? 0) && negb (code c =? 10)).
Definition wire_check (strict : bool) (p : proto) : bool :=
  forallb (fun m => nodupb (map (wire p) (written m)) && forallb (fun f => forallb (raw_ok strict) (wire p f)) (written m)) (pr_messages p).
Lemma wire_checked strict p : wire_check strict p = true -> wire_fine strict p.
Proof.
  unfold wire_check. rewrite forallb_forall. intros H m M. specialize (H m M). apply andb_true_iff in H as (A & B). split; [now apply nodupb_spec|].
  intros f F. rewrite forallb_forall in B. specialize (B f F). rewrite forallb_forall in B. apply Forall_forall. intros c C. specialize (B c C).
  unfold raw_ok in B. unfold raw_char. destruct strict; lia.
Qed.
