(** The order of the fields in the schema does not matter. *)
From Coq Require Import Lia Permutation Sorted.
From Verif Require Import Bytes BaseProofs Num Types ProtoLex ProtoParse SpecProto SpecSchema Cpp Gen MainC SpecGen SpecCpp SpecFile SpecOpts GenText SortProofs GenFile PAcceptProofs BackProofs BackMore SpecOrder.

Lemma Forall2_flip {A B} (R : A -> B -> Prop) l l' : Forall2 R l l' -> Forall2 (fun y x => R x y) l' l.
Proof. induction 1; constructor; auto. Qed.

(** ** Names are totally ordered *)
Lemma lt_total s : forall t, name_lt s t \/ s = t \/ name_lt t s.
Proof.
  induction s as [|c s IH]; intros [|d t].
  - right. now left.
  - left. constructor.
  - right. right. constructor.
  - destruct (Z.lt_trichotomy (code c) (code d)) as [L|[E|L]].
    + left. now constructor.
    + apply code_inj in E. subst. destruct (IH t) as [L|[-> |L]]; [left; now constructor|right; now left|right; right; now constructor].
    + right. right. now constructor.
Qed.

Definition le (f g : field) : Prop := ~ name_lt (f_name g) (f_name f).

Lemma nodup_eq {A B} (f : A -> B) l x y : NoDup (map f l) -> In x l -> In y l -> f x = f y -> x = y.
Proof.
  induction l as [|a l IH]; [intros _ []|]. cbn [map]. intros N. inversion_clear N as [|? ? N1 N2]. intros [-> |X] [-> |Y] E; [reflexivity| | |now apply IH].
  - exfalso. apply N1. rewrite E. now apply in_map.
  - exfalso. apply N1. rewrite <- E. now apply in_map.
Qed.

Lemma sorted_unique A : forall B, StronglySorted le A -> StronglySorted le B -> Permutation A B -> NoDup (map f_name A) -> A = B.
Proof.
  induction A as [|a A IH]; intros B SA SB P N.
  - apply Permutation_nil in P. now subst.
  - destruct B as [|c B]; [apply Permutation_sym, Permutation_nil in P; discriminate|].
    assert (E : a = c).
    { assert (IA : In a (c :: B)) by (eapply Permutation_in; [exact P|now left]). assert (IC : In c (a :: A)) by (eapply Permutation_in; [apply Permutation_sym, P|now left]).
      destruct IA as [-> |IA]; [reflexivity|]. destruct IC as [-> |IC]; [reflexivity|].
      apply StronglySorted_inv in SA as (_ & SA). apply StronglySorted_inv in SB as (_ & SB). rewrite Forall_forall in SA, SB. specialize (SA c IC). specialize (SB a IA). unfold le in *.
      apply (nodup_eq f_name (a :: A)); [exact N|now left|now right|]. destruct (lt_total (f_name a) (f_name c)) as [L|[E|L]]; [contradiction|exact E|contradiction]. }
    subst c. f_equal. apply Permutation_cons_inv in P. apply StronglySorted_inv in SA as (SA & _). apply StronglySorted_inv in SB as (SB & _). inversion_clear N. now apply IH.
Qed.

Lemma same_sorted srt l l' k : sorts srt -> Permutation l k -> Forall2 same_field k l' -> NoDup (map f_name l) -> Forall2 same_field (srt l) (srt l').
Proof.
  intros (P & S) Q F N. apply Forall2_flip in F. destruct (Permutation_Forall2 (Permutation_sym (P l')) F) as (k' & K1 & K2). apply Forall2_flip in K2.
  assert (E : map f_name k' = map f_name (srt l')).
  { clear - K2. induction K2 as [|f g k l (_ & _ & _ & E & _) _ IH]; [reflexivity|]. cbn [map]. now rewrite E, IH. }
  replace (srt l) with k'; [exact K2|]. symmetry. apply sorted_unique.
  - apply S.
  - specialize (S l'). clear - S E. revert k' E. induction S as [|g r S IH F]; intros [|f k'] E; try discriminate; [constructor|]. cbn [map] in E. injection E as E1 E2. constructor; [now apply IH|].
    apply Forall_forall. intros x X. apply (in_map f_name) in X. rewrite E2 in X. apply in_map_iff in X as (y & Y1 & Y2). rewrite Forall_forall in F. specialize (F y Y2). unfold le. congruence.
  - transitivity l; [apply P|]. now transitivity k.
  - eapply Permutation_NoDup; [|exact N]. apply Permutation_map. symmetry. apply P.
Qed.

(** ** Trees with the same fields in the same order *)
Definition equal_message (m m' : message) : Prop :=
  m_name m = m_name m' /\ m_package m = m_package m' /\ Forall2 same_field (m_fields m) (m_fields m').

Lemma sort_one_same msgs msgs' : Forall2 equal_message msgs msgs' -> forall n pending out k, sort_one msgs n pending out k = sort_one msgs' n pending out k.
Proof.
  intros M. induction n as [|n IH]; intros pending out k; [reflexivity|]. cbn [sort_one].
  assert (X : match nth_error msgs k, nth_error msgs' k with Some m, Some m' => equal_message m m' | None, None => True | _, _ => False end).
  { clear - M. revert k. induction M as [|m m' l l' E _ IHM]; intros [|k]; cbn; auto. apply IHM. }
  destruct (nth_error msgs k) as [m|], (nth_error msgs' k) as [m'|]; try contradiction; [|reflexivity]. destruct X as (N & _ & F). rewrite N.
  destruct (memb k pending); [reflexivity|]. destruct (memb k out); [reflexivity|].
  match goal with |- match ?f (m_fields m) out with _ => _ end = match ?g (m_fields m') out with _ => _ end => assert (Y : forall o, f (m_fields m) o = g (m_fields m') o) end.
  { induction F as [|f g l l' (_ & R & _) _ IHF]; intros o; [reflexivity|]. rewrite R. destruct (f_ref g) as [j|]; [|apply IHF]. destruct (memb j o); [apply IHF|]. rewrite IH.
    destruct (sort_one msgs' n (k :: pending) o j); try reflexivity. apply IHF. }
  rewrite Y. reflexivity.
Qed.

Lemma sort_messages_same msgs msgs' : Forall2 equal_message msgs msgs' -> sort_messages msgs = sort_messages msgs'.
Proof.
  intros M. unfold sort_messages. rewrite (Forall2_length _ _ _ M).
  assert (X : forall l out, sort_from msgs l out = sort_from msgs' l out).
  { induction l as [|k l IH]; intros out; [reflexivity|]. cbn [sort_from]. rewrite (Forall2_length _ _ _ M), (sort_one_same _ _ M). destruct (sort_one _ _ _ _ _); auto. }
  now rewrite X.
Qed.

Lemma same_flag o o' n : same_entries o o' -> flag o n = flag o' n /\ (is_bool o n <-> is_bool o' n).
Proof.
  intros S. specialize (S n). unfold flag, is_bool. destruct (o_find n o), (o_find n o'); try contradiction; [destruct S as (-> & ->)|]; split; reflexivity.
Qed.

Lemma same_given f g : same_field f g -> given_name f = given_name g /\ transient f = transient g /\ (field_fine f <-> field_fine g).
Proof.
  intros (_ & _ & _ & N & _ & S). pose proof (S (b "name")) as X. destruct (same_flag _ _ (b "transient") S) as (T & B).
  assert (G : given_name f = given_name g) by (unfold given_name; destruct (o_find _ (f_options f)), (o_find _ (f_options g)); try contradiction; [apply X|exact N]).
  split; [exact G|]. split; [exact T|]. unfold field_fine, name_fine. rewrite B, G. unfold transient. rewrite T.
  destruct (o_find _ (f_options f)), (o_find _ (f_options g)); try contradiction; [destruct X as (-> & _)|]; reflexivity.
Qed.

Lemma same_member msgs msgs' lists f g : Forall2 equal_message msgs msgs' -> same_field f g -> member_type msgs lists f = member_type msgs' lists g.
Proof.
  intros M (T & R & Q & _). assert (V : value_elem msgs f = value_elem msgs' g).
  { unfold value_elem. rewrite T, R. destruct (f_type g); try reflexivity. destruct (f_ref g) as [k|]; [|reflexivity].
    clear - M. revert k. induction M as [|m m' l l' (A & B & _) _ IHM]; intros [|k]; cbn; auto. now rewrite A, B. }
  unfold member_type, is_bytes. rewrite V, T, Q. reflexivity.
Qed.

Lemma same_map {A} (h h' : field -> A) l l' : (forall f g, same_field f g -> h f = h' g) -> Forall2 same_field l l' -> map h l = map h' l'.
Proof. intros H. induction 1 as [|f g l l' E _ IH]; [reflexivity|]. cbn [map]. now rewrite (H f g E), IH. Qed.

Lemma same_class msgs msgs' obf lists numbers m m' : Forall2 equal_message msgs msgs' -> equal_message m m' -> class_of msgs obf lists numbers m = class_of msgs' obf lists numbers m'.
Proof.
  intros M (N & P & F). unfold class_of. rewrite N, P.
  assert (W : Forall2 same_field (written m) (written m')).
  { unfold written. induction F as [|f g l l' E _ IH]; [constructor|]. cbn [filter]. destruct (same_given f g E) as (_ & -> & _). destruct (negb (transient g)); [now constructor|exact IH]. }
  assert (L : forall f g, same_field f g -> json_label numbers f = json_label numbers g).
  { intros f g E. unfold json_label. destruct (same_given f g E) as (-> & _). destruct E as (_ & _ & _ & _ & -> & _). reflexivity. }
  assert (NM : forall f g, same_field f g -> f_name f = f_name g) by (intros f g E; apply E).
  assert (NB : forall i, Forall2 (fun x y => fst x = fst y /\ same_field (snd x) (snd y)) (numbered i (written m)) (numbered i (written m'))).
  { clear - W. induction W as [|f g l l' E _ IH]; intros i; cbn [numbered]; constructor; auto. }
  assert (MN : forall A (h : Z * field -> A), (forall i f g, same_field f g -> h (i, f) = h (i, g)) -> map h (numbered 0 (written m)) = map h (numbered 0 (written m'))).
  { intros A h H. specialize (NB 0). clear - NB H. induction NB as [|(i, f) (j, g) l l' (E1 & E2) _ IH]; [reflexivity|]. cbn [fst snd] in *. subst. cbn [map]. now rewrite (H j f g E2), IH. }
  f_equal.
  - apply same_map; [|exact F]. intros f g E. rewrite (same_member msgs msgs' lists f g M E), (NM f g E). reflexivity.
  - apply MN. intros i f g E. cbn [fst snd]. now rewrite (NM f g E).
  - apply same_map; [|exact W]. intros f g E. now rewrite (NM f g E), (L f g E).
  - now apply same_map.
  - now apply same_map.
  - now apply same_map.
  - now apply same_map.
  - clear - W. destruct W; reflexivity.
  - apply MN. intros i f g E. cbn [fst snd]. now rewrite (L f g E).
Qed.

Lemma same_any (q : field -> bool) msgs msgs' : (forall f g, same_field f g -> q f = q g) -> Forall2 equal_message msgs msgs' -> any_field msgs q = any_field msgs' q.
Proof.
  intros Q. unfold any_field. induction 1 as [|m m' l l' (_ & _ & F) _ IH]; [reflexivity|]. cbn [existsb]. rewrite IH. f_equal. clear - Q F.
  induction F as [|f g l l' E _ IH]; [reflexivity|]. cbn [existsb]. now rewrite (Q f g E), IH.
Qed.

Lemma same_headers msgs msgs' : Forall2 equal_message msgs msgs' -> header_flags msgs = header_flags msgs'.
Proof.
  intros M. unfold header_flags. f_equal; apply same_any; try exact M; intros f g (A & _ & B & _); rewrite ?A, ?B; reflexivity.
Qed.

Definition equal_tree (p p' : proto) : Prop :=
  Forall2 equal_message (pr_messages p) (pr_messages p') /\ same_entries (pr_options p) (pr_options p').

Lemma equal_refers msgs msgs' : Forall2 equal_message msgs msgs' -> forall k j, refers msgs k j -> refers msgs' k j.
Proof.
  intros M k j (m & f & N & F & R). revert k N. induction M as [|m1 m2 l l' (_ & _ & X) _ IH]; intros [|k] N; try discriminate.
  - injection N as ->. destruct (Forall2_in1 _ _ _ _ X F) as (g & G & (_ & E & _)). exists m2, g. cbn. rewrite <- E. auto.
  - destruct (IH k N) as (m' & f' & A). exists m', f'. exact A.
Qed.

Lemma equal_fine p p' : equal_tree p p' -> proto_fine p -> proto_fine p'.
Proof.
  intros (M & O) (A & B & C). split; [|split].
  - intros n I. apply (same_flag _ _ n O). now apply A.
  - intros m' I. destruct (Forall2_in2 _ _ _ _ M I) as (m & J & (_ & _ & F)). destruct (B m J) as (B1 & B2). split; [rewrite <- (Forall2_length _ _ _ F); exact B1|].
    clear - F B2. induction F as [|f g l l' E _ IH]; [constructor|]. inversion_clear B2. constructor; [|now apply IH]. now apply (same_given f g E).
  - intros (k & K). apply C. exists k. assert (M' : Forall2 equal_message (pr_messages p') (pr_messages p)).
    { clear - M. induction M as [|m m' l l' (X & Y & F) _ IH]; constructor; [|exact IH]. split; [auto|]. split; [auto|]. clear - F. induction F as [|f g l l' (A & B & C & D & E & S) _ IH]; constructor; [|exact IH].
      refine (conj (eq_sym A) (conj (eq_sym B) (conj (eq_sym C) (conj (eq_sym D) (conj (eq_sym E) _))))). intros n. specialize (S n). destruct (o_find n (f_options f)), (o_find n (f_options g)); auto. destruct S; auto. }
    revert K. generalize k at 2 4. intros j. induction 1 as [k j R|k j i R _ IH]; [apply rc_one|eapply rc_more; [|exact IH]]; now apply (equal_refers _ _ M').
Qed.

Lemma equal_generate cfg p p' : build_fine cfg -> refs_ok (pr_messages p) -> refs_ok (pr_messages p') -> pr_file p = pr_file p' -> equal_tree p p' -> proto_fine p -> generate cfg p = generate cfg p'.
Proof.
  intros B R R' E (M & O) F. pose proof (equal_fine p p' (conj M O) F) as F'.
  destruct (sort_exact (pr_messages p) R) as [(order & S & W & _)|(e & _ & _ & X)]; [|destruct F as (_ & _ & F); contradiction].
  pose proof (sort_messages_same _ _ M) as S'. rewrite S in S'. symmetry in S'.
  destruct (sort_exact (pr_messages p') R') as [(order' & S2 & W' & _)|(e & S2 & _)]; [|rewrite S' in S2; discriminate]. assert (order' = order) by (rewrite S' in S2; congruence). subst order'.
  rewrite (generate_sorted cfg p order B R F S W), (generate_sorted cfg p' order B R' F' S' W'). rewrite E, (same_headers _ _ M).
  assert (C : classes_of p order = classes_of p' order).
  { unfold classes_of. destruct (same_flag _ _ (b "obfuscate_strings") O) as (-> & _), (same_flag _ _ (b "cpp_use_lists") O) as (-> & _), (same_flag _ _ (b "number_names") O) as (-> & _).
    f_equal. apply map_ext. intros k. 
    assert (X : match nth_error (pr_messages p) k, nth_error (pr_messages p') k with Some m, Some m' => equal_message m m' | None, None => True | _, _ => False end).
    { clear - M. revert k. induction M as [|m m' l l' E _ IHM]; intros [|k]; cbn; auto. apply IHM. }
    destruct (nth_error (pr_messages p) k) as [m|], (nth_error (pr_messages p') k) as [m'|]; try contradiction; [|reflexivity]. now rewrite (same_class _ _ _ _ _ m m' M X). }
  now rewrite C.
Qed.

(** ** Reordered trees *)
Lemma reordered_sorted srt p p' : sorts srt -> reordered p p' -> distinct_names p -> equal_tree (sort_fields srt p) (sort_fields srt p').
Proof.
  intros S (M & O) D. split; [|exact O]. cbn [sort_fields pr_messages]. unfold distinct_names in D. induction M as [|m m' l l' (A & B & k & C1 & C2) _ IH]; [constructor|]. cbn [map]. constructor.
  - split; [exact A|]. split; [exact B|]. cbn [m_fields]. apply (same_sorted srt _ _ k); auto. apply D. now left.
  - apply IH. intros x X. apply D. now right.
Qed.

Lemma reordered_run cfg srt text text' path p p' : build_fine cfg -> sorts srt -> parse text path = POk p -> parse text' path = POk p' -> reordered p p' -> distinct_names p ->
  proto_fine p -> run_text cfg srt text path = run_text cfg srt text' path.
Proof.
  intros B S P P' R D F. unfold run_text. rewrite P, P'. destruct S as (S1 & S2).
  rewrite (equal_generate cfg (sort_fields srt p) (sort_fields srt p')); [reflexivity|exact B| | | | |].
  - apply sorted_refs; [exact S1|]. now apply (parsed_refs text path).
  - apply sorted_refs; [exact S1|]. now apply (parsed_refs text' path).
  - cbn [sort_fields pr_file]. now rewrite (parsed_file text path p P), (parsed_file text' path p' P').
  - apply reordered_sorted; [split; assumption|exact R|exact D].
  - apply sorted_fine; [exact S1|exact F].
Qed.

(** Members in order. *)
Lemma run_members cfg srt text path p h cs out : build_fine cfg -> sorts srt -> parse text path = POk p -> run_text cfg srt text path = CExit 0 [] out (Some (h, cs)) ->
  forall c, In c cs -> exists m, In m (pr_messages p) /\ c_name c = m_name m /\
    Permutation (map snd (c_members c)) (map f_name (m_fields m)) /\
    StronglySorted (fun x y => ~ name_lt y x) (map snd (c_members c)).
Proof.
  intros B (S1 & S2) P E c C. destruct (run_exact cfg srt text path p B S1 P) as [(_ & h' & order & _ & O & X)|(_ & t & e & l & k & _ & X)]; rewrite X in E; [|discriminate].
  cbn zeta in E. injection E as _ _ <-. unfold classes_of in C. apply in_concat in C as (l & L & C). apply in_map_iff in L as (k & <- & K).
  destruct (nth_error (pr_messages (sort_fields srt p)) k) as [m'|] eqn:M; [|destruct C]. destruct C as [<-|[]]. rewrite sorted_nth in M. destruct (nth_error (pr_messages p) k) as [m|] eqn:Q; [|discriminate].
  injection M as <-. exists m. split; [now apply nth_error_In in Q|]. split; [reflexivity|]. cbn [class_of c_members m_fields]. rewrite map_map. cbn [snd]. split.
  - apply Permutation_map, S1.
  - specialize (S2 (m_fields m)). change (m_fields (sorted_message srt m)) with (srt (m_fields m)). induction S2 as [|f r S IH F]; [constructor|]. cbn [map]. constructor; [exact IH|]. apply Forall_forall. intros x X'. apply in_map_iff in X' as (g & <- & G). rewrite Forall_forall in F. now apply F.
Qed.

(** ** Schemas *)
Definition same_head (m m' : bytes * bytes * list sitem) : Prop := fst m = fst m'.

Lemma first_named_same l l' q k : Forall2 same_head l l' -> first_named l q k -> first_named l' q k.
Proof.
  intros F ((p & n & i & N & Q) & L).
  assert (X : forall j, match nth_error l j, nth_error l' j with Some m, Some m' => same_head m m' | None, None => True | _, _ => False end).
  { clear - F. intros j. revert j. induction F as [|m m' l l' E _ IH]; intros [|j]; cbn; auto. apply IH. }
  split.
  - pose proof (X k) as Y. rewrite N in Y. destruct (nth_error l' k) as [((p', n'), i')|]; [|contradiction]. unfold same_head in Y. cbn in Y. injection Y as <- <-. exists p, n, i'. auto.
  - intros j p' n' i' J M. pose proof (X j) as Y. rewrite M in Y. destruct (nth_error l j) as [((p2, n2), i2)|] eqn:M2; [|contradiction]. unfold same_head in Y. cbn in Y. injection Y as -> ->. now apply (L j p' n' i2).
Qed.

Lemma same_options_entries o o' l l' : options_are o l -> options_are o' l' -> same_options l l' -> same_entries o o'.
Proof.
  intros A A' S n. specialize (A n). specialize (A' n). rewrite (S n) in A. destruct (last_value l' n) as [v|].
  - destruct (o_find n o) as [e|]; [|contradiction]. destruct (o_find n o') as [e'|]; [|contradiction]. destruct A as (_ & A1 & A2), A' as (_ & B1 & B2). split; congruence.
  - destruct (o_find n o); [contradiction|]. destruct (o_find n o'); [contradiction|]. exact I.
Qed.

Lemma same_field_is all all' pkg f g s : Forall2 same_head all all' -> field_is all pkg f s -> field_is all' pkg g s -> same_field f g.
Proof.
  intros H (A1 & A2 & A3 & A4 & A5 & A6 & A7) (B1 & B2 & B3 & B4 & B5 & B6 & B7).
  refine (conj (eq_trans A1 (eq_sym B1)) (conj _ (conj (eq_trans A3 (eq_sym B3)) (conj (eq_trans A5 (eq_sym B5)) (conj (eq_trans A6 (eq_sym B6)) _))))).
  - destruct (sf_type s); try (destruct A2 as (_ & ->), B2 as (_ & ->); reflexivity). destruct A2 as (_ & k & -> & K), B2 as (_ & j & -> & J). f_equal.
    apply (first_named_same _ _ _ _ H) in K. now apply (first_named_unique all' (full_name pkg name)).
  - apply (same_options_entries _ _ _ _ A7 B7). intros n. reflexivity.
Qed.

Lemma messages_reorder all all' : Forall2 same_head all all' -> forall l l',
  Forall2 (fun m m' : bytes * bytes * list sitem => fst m = fst m' /\ Permutation (item_fields (snd m)) (item_fields (snd m'))) l l' ->
  forall ms ms', Forall2 (message_is all) ms l -> Forall2 (message_is all') ms' l' -> Forall2 same_message ms ms'.
Proof.
  intros H l l' R. induction R as [|((pkg, name), items) ((pkg', name'), items') r r' (E & P) _ IH]; intros ms ms' A A'.
  - inversion A; subst. inversion A'; subst. constructor.
  - inversion A as [|m ? ms0 ? M A1]; subst. destruct M as (M1 & M2 & M3 & _). inversion A' as [|m' ? ms1 ? M' A1']; subst. destruct M' as (M1' & M2' & M3' & _). cbn [fst] in E. injection E as E1 E2. cbn [snd] in P.
    constructor; [|now apply IH]. split; [congruence|]. split; [congruence|].
    apply Forall2_flip in M3. destruct (Permutation_Forall2 P M3) as (k & K1 & K2). exists k. split; [exact K1|]. apply Forall2_flip in K2. rewrite <- E1 in M3'. clear - K2 M3' H.
    revert M3'. generalize (m_fields m'). induction K2 as [|f s k ss F _ IH]; intros gs G; inversion G; subst; constructor; [|now apply IH].
    now apply (same_field_is all all' (m_package m) f _ s H).
Qed.

Lemma schema_reorders p p' d d' : proto_is p d -> proto_is p' d' -> schema_reordered d d' -> reordered p p'.
Proof.
  intros (A & O) (A' & O') (R & Q). split; [|now apply (same_options_entries _ _ _ _ O O')].
  assert (H : Forall2 same_head (messages_of [] d) (messages_of [] d')) by (eapply Forall2_impl; [|exact R]; intros x y (E & _); exact E).
  exact (messages_reorder _ _ H _ _ R _ _ A A').
Qed.

Lemma schema_distinct_names p d : proto_is p d -> schema_distinct d -> distinct_names p.
Proof.
  intros (A & _) D m M. destruct (Forall2_in1 _ _ _ _ A M) as (((pkg, name), items) & I & (_ & _ & F & _)). specialize (D _ I). cbn [snd] in D.
  replace (map f_name (m_fields m)) with (map sf_name (item_fields items)); [exact D|]. clear - F. induction F as [|f s l l' (_ & _ & _ & _ & E & _) _ IH]; [reflexivity|]. cbn [map]. now rewrite E, IH.
Qed.

Lemma schema_reordered_run cfg srt stray d d' text text' next next' path : build_fine cfg -> sorts srt ->
  laid stray (schema_pieces d) text next -> schema_ok d -> sep stray next ->
  laid stray (schema_pieces d') text' next' -> schema_ok d' -> sep stray next' ->
  schema_reordered d d' -> schema_distinct d -> schema_fine d ->
  run_text cfg srt (text ++ next) path = run_text cfg srt (text' ++ next') path.
Proof.
  intros B S L O N L' O' N' R D F. destruct (recovers stray d text next path L O N) as (p & P & I & _). destruct (recovers stray d' text' next' path L' O' N') as (p' & P' & I' & _).
  apply (reordered_run cfg srt _ _ path p p' B S P P'); [now apply (schema_reorders p p' d d')|now apply (schema_distinct_names p d)|now apply (schema_fine_iff p d I)].
Qed.
