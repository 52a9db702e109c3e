(** The compiler from the text of a schema to the generated header. *)
From Coq Require Import Lia Permutation.
From Verif Require Import Bytes BaseProofs Num Types ProtoLex ProtoParse SpecProto SpecSchema PTermProofs PAcceptProofs Cpp Gen MainC SpecPrint SpecGen SpecCpp SpecFile SortProofs GenText GenFile.

Lemma parsed_refs text file p : parse text file = POk p -> refs_ok (pr_messages p).
Proof.
  intros E m f M F. destruct (accepted_refs text file p m f E M F) as [A B]. split.
  - intros j J. destruct (f_type f) eqn:T; try (rewrite B in J by congruence; discriminate). destruct (A eq_refl) as (_ & k & m' & K & N & _).
    rewrite K in J. injection J as <-. apply nth_error_Some. congruence.
  - intros T. destruct (A T) as (_ & k & m' & K & _). congruence.
Qed.

Lemma parsed_file text file p : parse text file = POk p -> pr_file p = file.
Proof. intros E. pose proof (parse_no_runtime (length text + 3) text file) as W. fold (parse text file) in W. rewrite E in W. apply W. Qed.

Section Sorted.
  Variable srt : list field -> list field.
  Hypothesis P : permutes srt.
  Variable p : proto.
  Let msgs := pr_messages p.
  Let msgs' := pr_messages (sort_fields srt p).
  Definition sorted_message (m : message) : message := Msg (srt (m_fields m)) (m_name m) (m_package m) (m_options m).

  Lemma sorted_nth k : nth_error msgs' k = option_map sorted_message (nth_error msgs k).
  Proof. unfold msgs', sort_fields. cbn [pr_messages]. apply nth_error_map. Qed.
  Lemma sorted_length : length msgs' = length msgs.
  Proof. unfold msgs', sort_fields. cbn [pr_messages]. apply map_length. Qed.
  Lemma sorted_in m' : In m' msgs' <-> exists m, In m msgs /\ m' = sorted_message m.
  Proof. unfold msgs', sort_fields. cbn [pr_messages]. rewrite in_map_iff. split; intros (m & A & B); exists m; auto. Qed.
  Lemma sorted_field m f : In f (m_fields (sorted_message m)) <-> In f (m_fields m).
  Proof. cbn [sorted_message m_fields]. split; intros H; [eapply Permutation_in; [apply P|exact H]|eapply Permutation_in; [apply Permutation_sym, P|exact H]]. Qed.

  Lemma sorted_refers k j : refers msgs' k j <-> refers msgs k j.
  Proof.
    unfold refers. rewrite sorted_nth. split.
    - intros (m' & f & M & F & R). destruct (nth_error msgs k) as [m|] eqn:Q; [|discriminate M]. injection M as <-. apply (proj1 (sorted_field _ _)) in F. exists m, f. exact (conj eq_refl (conj F R)).
    - intros (m & f & M & F & R). rewrite M. exists (sorted_message m), f. split; [reflexivity|]. split; [now apply sorted_field|exact R].
  Qed.
  Lemma sorted_reaches k j : reaches msgs' k j <-> reaches msgs k j.
  Proof. split; (induction 1 as [k j R|k j i R _ IH]; [apply rc_one|apply (rc_more _ _ j); [|exact IH]]); now apply sorted_refers. Qed.
  Lemma sorted_cyclic : cyclic msgs' <-> cyclic msgs.
  Proof. split; intros (k & K); exists k; now apply sorted_reaches. Qed.
  Lemma sorted_circular e : circular msgs' e <-> circular msgs e.
  Proof.
    unfold circular. split; intros (k & m & M & R & E).
    - rewrite sorted_nth in M. destruct (nth_error msgs k) as [m0|] eqn:Q; [|discriminate]. injection M as <-. exists k, m0. refine (conj Q (conj _ E)). now apply sorted_reaches.
    - exists k, (sorted_message m). rewrite sorted_nth, M. refine (conj eq_refl (conj _ E)). now apply sorted_reaches.
  Qed.
  Lemma sorted_ordered order : well_ordered msgs' order <-> well_ordered msgs order.
  Proof.
    unfold well_ordered. rewrite sorted_length. split; intros (A & B & C); (split; [exact A|split; [exact B|]]); intros u k v E j R; (eapply C; [exact E|]); now apply sorted_refers.
  Qed.
  Lemma sorted_refs : refs_ok msgs' <-> refs_ok msgs.
  Proof.
    unfold refs_ok. rewrite sorted_length. split.
    - intros R m f M F. apply (R (sorted_message m) f); [apply sorted_in; eauto|now apply sorted_field].
    - intros R m' f M F. apply sorted_in in M as (m & M & ->). apply (R m f); [exact M|now apply (proj1 (sorted_field _ _)) in F].
  Qed.
  Lemma sorted_message_fine m : message_fine (sorted_message m) <-> message_fine m.
  Proof.
    unfold message_fine. rewrite !Forall_forall. replace (length (m_fields (sorted_message m))) with (length (m_fields m)) by (apply Permutation_length, Permutation_sym, P).
    split; intros [A B]; (split; [exact A|]); intros f F; apply B; now apply sorted_field.
  Qed.
  Lemma sorted_fine : proto_fine (sort_fields srt p) <-> proto_fine p.
  Proof.
    unfold proto_fine. fold msgs msgs'. rewrite sorted_cyclic. split; intros (A & B & C); (split; [exact A|split; [|exact C]]).
    - intros m M. apply sorted_message_fine, B. apply sorted_in. eauto.
    - intros m' M. apply sorted_in in M as (m & M & ->). now apply sorted_message_fine, B.
  Qed.
  Lemma sorted_failure e l c : failure (sort_fields srt p) e l c <-> failure p e l c.
  Proof.
    unfold failure. fold msgs msgs'. rewrite sorted_circular.
    assert (MF : forall m, message_failure (sorted_message m) e l c <-> message_failure m e l c).
    { intros m. unfold message_failure. replace (length (m_fields (sorted_message m))) with (length (m_fields m)) by (apply Permutation_length, Permutation_sym, P).
      split; (intros [A|(f & F & A)]; [left; exact A|right; exists f; split; [now apply sorted_field|exact A]]). }
    split; (intros [A|[A|(m & M & F)]]; [left; exact A|right; left; exact A|right; right]).
    - apply sorted_in in M as (m0 & M & ->). exists m0. split; [exact M|now apply MF].
    - exists (sorted_message m). split; [apply sorted_in; eauto|now apply MF].
  Qed.
  Lemma sorted_uses Q : uses msgs' Q <-> uses msgs Q.
  Proof.
    unfold uses. split; intros (m & f & M & F & R).
    - apply sorted_in in M as (m0 & M & ->). apply (proj1 (sorted_field _ _)) in F. eauto.
    - exists (sorted_message m), f. split; [apply sorted_in; eauto|]. split; [now apply sorted_field|exact R].
  Qed.
  Lemma sorted_wanted h : wanted msgs' h <-> wanted msgs h.
  Proof. unfold wanted. rewrite !sorted_uses. reflexivity. Qed.
End Sorted.

Lemma run_exact cfg srt text path p : build_fine cfg -> permutes srt -> parse text path = POk p -> compiles cfg srt path p (run_text cfg srt text path).
Proof.
  intros B S E. pose proof (parsed_refs text path p E) as R. unfold run_text. rewrite E.
  destruct (generate_exact cfg (sort_fields srt p) B) as [(F & h & order & W & O & G)|(F & t & e & l & c & G & X)]; [now apply sorted_refs| |]; rewrite G.
  - left. apply sorted_fine in F; [|exact S]. split; [exact F|]. exists h, order. apply sorted_wanted in W; [|exact S]. apply sorted_ordered in O; [|exact S].
    split; [exact W|]. split; [exact O|]. cbn zeta. cbn [sort_fields pr_file]. rewrite (parsed_file text path p E). reflexivity.
  - right. rewrite sorted_fine in F by exact S. split; [exact F|]. exists t, e, l, c. split; [|reflexivity]. now apply sorted_failure in X.
Qed.

Lemma run_total cfg srt text path : build_fine cfg -> permutes srt ->
  match run_text cfg srt text path with
  | CExit s _ _ d => (s = 0 <-> exists p, parse text path = POk p /\ proto_fine p) /\ (s = 1 \/ s = 0) /\ (s = 0 <-> d <> None)
  | CAbort | CUndef => False
  | CHangs => parse text path = PFuel
  end.
Proof.
  intros B S. pose proof (parse_no_runtime (length text + 3) text path) as W. fold (parse text path) in W.
  destruct (parse text path) as [p|m l c| |] eqn:E.
  - destruct (run_exact cfg srt text path p B S E) as [(F & h & order & _ & _ & G)|(F & t & e & l & c & _ & G)]; rewrite G.
    + split; [|split; [now right|]]; [split; [intros _; exists p; auto|auto]|]. split; [discriminate|auto].
    + split; [|split; [now left|]]; [split; [discriminate|]|split; [discriminate|congruence]]. intros (p' & E' & F'). inversion E'; subst. contradiction.
  - unfold run_text. rewrite E. split; [|split; [now left|]]; split; try discriminate; try congruence. intros (p' & E' & _). discriminate.
  - contradiction.
  - unfold run_text. rewrite E. reflexivity.
Qed.
