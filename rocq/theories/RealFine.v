(** The runtime headers of the project contain neither dollar signs nor NULs. *)
From Coq Require Import Lia.
From Verif Require Import Bytes BaseProofs SpecProto SpecTemplate Template Cpp TemplateProofs TemplateReal CodeTxt HdrText Codes Gen RealBuild SpecPrint SpecCpp SpecFile.

Lemma join_in (c : ascii) s l : In c (join s l) -> In c s \/ exists x, In x l /\ In c x.
Proof.
  induction l as [|x l IH]; [intros []|]. destruct l as [|y l]; [intros H; right; exists x; split; [now left|exact H]|].
  change (join s (x :: y :: l)) with (x ++ s ++ join s (y :: l)). rewrite !in_app_iff. intros [H|[H|H]].
  - right. exists x. split; [now left|exact H].
  - now left.
  - destruct (IH H) as [A|(z & Z & A)]; [now left|]. right. exists z. split; [now right|exact A].
Qed.

Lemma in_join (c : ascii) s l x : In x l -> In c x -> In c (join s l).
Proof.
  induction l as [|y l IH]; [intros []|]. intros [-> |X] C.
  - destruct l; [exact C|]. cbn [join]. rewrite in_app_iff. now left.
  - destruct l as [|z l]; [destruct X|]. cbn [join]. rewrite !in_app_iff. right. right. now apply IH.
Qed.

Lemma versioned_in naming l x c : versioned naming l x -> In c x -> In c naming \/ In c l.
Proof.
  intros (us & _ & _ & -> & ->) H. destruct (join_in c naming us H) as [A|(u & U & A)]; [now left|]. right. now apply (in_join c _ us u).
Qed.

Lemma embedded_in naming ls v c : embedded naming ls v -> In c v -> In c naming \/ c = LF \/ exists l, In l ls /\ In c l.
Proof.
  induction 1 as [|line r t A E IH|line x r t A V E IH]; [intros []| |].
  - intros H. destruct (IH H) as [X|[X|(l & L & X)]]; auto. right. right. exists l. split; [now right|exact X].
  - rewrite !in_app_iff. intros [H|[H|H]].
    + destruct (versioned_in _ _ _ _ V H) as [X|X]; [now left|]. right. right. exists line. split; [now left|exact X].
    + right. left. cbn in H. intuition.
    + destruct (IH H) as [X|[X|(l & L & X)]]; auto. right. right. exists l. split; [now right|exact X].
Qed.

Lemma header_plain path text name value n : text_fine n text = true -> runtime_header path text name value ->
  forallb (fun c => negb (Ascii.eqb c "$") && negb (Ascii.eqb c NUL)) text = true -> plain_text value.
Proof.
  intros TF (v & E & -> & _) H. rewrite forallb_forall in H. destruct (text_fine_ok n text TF) as (ls & final & T & G & _). rewrite G in E.
  assert (K : forall c, In c (v ++ [LF]) -> In c real_naming \/ c = LF \/ In c text).
  { intros c C. apply in_app_iff in C as [C|C]; [|right; left; cbn in C; intuition]. destruct (embedded_in _ _ _ _ E C) as [X|[X|(l & L & X)]]; auto.
    right. right. rewrite T. unfold file_text. apply in_app_iff. left. apply in_concat. exists (l ++ [LF]). split; [|apply in_app_iff; now left]. apply in_map_iff. now exists l. }
  assert (P : forall c, In c (v ++ [LF]) -> c <> "$"%char /\ c <> NUL).
  { intros c C. destruct (K c C) as [X|[-> |X]]; [|split; discriminate|].
    - vm_compute in X. repeat (destruct X as [<-|X]; [split; discriminate|]). destruct X.
    - apply H in X. apply andb_true_iff in X as [X Y]. apply negb_true_iff in X, Y. apply Ascii.eqb_neq in X, Y. auto. }
  split; intros C; apply P in C; tauto.
Qed.

Lemma real_build_fine : build_fine real_build.
Proof.
  destruct header_macros_real as (H1 & H2 & H3 & H4 & H5 & H6). unfold build_fine.
  repeat (first [apply Forall_cons | apply Forall_nil]).
  - eapply (header_plain _ _ _ _ 1000); [|exact H1|]; vm_cast_no_check (eq_refl true).
  - eapply (header_plain _ _ _ _ 1000); [|exact H2|]; vm_cast_no_check (eq_refl true).
  - eapply (header_plain _ _ _ _ 1000); [|exact H3|]; vm_cast_no_check (eq_refl true).
  - eapply (header_plain _ _ _ _ 1000); [|exact H4|]; vm_cast_no_check (eq_refl true).
  - eapply (header_plain _ _ _ _ 1000); [|exact H5|]; vm_cast_no_check (eq_refl true).
  - eapply (header_plain _ _ _ _ 1000); [|exact H6|]; vm_cast_no_check (eq_refl true).
Qed.
