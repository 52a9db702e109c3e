(** The order of the messages (C31). *)
From Coq Require Import Lia.
From Verif Require Import Bytes Num Types ProtoLex ProtoParse Cpp Gen SpecGen.

Lemma memb_in k l : memb k l = true <-> In k l.
Proof.
  unfold memb. rewrite existsb_exists. split; [intros (x & I & E); apply Nat.eqb_eq in E; now subst|]. intros H. exists k. split; [exact H|apply Nat.eqb_refl].
Qed.

Lemma memb_false k l : memb k l = false <-> ~ In k l.
Proof. rewrite <- memb_in. now destruct (memb k l). Qed.

Lemma nodup_split (w w' x y : list nat) j : NoDup (w ++ j :: x) -> w ++ j :: x = w' ++ j :: y -> x = y.
Proof.
  revert w'. induction w as [|a w IH]; intros w' ND E; destruct w' as [|a' w']; cbn [app] in *.
  - now injection E.
  - injection E as -> ->. inversion ND as [|? ? H _]; subst. destruct H. apply in_or_app. right. now left.
  - injection E as -> <-. inversion ND as [|? ? H _]; subst. destruct H. apply in_or_app. right. now left.
  - injection E as <- E. inversion ND as [|? ? _ H]; subst. exact (IH w' H E).
Qed.

Section Sort.
  Variable msgs : list message.
  Hypothesis valid : refs_ok msgs.
  Let N := length msgs.

  (** Emitted messages, last first. *)
  Inductive topo : list nat -> Prop :=
    | topo_nil : topo []
    | topo_cons k out : topo out -> ~ In k out -> (k < N)%nat -> (forall j, refers msgs k j -> In j out) -> topo (k :: out).

  Lemma topo_nodup out : topo out -> NoDup out.
  Proof. induction 1; constructor; auto. Qed.
  Lemma topo_range out k : topo out -> In k out -> (k < N)%nat.
  Proof. induction 1; intros []; subst; auto. Qed.

  Lemma refers_range k j : refers msgs k j -> (j < N)%nat.
  Proof. intros (m & f & M & F & R). apply nth_error_In in M. destruct (valid m f M F) as [V _]. auto. Qed.

  Lemma reaches_app k j i : reaches msgs k j -> refers msgs j i -> reaches msgs k i.
  Proof. induction 1; intros R; [eapply rc_more; [eassumption|now apply rc_one]|eapply rc_more; eauto]. Qed.

  Definition good (pending out : list nat) (ks : nat -> Prop) (r : gout (list nat)) : Prop :=
    match r with
    | GOk out' => topo out' /\ incl out out' /\ (forall x, In x out' -> In x out \/ ~ In x pending) /\ forall k, ks k -> In k out'
    | GThrow e l c => circular msgs e /\ l = 0 /\ c = 0
    | _ => False
    end.

  Lemma pigeon l : NoDup l -> (forall x, In x l -> (x < N)%nat) -> (length l <= N)%nat.
  Proof.
    intros D R. rewrite <- (seq_length N 0). apply NoDup_incl_length; [exact D|]. intros x X. apply in_seq. specialize (R x X). lia.
  Qed.

  Lemma sort_one_good n : forall pending out k, topo out -> (k < N)%nat -> NoDup pending ->
    (forall p, In p pending -> (p < N)%nat /\ ~ In p out /\ reaches msgs p k) -> (S (S N) <= n + length pending)%nat ->
    good pending out (eq k) (sort_one msgs n pending out k).
  Proof.
    induction n as [|n IH]; intros pending out k T K D P F.
    - pose proof (pigeon pending D (fun p X => proj1 (P p X))). lia.
    - cbn [sort_one]. destruct (nth_error msgs k) as [m|] eqn:M; [|apply nth_error_None in M; fold N in M; lia].
      destruct (memb k pending) eqn:MP.
      + apply memb_in in MP. destruct (P k MP) as (_ & _ & R). cbn [good]. split; [|auto]. exists k, m. auto.
      + apply memb_false in MP. destruct (memb k out) eqn:MO.
        * apply memb_in in MO. cbn [good]. split; [exact T|]. split; [apply incl_refl|]. split; [auto|]. intros x <-. exact MO.
        * apply memb_false in MO.
          assert (E : forall l out1, (forall f, In f l -> In f (m_fields m)) -> topo out1 -> incl out out1 -> (forall x, In x out1 -> In x out \/ ~ In x (k :: pending)) ->
            good (k :: pending) out1 (fun j => exists f, In f l /\ f_ref f = Some j)
              ((fix each (l : list field) (out : list nat) : gout (list nat) :=
                       match l with
                       | [] => GOk out
                       | f :: r =>
                           match f_ref f with
                           | Some j => if memb j out then each r out
                                       else match sort_one msgs n (k :: pending) out j with
                                            | GOk out' => each r out'
                                            | x => x
                                            end
                           | None => each r out
                           end
                       end) l out1)).
          { induction l as [|f l IHl]; intros out1 L T1 I1 X1.
            - cbn [good]. split; [exact T1|]. split; [apply incl_refl|]. split; [auto|]. intros j (f & [] & _).
            - destruct (f_ref f) as [j|] eqn:R.
              + assert (RK : refers msgs k j) by (exists m, f; split; [exact M|split; [apply L; now left|exact R]]).
                destruct (memb j out1) eqn:MJ.
                * apply memb_in in MJ. specialize (IHl out1 (fun g G => L g (or_intror G)) T1 I1 X1).
                  revert IHl. match goal with |- good _ _ _ ?r -> _ => destruct r as [o2|e lc cc| |]; cbn [good]; auto end.
                  intros (A & B & C & Dx). split; [exact A|]. split; [exact B|]. split; [exact C|].
                  intros j' (g & [<- |G] & RG); [rewrite R in RG; injection RG as <-; now apply B|apply Dx; exists g; auto].
                * assert (S1 : good (k :: pending) out1 (eq j) (sort_one msgs n (k :: pending) out1 j)).
                  { apply IH; auto.
                    - exact (refers_range k j RK).
                    - now constructor.
                    - intros p [<- |Q].
                      + split; [exact K|]. split; [|now apply rc_one]. intros Y. destruct (X1 _ Y) as [Y'|Y']; [contradiction|]. apply Y'. now left.
                      + destruct (P p Q) as (Q1 & Q2 & Q3). split; [exact Q1|]. split; [|eapply reaches_app; eauto].
                        intros Y. destruct (X1 _ Y) as [Y'|Y']; [contradiction|]. apply Y'. now right.
                    - cbn [length]. lia. }
                  destruct (sort_one msgs n (k :: pending) out1 j) as [o2|e lc cc| |]; cbn [good] in S1; auto.
                  destruct S1 as (A & B & C & Dx).
                  assert (X2 : forall x, In x o2 -> In x out \/ ~ In x (k :: pending)) by (intros x X; destruct (C x X) as [Y|Y]; auto).
                  specialize (IHl o2 (fun g G => L g (or_intror G)) A (incl_tran I1 B) X2).
                  revert IHl. match goal with |- good _ _ _ ?r -> _ => destruct r as [o3|e lc cc| |]; cbn [good]; auto end.
                  intros (A' & B' & C' & Dx'). split; [exact A'|]. split; [exact (incl_tran B B')|].
                  split; [intros x X; destruct (C' x X) as [Y|Y]; [apply C; exact Y|now right]|].
                  intros j' (g & [<- |G] & RG); [rewrite R in RG; injection RG as <-; apply B'; now apply Dx|apply Dx'; exists g; auto].
              + specialize (IHl out1 (fun g G => L g (or_intror G)) T1 I1 X1).
                revert IHl. match goal with |- good _ _ _ ?r -> _ => destruct r as [o2|e lc cc| |]; cbn [good]; auto end.
                intros (A & B & C & Dx). split; [exact A|]. split; [exact B|]. split; [exact C|].
                intros j' (g & [<- |G] & RG); [congruence|apply Dx; exists g; auto]. }
          specialize (E (m_fields m) out (fun f G => G) T (incl_refl _) (fun x X => or_introl X)).
          revert E. match goal with |- good _ _ _ ?r -> _ => destruct r as [o2|e lc cc| |]; cbn [good]; auto end.
          intros (A & B & C & Dx). split.
          { constructor; auto.
            - intros Y. destruct (C k Y) as [Y'|Y']; [contradiction|]. apply Y'. now left.
            - intros j (m' & f & M' & FF & RR). rewrite M in M'. injection M' as <-. apply Dx. exists f. auto. }
          split; [intros x X; right; now apply B|]. split.
          { intros x [<- |X]; [now right|]. destruct (C x X) as [Y|Y]; [now left|]. right. intros Z. apply Y. now right. }
          intros x <-. now left.
  Qed.

  Lemma sort_from_good l : forall out, topo out -> (forall k, In k l -> (k < N)%nat) ->
    match sort_from msgs l out with
    | GOk out' => topo out' /\ incl out out' /\ incl l out'
    | GThrow e a c => circular msgs e /\ a = 0 /\ c = 0
    | _ => False
    end.
  Proof.
    induction l as [|k l IH]; intros out T L; cbn [sort_from].
    - split; [exact T|]. split; [apply incl_refl|]. intros x [].
    - pose proof (sort_one_good (S (S N)) [] out k T (L k (or_introl eq_refl)) (NoDup_nil _) (fun p X => False_ind _ X) ltac:(lia)) as S1.
      unfold N in S1. destruct (sort_one msgs (S (S (length msgs))) [] out k) as [o|e a c| |]; cbn [good] in S1; auto.
      destruct S1 as (A & B & _ & D). specialize (IH o A (fun x X => L x (or_intror X))).
      destruct (sort_from msgs l o) as [o2|e a c| |]; auto. destruct IH as (A' & B' & C'). split; [exact A'|]. split; [exact (incl_tran B B')|].
      intros x [<- |X]; [apply B'; now apply D|now apply C'].
  Qed.

  Lemma topo_reaches out k j : topo out -> In k out -> reaches msgs k j -> exists u v, out = u ++ k :: v /\ In j v.
  Proof.
    intros T K R. revert K. induction R as [k j R|k j i R1 R2 IH]; intros K.
    - revert K. induction T as [|x out T IH N1 N2 R']; [intros []|]. intros [<- |K].
      + exists [], out. split; [reflexivity|now apply R'].
      + destruct (IH K) as (u & v & -> & J). exists (x :: u), v. auto.
    - assert (K1 : exists u v, out = u ++ k :: v /\ In j v).
      { clear IH. revert K. induction T as [|x out T IH N1 N2 R']; [intros []|]. intros [<- |K].
        - exists [], out. split; [reflexivity|now apply R'].
        - destruct (IH K) as (u & v & -> & J). exists (x :: u), v. auto. }
      destruct K1 as (u & v & E & J). destruct IH as (u' & v' & E' & J'); [rewrite E; apply in_or_app; right; now right|].
      exists u, v. split; [exact E|]. apply in_split in J as (v1 & v2 & ->).
      assert (ND := topo_nodup _ T). rewrite E in E'. rewrite E in ND.
      replace (u ++ k :: v1 ++ j :: v2) with ((u ++ k :: v1) ++ j :: v2) in * by (rewrite <- app_assoc; reflexivity).
      assert (Q : v' = v2).
      { symmetry. exact (nodup_split _ _ _ _ _ ND E'). }
      subst v2. apply in_or_app. right. now right.
  Qed.

  Lemma topo_acyclic out : topo out -> forall k, In k out -> ~ reaches msgs k k.
  Proof.
    intros T k K R. destruct (topo_reaches out k k T K R) as (u & v & E & J). apply topo_nodup in T. rewrite E in T.
    apply NoDup_remove_2 in T. apply T. apply in_or_app. now right.
  Qed.

  Lemma topo_order out : topo out -> forall u k v, rev out = u ++ k :: v -> forall j, refers msgs k j -> In j u.
  Proof.
    intros T u k v E j R. assert (E' : out = rev v ++ k :: rev u).
    { rewrite <- (rev_involutive out), E, rev_app_distr. cbn [rev]. now rewrite <- app_assoc. }
    destruct (topo_reaches out k j T) as (u' & v' & E2 & J); [rewrite E'; apply in_or_app; right; now left|now apply rc_one|].
    apply topo_nodup in T. assert (Q : v' = rev u).
    { rewrite E' in E2, T. symmetry. exact (nodup_split _ _ _ _ _ T E2). }
    subst. now apply in_rev.
  Qed.

  Lemma refers_from k j : refers msgs k j -> (k < N)%nat.
  Proof. intros (m & f & M & _). apply nth_error_Some. congruence. Qed.

  (** The outcome of [sort]. *)
  Lemma sort_exact :
    (exists order, sort_messages msgs = ([], GOk order) /\ well_ordered msgs order /\ ~ cyclic msgs) \/
    (exists e, sort_messages msgs = ([], GThrow e 0 0) /\ circular msgs e /\ cyclic msgs).
  Proof.
    unfold sort_messages. pose proof (sort_from_good (seq 0 (length msgs)) [] topo_nil) as G.
    specialize (G ltac:(intros k H; apply in_seq in H; unfold N; lia)).
    destruct (sort_from msgs (seq 0 (length msgs)) []) as [out|e a c| |]; [left|right|destruct G|destruct G].
    - destruct G as (T & _ & I). exists (rev out). split; [reflexivity|]. split; [split; [|split]|].
      + intros k. rewrite <- in_rev. split; [intros K; exact (topo_range out k T K)|]. intros K. apply I. apply in_seq. unfold N in *. lia.
      + apply NoDup_rev. now apply topo_nodup.
      + now apply topo_order.
      + intros (k & R). assert (K : (k < N)%nat) by (inversion R; subst; eapply refers_from; eauto).
        apply (topo_acyclic out T k); [|exact R]. apply I. apply in_seq. unfold N in *. lia.
    - destruct G as (E & -> & ->). exists e. split; [reflexivity|]. split; [exact E|]. destruct E as (k & m & _ & R & _). now exists k.
  Qed.
End Sort.
