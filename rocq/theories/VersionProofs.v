(** Programs generated from two versions of a schema. *)
From Coq Require Import Lia Permutation.
From Verif Require Import Bytes BaseProofs Num Types Read Write SpecJson SpecInterp SpecWrite WriteProofs InterpProofs ProtoLex ProtoParse SpecProto SpecTemplate Cpp Gen MainC SpecGen SpecCpp SpecFile SpecOpts
  SortProofs PRunProofs PTermProofs PAcceptProofs GenText GenFile BackProofs BackMore SpecNum SpecProgram ProgramProofs NameProofs CheckProofs SpecEnd EndProofs SpecEvolve EvolveProofs SpecVersions.

Lemma solves_sized p h T order : well_ordered (pr_messages p) order -> solves p h T -> forall k, (k < length (pr_messages p))%nat -> sized (T k).
Proof.
  intros O S. apply (along_order _ order (fun k => sized (T k)) O). intros k m E H. destruct (S k m E) as (g & -> & _ & _).
  constructor. apply Forall_forall. intros t I. apply in_map_iff in I as (f & <- & I). unfold field_ty.
  assert (PS : prim_sized (prim_of (f_type f))) by (destruct (f_type f); try exact Logic.I; cbn [prim_of prim_sized]; unfold int_width; auto).
  destruct (f_type f) eqn:FT; try (destruct (f_repeated f); repeat constructor; exact PS; fail).
  - destruct (h_base64 h); [constructor|]. constructor. constructor. now left.
  - assert (X : sized (match f_ref f with Some j => T j | None => TStr end)).
    { destruct (f_ref f) as [j|] eqn:R; [|constructor]. now apply (H f j). }
    destruct (f_repeated f); [constructor|]; exact X.
Qed.

Lemma wire_at_in p l : forall i k n, In (k, n) (wire_at p i l) -> exists f, (i <= k)%nat /\ nth_error l (k - i) = Some f /\ transient f = false /\ n = wire p f.
Proof.
  induction l as [|f l IH]; intros i k n I; [destruct I|]. cbn [wire_at] in I.
  assert (G : In (k, n) (wire_at p (S i) l) -> exists f0, (i <= k)%nat /\ nth_error (f :: l) (k - i) = Some f0 /\ transient f0 = false /\ n = wire p f0).
  { intros J. destruct (IH _ _ _ J) as (f0 & L & N & Q). exists f0. split; [lia|]. split; [|exact Q].
    replace (k - i)%nat with (S (k - S i)) by lia. exact N. }
  destruct (transient f) eqn:TR; [now apply G|]. destruct I as [E|I]; [|now apply G]. injection E as -> <-. exists f. split; [lia|].
  rewrite Nat.sub_diag. auto.
Qed.

Lemma sorted_wire srt p f : wire (sort_fields srt p) f = wire p f.
Proof. reflexivity. Qed.

Lemma fields_evolve p p' h h' R T T' f f' : wanted (pr_messages p) h -> wanted (pr_messages p') h' -> alike p p' R f f' ->
  (f_type f = FMessage -> exists j m, f_ref f = Some j /\ nth_error (pr_messages p) j = Some m) ->
  (f_type f' = FMessage -> exists j m, f_ref f' = Some j /\ nth_error (pr_messages p') j = Some m) ->
  (forall j j' m m', f_ref f = Some j -> f_ref f' = Some j' -> nth_error (pr_messages p) j = Some m -> nth_error (pr_messages p') j' = Some m' ->
     R (key m) (key m') -> evolves (T j) (T' j')) ->
  evolves (field_ty h T f) (field_ty h' T' f').
Proof.
  intros (_ & W & _) (_ & W' & _) A F F' H. destruct A as [N N' K RP|B B' RP|B B' EN|B EN B' RP|B RP B' EN|B B' RP X].
  - assert (Y : field_ty h T f = if f_repeated f then TRep (TPrim (prim_of (f_type f))) else TField (prim_of (f_type f))).
    { unfold field_ty. destruct N as (N1 & N2 & N3). destruct (f_type f); try congruence; reflexivity. }
    assert (Y' : field_ty h' T' f' = if f_repeated f' then TRep (TPrim (prim_of (f_type f'))) else TField (prim_of (f_type f'))).
    { unfold field_ty. destruct N' as (N1 & N2 & N3). destruct (f_type f'); try congruence; reflexivity. }
    rewrite Y, Y', <- RP.
    assert (Z : forall q, kind_of (TPrim q) <> KArray /\ kind_of (TPrim q) <> KObject) by (intros q; cbn [kind_of]; destruct (number q); split; discriminate).
    destruct (f_repeated f); [apply ev_rep|]; (apply ev_scalar; [cbn [kind_of]; now rewrite K|apply Z|apply Z]).
  - unfold field_ty. rewrite B, B', <- RP. destruct (f_repeated f); [apply ev_rep|]; apply ev_scalar; try reflexivity; discriminate.
  - unfold field_ty. rewrite B, B'. replace (h_base64 h') with (h_base64 h).
    + destruct (h_base64 h); [apply ev_scalar; try reflexivity; discriminate|]. apply ev_rep, ev_scalar; try reflexivity; discriminate.
    + apply Bool.eq_iff_eq_true. unfold encodes in EN. tauto.
  - unfold field_ty. rewrite B, B', RP. rewrite (proj2 W EN). apply ev_scalar; try reflexivity; discriminate.
  - unfold field_ty. rewrite B, B', RP. rewrite (proj2 W' EN). apply ev_scalar; try reflexivity; discriminate.
  - unfold field_ty. rewrite B, B', <- RP. destruct (F B) as (j & m & J & M). destruct (F' B') as (j' & m' & J' & M'). rewrite J, J'.
    assert (E : evolves (T j) (T' j')) by (eapply H; eauto). destruct (f_repeated f); [now apply ev_rep|exact E].
Qed.

Lemma refs_found msgs m f : refs_ok msgs -> In m msgs -> In f (m_fields m) -> f_type f = FMessage -> exists j m', f_ref f = Some j /\ nth_error msgs j = Some m'.
Proof.
  intros R M F B. destruct (R m f M F) as [R1 R2]. destruct (f_ref f) as [j|] eqn:J; [|now exfalso; apply (R2 B)].
  specialize (R1 j eq_refl). destruct (nth_error msgs j) as [m'|] eqn:Q; [eauto|]. apply nth_error_None in Q. lia.
Qed.

Lemma versions_evolve p p' h h' T T' order R : well_ordered (pr_messages p) order -> refs_ok (pr_messages p) -> refs_ok (pr_messages p') ->
  wanted (pr_messages p) h -> wanted (pr_messages p') h' -> solves p h T -> solves p' h' T' -> compatible p p' R ->
  forall k, (k < length (pr_messages p))%nat -> forall k' m m', nth_error (pr_messages p) k = Some m -> nth_error (pr_messages p') k' = Some m' ->
    R (key m) (key m') -> evolves (T k) (T' k').
Proof.
  intros O RF RF' W W' S S' C.
  apply (along_order _ order (fun k => forall k' m m', nth_error (pr_messages p) k = Some m -> nth_error (pr_messages p') k' = Some m' ->
    R (key m) (key m') -> evolves (T k) (T' k')) O).
  intros k m0 E H k' m m' M M' RR. rewrite E in M. injection M as ->.
  destruct (S k m E) as (g & -> & G & _). destruct (S' k' m' M') as (g' & -> & G' & _).
  apply ev_msg. intros i i' label t t' A A' K K'. rewrite G in A. rewrite G' in A'. rewrite nth_error_map' in K. rewrite nth_error_map' in K'.
  apply wire_at_in in A as (f & _ & Q & TR & L). apply wire_at_in in A' as (f' & _ & Q' & TR' & L'). rewrite Nat.sub_0_r in Q, Q'.
  rewrite Q in K. rewrite Q' in K'. injection K as <-. injection K' as <-.
  apply nth_error_In in Q. apply nth_error_In in Q'. pose proof (nth_error_In _ _ E) as ME. pose proof (nth_error_In _ _ M') as ME'.
  assert (AL : alike p p' R f f').
  { apply (C m m' ME ME' RR); [| |congruence]; unfold written; apply filter_In; split; auto; apply negb_true_iff; assumption. }
  apply (fields_evolve p p' h h' R); auto.
  - intros B. eapply refs_found; eauto.
  - intros B. eapply refs_found; eauto.
  - intros j j' n n' J J' N N' RN. exact (H f j Q J j' n n' N N' RN).
Qed.

Lemma sorted_uses srt p P : permutes srt -> uses (pr_messages (sort_fields srt p)) P <-> uses (pr_messages p) P.
Proof.
  intros S. unfold uses. split.
  - intros (m & f & M & F & X). apply sorted_in in M as (m0 & M & ->). apply (proj1 (sorted_field srt S _ _)) in F. eauto.
  - intros (m & f & M & F & X). exists (sorted_message srt m), f. split; [apply sorted_in; eauto|]. split; [now apply sorted_field|exact X].
Qed.

Lemma sorted_compatible srt srt' p p' R : permutes srt -> permutes srt' -> compatible p p' R -> compatible (sort_fields srt p) (sort_fields srt' p') R.
Proof.
  intros S S' C m m' M M' RR f f' F F' E. apply sorted_in in M as (m0 & M & ->). apply sorted_in in M' as (m0' & M' & ->).
  unfold written in F, F'. apply filter_In in F as (F & TR). apply filter_In in F' as (F' & TR').
  apply (proj1 (sorted_field srt S _ _)) in F. apply (proj1 (sorted_field srt' S' _ _)) in F'.
  assert (A : alike p p' R f f').
  { apply (C m0 m0' M M' RR); [| |exact E]; unfold written; apply filter_In; auto. }
  pose proof (sorted_uses srt p (fun f => f_repeated f = true /\ f_type f = FBytes) S) as U.
  pose proof (sorted_uses srt' p' (fun f => f_repeated f = true /\ f_type f = FBytes) S') as U'.
  destruct A as [N N' K RP|B B' RP|B B' EN|B EN B' RP|B RP B' EN|B B' RP X].
  - now apply al_number.
  - now apply al_string.
  - apply al_bytes; auto. unfold encodes in *. tauto.
  - apply al_encoded; auto. now apply U.
  - apply al_decoded; auto. now apply U'.
  - apply al_message; auto. intros j j' m m' J J' N N'. rewrite sorted_nth in N. rewrite sorted_nth in N'.
    destruct (nth_error (pr_messages p) j) as [n|] eqn:NJ; [|discriminate]. destruct (nth_error (pr_messages p') j') as [n'|] eqn:NJ'; [|discriminate].
    injection N as <-. injection N' as <-. exact (X j j' n n' J J' NJ NJ').
Qed.

(** A schema that the compiler and C++ accept. *)
Lemma version_types cfg srt text path p env : build_fine cfg -> permutes srt -> parse text path = POk p -> proto_fine p ->
  (forall h, wanted (pr_messages p) h -> cpp_fine p h) -> compiles cfg srt text path env ->
  exists h order T, wanted (pr_messages (sort_fields srt p)) h /\ well_ordered (pr_messages (sort_fields srt p)) order /\
    refs_ok (pr_messages (sort_fields srt p)) /\ solves (sort_fields srt p) h T /\
    forall pkg name t, In (pkg, name, t) env -> exists k m, nth_error (pr_messages (sort_fields srt p)) k = Some m /\ key m = (pkg, name) /\ t = T k.
Proof.
  intros B S P F C (out & h0 & cs & R & E).
  destruct (compiled_program cfg srt text path p B S P F C) as (h & order & T & env' & E' & W & O & A1 & A2 & A3). cbv zeta in *.
  rewrite R in E'. injection E' as -> -> ->. rewrite E in A1. injection A1 as <-.
  exists h, order, T. split; [now apply sorted_wanted|]. split; [now apply sorted_ordered|].
  split; [apply sorted_refs; [exact S|]; exact (parsed_refs text path p P)|]. split; [exact A3|].
  intros pkg name t I. destruct (means_in _ _ _ _ A2 _ _ _ I) as (k & m & M & N1 & N2 & ->). exists k, m. unfold key. rewrite N1, N2. auto.
Qed.

Lemma end_sized cfg srt text path p env : build_fine cfg -> permutes srt -> parse text path = POk p -> proto_fine p ->
  (forall h, wanted (pr_messages p) h -> cpp_fine p h) -> compiles cfg srt text path env ->
  forall pkg name t, In (pkg, name, t) env -> sized t.
Proof.
  intros B S P F C X pkg name t I. destruct (version_types cfg srt text path p env B S P F C X) as (h & order & T & W & O & RF & SV & M).
  destruct (M pkg name t I) as (k & m & E & _ & ->). eapply solves_sized; eauto. apply nth_error_Some. congruence.
Qed.

Lemma schema_evolves cfg srt text path p env cfg' srt' text' path' p' env' R :
  build_fine cfg -> permutes srt -> parse text path = POk p -> proto_fine p -> (forall h, wanted (pr_messages p) h -> cpp_fine p h) -> compiles cfg srt text path env ->
  build_fine cfg' -> permutes srt' -> parse text' path' = POk p' -> proto_fine p' -> (forall h, wanted (pr_messages p') h -> cpp_fine p' h) -> compiles cfg' srt' text' path' env' ->
  compatible p p' R ->
  forall pkg name t pkg' name' t', In (pkg, name, t) env -> In (pkg', name', t') env' -> R (pkg, name) (pkg', name') -> evolves t t'.
Proof.
  intros B S P F C X B' S' P' F' C' X' CM pkg name t pkg' name' t' I I' RR.
  destruct (version_types cfg srt text path p env B S P F C X) as (h & order & T & W & O & RF & SV & M).
  destruct (version_types cfg' srt' text' path' p' env' B' S' P' F' C' X') as (h' & order' & T' & W' & O' & RF' & SV' & M').
  destruct (M pkg name t I) as (k & m & E & KE & ->). destruct (M' pkg' name' t' I') as (k' & m' & E' & KE' & ->).
  apply (versions_evolve _ _ h h' T T' order R O RF RF' W W' SV SV' (sorted_compatible _ _ _ _ _ S S' CM) k) with (m := m) (m' := m'); auto.
  - apply nth_error_Some. congruence.
  - congruence.
Qed.

Lemma schema_reads cfg srt text path p env cfg' srt' text' path' p' env' R :
  build_fine cfg -> permutes srt -> parse text path = POk p -> proto_fine p -> (forall h, wanted (pr_messages p) h -> cpp_fine p h) -> wire_fine false p -> compiles cfg srt text path env ->
  build_fine cfg' -> permutes srt' -> parse text' path' = POk p' -> proto_fine p' -> (forall h, wanted (pr_messages p') h -> cpp_fine p' h) -> wire_fine false p' -> compiles cfg' srt' text' path' env' ->
  compatible p p' R ->
  forall pkg name t pkg' name' t' v po, In (pkg, name, t) env -> In (pkg', name', t') env' -> R (pkg, name) (pkg', name') ->
  has_ty t v = true -> jsonable (po_ea po) false t v -> no_nulls t v ->
  exists out v', serialize t v po = (true, out, clear_params po) /\ carries (po_sn po) t v t' v' /\
    forall w1 w2 po2, ws w1 -> ws w2 -> exists po2', deserialize t' (dflt t') (w1 ++ out ++ w2) po2 = Some (true, v', po2').
Proof.
  intros B S P F C W X B' S' P' F' C' W' X' CM pkg name t pkg' name' t' v po I I' RR V J NN.
  pose proof (schema_evolves _ _ _ _ _ _ _ _ _ _ _ _ _ B S P F C X B' S' P' F' C' X' CM _ _ _ _ _ _ I I' RR) as E.
  destruct (end_env _ _ _ _ _ _ B S P F C X _ _ _ I) as (L & T). destruct (end_env _ _ _ _ _ _ B' S' P' F' C' X' _ _ _ I') as (L' & T').
  pose proof (end_sized _ _ _ _ _ _ B S P F C X _ _ _ I) as Z. pose proof (end_sized _ _ _ _ _ _ B' S' P' F' C' X' _ _ _ I') as Z'.
  assert (NV : ~ null_value v).
  { destruct (version_types _ _ _ _ _ _ B S P F C X) as (h & order & TT & _ & _ & _ & SV & M). destruct (M _ _ _ I) as (k & m & Q & _ & ->).
    destruct (SV k m Q) as (g & Y & _). rewrite Y in V. destruct v; try discriminate. intros []. }
  destruct (evolve_total false (po_ea po) (po_sn po) t v t' (T false W) (T' false W') Z Z' E V J NN NV) as (v' & CA & _).
  destruct (evolve_reads t v t' v' po (T false W) (T' false W') L' V J CA) as (out & S1 & R1). exists out, v'. auto.
Qed.
