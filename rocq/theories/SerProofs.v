(** Statements about serialize: C03, C18, C20, C21, C44, C45. *)
From Verif Require Import Bytes BaseProofs Num Dbl Types Stream Tokenizer Write Read
  SpecJson SpecStr SpecInterp SpecNum SpecDbl SpecWrite SpecVal SpecKept LexJson Termination ReadSim
  ApiProofs InterpProofs WriteProofs ValProofs KeptProofs.

(** serialize of a message or container cannot fail. *)
Lemma serialize_true t v po : (match t, v with TMsg _ _, VMsg _ | TRep _, VList _ => True | _, _ => False end) ->
  exists text, serialize t v po = (true, text, clear_params po).
Proof.
  destruct t; try contradiction; destruct v; try contradiction; intros _; unfold serialize; cbn [write].
  - destruct (write_elems _ l _) as [o e]. eauto.
  - destruct (write_items _ _ l _ _ _) as [o e]. eauto.
Qed.

(** The output depends only on written members. *)
Lemma write_items_same sn ws vs vs' items : (forall k label, In (k, label) items -> nth_error vs k = nth_error vs' k) ->
  forall f e, write_items sn ws vs items f e = write_items sn ws vs' items f e.
Proof.
  induction items as [|[k label] items IH]; intros H f e; [reflexivity|]. cbn [write_items].
  rewrite (H k label) by (now left).
  assert (IH' := IH (fun k l I => H k l (or_intror I))).
  destruct (nth_error ws k) as [w|]; [|apply IH']. destruct (nth_error vs' k) as [v|]; [|apply IH'].
  destruct (sn || negb (vempty v)); [|apply IH']. destruct (w v e) as [[r o] e1]. now rewrite IH'.
Qed.

Lemma serialize_same ms g vs vs' po : (forall k, written g k = true -> nth_error vs k = nth_error vs' k) ->
  serialize (TMsg ms g) (VMsg vs) po = serialize (TMsg ms g) (VMsg vs') po.
Proof.
  intros H. unfold serialize. cbn [write]. rewrite (write_items_same _ _ vs vs'); [reflexivity|].
  intros k label I. apply H. apply written_in. eauto.
Qed.

(** The labels that appear. *)
Lemma obj_items_labels sn fs vs items : (forall k label, In (k, label) items -> (k < length fs)%nat /\ (k < length vs)%nat) ->
  map fst (obj_items sn fs vs items) =
  map snd (filter (fun it => sn || negb (match nth_error vs (fst it) with Some v => vempty v | None => true end)) items).
Proof.
  induction items as [|[k label] items IH]; intros H; [reflexivity|].
  assert (IH' := IH (fun k l I => H k l (or_intror I))). destruct (H k label (or_introl eq_refl)) as [A B].
  unfold obj_items. cbn [flat_map fst snd filter]. fold (obj_items sn fs vs items).
  destruct (nth_error fs k) as [f|] eqn:F; [|apply nth_error_None in F; lia].
  destruct (nth_error vs k) as [v|] eqn:V; [|apply nth_error_None in V; lia].
  destruct (sn || negb (vempty v)); cbn [app map fst snd]; now rewrite IH'.
Qed.

Lemma obj_items_in sn fs vs items label j : In (label, j) (obj_items sn fs vs items) ->
  exists k f v, In (k, label) items /\ nth_error fs k = Some f /\ nth_error vs k = Some v /\ j = f v.
Proof.
  unfold obj_items. rewrite in_flat_map. intros ([k l] & I & H). cbn [fst snd] in H.
  destruct (nth_error fs k) as [f|] eqn:F; [|destruct H]. destruct (nth_error vs k) as [v|] eqn:V; [|destruct H].
  destruct (sn || negb (vempty v)); [|destruct H]. destruct H as [[= <- <-]|[]]. eauto 8.
Qed.

Lemma C21_lemma strict ms g vs po :
  tables_ok strict (TMsg ms g) -> has_ty (TMsg ms g) (VMsg vs) = true ->
  jsonable (po_ea po) strict (TMsg ms g) (VMsg vs) ->
  exists text l, serialize (TMsg ms g) (VMsg vs) po = (true, text, clear_params po) /\
    jtext strict (JObj l) text /\
    map fst l = map snd (filter (fun it => po_sn po || negb (match nth_error vs (fst it) with
                                                             | Some v => vempty v | None => true end)) (g_write g)) /\
    NoDup (map fst l) /\
    (forall label j, In (label, j) l -> exists k t v, In (k, label) (g_write g) /\ nth_error ms k = Some t /\
       nth_error vs k = Some v /\ j = tojson (po_sn po) t v /\
       (vempty v = true -> (exists p, t = TField p) \/ t = TStr -> j = JNull)).
Proof.
  intros T V J. destruct (serialize_jtext strict (TMsg ms g) (VMsg vs) po T J) as (text & E & JT).
  cbn [tojson] in JT. exists text. eexists. split; [exact E|]. split; [exact JT|].
  apply tables_ok_msg in T as ((N1 & N2 & CL & _) & _). pose proof (has_ty_msg_length _ _ _ V) as L.
  assert (B : forall k label, In (k, label) (g_write g) ->
     (k < length (map (tojson (po_sn po)) ms))%nat /\ (k < length vs)%nat).
  { intros k label I. rewrite map_length. apply CL in I as [_ I]. lia. }
  rewrite obj_items_labels by exact B. split; [reflexivity|]. split.
  - clear - N2. induction (g_write g) as [|[k l] its IH]; [constructor|]. cbn [map snd] in N2.
    inversion N2 as [|? ? H1 H2]; subst. cbn [filter]. destruct (_ || _); [|auto]. cbn [map snd].
    constructor; [|auto]. intros I. apply H1. apply in_map_iff in I as (it & <- & I).
    apply in_map. apply filter_In in I. tauto.
  - intros label j I. apply obj_items_in in I as (k & f & v & I & F & X & ->).
    rewrite nth_error_map' in F. destruct (nth_error ms k) as [t|] eqn:M; [|discriminate]. injection F as <-.
    exists k, t, v. repeat split; auto. intros EM [(p & ->)| ->]; cbn [tojson].
    + destruct v as [|[] x| | | |]; try reflexivity. discriminate.
    + destruct v as [|e x|n s| | |]; try reflexivity. now rewrite EM.
Qed.

(** ** Null elements (C45) *)
Lemma interp_elems_null f l acc : In JNull l -> fst (f JNull) <> RGood -> fst (interp_elems f l acc) = RFail.
Proof.
  intros I N. revert acc. induction l as [|j l IH]; intros acc; [destruct I|]. cbn [interp_elems].
  destruct I as [->|I].
  - destruct (f JNull) as [[] x]; try reflexivity. now contradiction N.
  - destruct (f j) as [[] x]; try reflexivity. now apply IH.
Qed.

Lemma interp_null_status t v : fst (interp t v JNull) <> RGood.
Proof. destruct t; try discriminate; destruct v; try discriminate; destruct p; discriminate. Qed.

Lemma C45_lemma strict t v l inp po : jdoc strict (JArr l) inp -> In JNull l ->
  has_ty (TRep t) v = true -> lookup_ok t ->
  exists v' po', deserialize (TRep t) v inp po = Some (false, v', po').
Proof.
  intros D I V L. destruct (deserialize_interp strict (TRep t) v (JArr l) inp po D) as (po' & E).
  - now apply has_ty_shape.
  - exact L.
  - rewrite E. destruct v; try discriminate. cbn [interp].
    destruct (interp_elems (interp t (dflt t)) l l0) as [r l'] eqn:EE.
    assert (r = RFail) as ->.
    { pose proof (interp_elems_null (interp t (dflt t)) l l0 I (interp_null_status _ _)) as H.
      now rewrite EE in H. }
    simpl. eauto.
Qed.

Lemma C45_unset_lemma l x po po2 v : In x l -> vempty x = true ->
  jsonable (po_ea po) false (TRep TStr) (VList l) -> has_ty (TRep TStr) v = true ->
  exists text, serialize (TRep TStr) (VList l) po = (true, text, clear_params po) /\
    exists v' po', deserialize (TRep TStr) v text po2 = Some (false, v', po').
Proof.
  intros I E J V. destruct (serialize_jtext false (TRep TStr) (VList l) po) as (text & S & JT); [exact Logic.I|exact J|].
  exists text. split; [exact S|]. cbn [tojson] in JT.
  eapply C45_lemma with (l := map (tojson (po_sn po) TStr) l).
  - exists [], [], text. rewrite app_nil_r. repeat split. exact JT.
  - apply in_map_iff. exists x. split; [|exact I]. inversion J as [| | | | | |t' l' JE|]; subst.
    specialize (JE x I). cbn [tojson]. destruct x; try reflexivity. now rewrite E.
  - exact V.
  - exact Logic.I.
Qed.
