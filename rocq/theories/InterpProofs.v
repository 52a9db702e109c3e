(** Properties of the interpretation of documents. *)
From Verif Require Import Bytes BaseProofs Num Dbl Types Stream Tokenizer Write Read
  SpecJson SpecInterp SpecDoc LexView LexMono LexJson Termination ReadSim ApiProofs.

Lemma nth_error_map' {A B} (f : A -> B) l k :
  nth_error (map f l) k = match nth_error l k with Some x => Some (f x) | None => None end.
Proof. revert k; induction l as [|x l IH]; intros [|k]; simpl; auto. Qed.

(** ** Unknown members (C07) *)
Lemma prune_jnull t : prune t JNull = JNull.
Proof. destruct t; reflexivity. Qed.

Lemma prune_scalar t j : (forall l, j <> JArr l) -> (forall l, j <> JObj l) -> prune t j = j.
Proof. intros A O. destruct t; try reflexivity; destruct j; try reflexivity;
  exfalso; [eapply A|eapply O]; reflexivity. Qed.

Lemma interp_elems_map f p l acc : (forall j, In j l -> f (p j) = f j) ->
  interp_elems f (map p l) acc = interp_elems f l acc.
Proof.
  revert acc; induction l as [|j l IH]; intros acc H; [reflexivity|].
  cbn [map interp_elems]. rewrite H by (now left).
  destruct (f j) as [[] x]; try reflexivity. apply IH. intros; apply H; now right.
Qed.

Lemma interp_members_prune names ms :
  Forall (fun t => forall v j, interp t v (prune t j) = interp t v j) ms ->
  forall l vs, interp_members names (map interp ms) (prune_members (map prune ms) names l) vs
             = interp_members names (map interp ms) l vs.
Proof.
  intros H l. induction l as [|[name j] l IH]; intros vs; [reflexivity|].
  cbn [prune_members interp_members]. destruct (member_named names name) as [k|] eqn:M; [|apply IH].
  cbn [interp_members]. rewrite M, !nth_error_map'.
  destruct (nth_error ms k) as [t|] eqn:K; [|apply IH].
  assert (Ht : forall v j, interp t v (prune t j) = interp t v j).
  { rewrite Forall_forall in H. apply H. eapply nth_error_In; eauto. }
  destruct (nth_error vs k) as [v|]; [|apply IH]. rewrite Ht.
  destruct (interp t v j) as [[] v']; auto.
Qed.

Lemma interp_prune t : forall v j, interp t v (prune t j) = interp t v j.
Proof.
  induction t using ty_ind2; intros v j; try reflexivity.
  - destruct j; try reflexivity. cbn [prune interp]. destruct v; try reflexivity.
    rewrite interp_elems_map; auto.
  - destruct j; try reflexivity. cbn [prune interp]. destruct v; try reflexivity.
    rewrite interp_members_prune; auto.
Qed.

Lemma deserialize_same strict ty v j j' inp inp' po : jdoc strict j inp -> jdoc strict j' inp' ->
  shape ty v = true -> lookup_ok ty -> interp ty v j = interp ty v j' ->
  exists r v' po1 po2, deserialize ty v inp po = Some (r, v', po1) /\
                       deserialize ty v inp' po = Some (r, v', po2).
Proof.
  intros D D' S L E.
  destruct (deserialize_interp strict ty v j inp po D S L) as (p1 & E1).
  destruct (deserialize_interp strict ty v j' inp' po D' S L) as (p2 & E2).
  rewrite <- E in E2. eauto 8.
Qed.

(** ** Null members (C08) *)
Lemma interp_null t v : is_str t = false -> shape t v = true -> interp t v JNull = (RNull, v).
Proof.
  destruct t; intros S H; try discriminate; destruct v; try discriminate;
    try reflexivity; destruct p; reflexivity.
Qed.

Lemma shapes_nth ms vs k t v : shapes ms vs -> nth_error ms k = Some t -> nth_error vs k = Some v ->
  shape t v = true.
Proof. intros H K V. destruct (Forall2_nth_error _ _ _ _ _ H K) as (v' & V' & Q). congruence. Qed.

Lemma shapes_set ms vs k t v : shapes ms vs -> nth_error ms k = Some t -> shape t v = true ->
  shapes ms (set_nth k v vs).
Proof. intros. eapply Forall2_set_nth; eauto. Qed.

Lemma interp_members_null names ms l1 l2 name k t vs : member_named names name = Some k ->
  nth_error ms k = Some t -> is_str t = false -> shapes ms vs ->
  interp_members names (map interp ms) (l1 ++ (name, JNull) :: l2) vs =
  interp_members names (map interp ms) (l1 ++ l2) vs.
Proof.
  intros M K S. revert vs. induction l1 as [|[nm j] l1 IH]; intros vs H.
  - cbn [app interp_members]. rewrite M, nth_error_map', K.
    destruct (nth_error vs k) as [v|] eqn:V; [|reflexivity].
    rewrite interp_null; [|exact S|].
    + cbv iota. now rewrite set_nth_same.
    + eapply shapes_nth; eauto.
  - cbn [app interp_members]. destruct (member_named names nm) as [k'|]; [|auto].
    rewrite nth_error_map'. destruct (nth_error ms k') as [t'|] eqn:K'; [|auto].
    destruct (nth_error vs k') as [v|] eqn:V; [|auto].
    assert (shapes ms (set_nth k' (snd (interp t' v j)) vs)).
    { apply shapes_set with (t := t'); auto. apply interp_shape.
      eapply shapes_nth; eauto. }
    destruct (interp t' v j) as [[] v']; auto.
Qed.

(** ** Merging (C10) *)
Lemma interp_members_app names fs l1 l2 vs :
  interp_members names fs (l1 ++ l2) vs =
  match interp_members names fs l1 vs with
  | (RFail, vs') => (RFail, vs')
  | (_, vs') => interp_members names fs l2 vs'
  end.
Proof.
  revert vs; induction l1 as [|[nm j] l1 IH]; intros vs; [reflexivity|].
  cbn [app interp_members]. destruct (member_named names nm) as [k|]; [|apply IH].
  destruct (nth_error fs k) as [f|]; [|apply IH].
  destruct (nth_error vs k) as [v|]; [|apply IH].
  destruct (f v j) as [[] v']; auto.
Qed.

Lemma given_cons names k nm j l : given names k ((nm, j) :: l) =
  if (match member_named names nm with Some k' => Nat.eqb k' k | None => false end)
  then j :: given names k l else given names k l.
Proof. unfold given. simpl. destruct (member_named names nm) as [k'|]; [destruct (Nat.eqb k' k)|]; reflexivity. Qed.

Lemma interp_members_proj names fs k f : nth_error fs k = Some f -> forall l vs v,
  length vs = length fs -> nth_error vs k = Some v ->
  fst (interp_members names fs l vs) = RGood ->
  nth_error (snd (interp_members names fs l vs)) k
  = Some (fold_left (fun v j => snd (f v j)) (given names k l) v).
Proof.
  intros F. induction l as [|[nm j] l IH]; intros vs v L V G; [exact V|].
  rewrite given_cons. cbn [interp_members] in *.
  destruct (member_named names nm) as [k'|]; [|eauto].
  destruct (nth_error fs k') as [f'|] eqn:F'.
  2:{ destruct (Nat.eqb_spec k' k) as [->|]; [congruence|eauto]. }
  destruct (nth_error vs k') as [v'|] eqn:V'.
  2:{ destruct (Nat.eqb_spec k' k) as [->|]; [congruence|eauto]. }
  destruct (Nat.eqb_spec k' k) as [->|N].
  - assert (f' = f) by congruence. assert (v' = v) by congruence. subst f' v'.
    cbn [fold_left].
    assert (Q : (k < length vs)%nat) by (apply nth_error_Some; congruence).
    destruct (f v j) as [[] w]; try discriminate; cbn [snd];
      apply IH; auto; try (now rewrite set_nth_length); now apply nth_error_set_nth_eq.
  - destruct (f' v' j) as [[] w]; try discriminate;
      apply IH; auto; try (now rewrite set_nth_length); now rewrite nth_error_set_nth_neq.
Qed.

Lemma interp_members_untouched names fs k : forall l vs,
  given names k l = [] -> nth_error (snd (interp_members names fs l vs)) k = nth_error vs k.
Proof.
  induction l as [|[nm j] l IH]; intros vs G; [reflexivity|].
  rewrite given_cons in G. cbn [interp_members].
  destruct (member_named names nm) as [k'|] eqn:M; [|eauto].
  destruct (Nat.eqb_spec k' k) as [E|N]; [discriminate|].
  destruct (nth_error fs k') as [f'|]; [|eauto].
  destruct (nth_error vs k') as [v'|]; [|eauto].
  destruct (f' v' j) as [[] w]; cbn [snd]; try rewrite IH by assumption; now apply nth_error_set_nth_neq.
Qed.

Lemma interp_elems_acc f l : forall acc,
  interp_elems f l acc = (fst (interp_elems f l []), acc ++ snd (interp_elems f l [])).
Proof.
  assert (G : forall acc acc', interp_elems f l (acc ++ acc') =
     (fst (interp_elems f l acc'), acc ++ snd (interp_elems f l acc'))).
  { induction l as [|j l IH]; intros acc acc'; [reflexivity|]. cbn [interp_elems].
    destruct (f j) as [[] x]; try reflexivity. rewrite <- app_assoc. apply IH. }
  intros acc. rewrite <- (app_nil_r acc) at 1. apply G.
Qed.

(** ** Statements of C06, C07, C08, C10, C13 *)
Lemma C06_gen strict ty v j inp po : jdoc strict j inp -> has_ty ty v = true -> lookup_ok ty ->
  exists po', deserialize ty v inp po
              = Some (match fst (interp ty v j) with RGood => true | _ => false end,
                      snd (interp ty v j), po').
Proof. intros D T L. exact (deserialize_interp strict ty v j inp po D (has_ty_shape _ _ T) L). Qed.

Lemma C07_lemma ty v j inp inp' po : jdoc true j inp -> jdoc true (prune ty j) inp' ->
  has_ty ty v = true -> lookup_ok ty ->
  exists r v' po1 po2, deserialize ty v inp po = Some (r, v', po1) /\
                       deserialize ty v inp' po = Some (r, v', po2).
Proof.
  intros D D' T L. apply has_ty_shape in T.
  apply (deserialize_same true ty v j (prune ty j)); auto. now rewrite interp_prune.
Qed.

Lemma C07_one_lemma ms g v l1 l2 name x inp inp' po :
  member_named (g_write g) name = None ->
  jdoc true (JObj (l1 ++ (name, x) :: l2)) inp -> jdoc true (JObj (l1 ++ l2)) inp' ->
  has_ty (TMsg ms g) v = true -> lookup_ok (TMsg ms g) ->
  exists r v' po1 po2, deserialize (TMsg ms g) v inp po = Some (r, v', po1) /\
                       deserialize (TMsg ms g) v inp' po = Some (r, v', po2).
Proof.
  intros N D D' T L. apply has_ty_shape in T.
  apply (deserialize_same true _ v _ _ inp inp' po D D' T L).
  destruct v; try discriminate. cbn [interp]. rewrite !interp_members_app.
  cbn [interp_members]. rewrite N. reflexivity.
Qed.

Lemma C08_lemma ms g v l1 l2 name k t inp inp' po :
  member_named (g_write g) name = Some k -> nth_error ms k = Some t -> t <> TStr ->
  jdoc true (JObj (l1 ++ (name, JNull) :: l2)) inp -> jdoc true (JObj (l1 ++ l2)) inp' ->
  has_ty (TMsg ms g) v = true -> lookup_ok (TMsg ms g) ->
  exists r v' po1 po2, deserialize (TMsg ms g) v inp po = Some (r, v', po1) /\
                       deserialize (TMsg ms g) v inp' po = Some (r, v', po2).
Proof.
  intros M K NS D D' T L. apply has_ty_shape in T.
  apply (deserialize_same true _ v _ _ inp inp' po D D' T L).
  destruct v; try discriminate. cbn [interp].
  erewrite interp_members_null; eauto.
  - destruct t; try reflexivity. congruence.
  - now apply shape_msg with (g := g).
Qed.

Lemma C08_str_lemma ms g vs name k inp po :
  member_named (g_write g) name = Some k -> nth_error ms k = Some TStr ->
  jdoc true (JObj [(name, JNull)]) inp ->
  has_ty (TMsg ms g) (VMsg vs) = true -> lookup_ok (TMsg ms g) ->
  exists po', deserialize (TMsg ms g) (VMsg vs) inp po
              = Some (true, VMsg (set_nth k (VStr false []) vs), po').
Proof.
  intros M K D T L. apply has_ty_shape in T.
  destruct (deserialize_interp true _ _ _ _ po D T L) as (po' & E). exists po'. rewrite E.
  cbn [interp interp_members]. rewrite M, nth_error_map', K.
  assert (exists v, nth_error vs k = Some v) as (v & V).
  { apply shape_msg in T. destruct (Forall2_nth_error _ _ _ _ _ T K) as (v & V & _). eauto. }
  rewrite V. reflexivity.
Qed.

Lemma has_ty_msg_length ms g vs : has_ty (TMsg ms g) (VMsg vs) = true -> length vs = length ms.
Proof.
  intros T. apply has_ty_shape, shape_msg in T. unfold shapes in T.
  induction T; cbn [length]; congruence.
Qed.

Lemma C10_lemma ms g vs l inp po : jdoc true (JObj l) inp ->
  has_ty (TMsg ms g) (VMsg vs) = true -> lookup_ok (TMsg ms g) ->
  exists r vs' po', deserialize (TMsg ms g) (VMsg vs) inp po = Some (r, VMsg vs', po') /\
    (forall k, given (g_write g) k l = [] -> nth_error vs' k = nth_error vs k) /\
    (r = true -> forall k t v, nth_error ms k = Some t -> nth_error vs k = Some v ->
       nth_error vs' k = Some (fold_left (fun v j => snd (interp t v j)) (given (g_write g) k l) v)).
Proof.
  intros D T L. pose proof (has_ty_msg_length _ _ _ T) as Len. apply has_ty_shape in T.
  destruct (deserialize_interp true _ _ _ _ po D T L) as (po' & E).
  cbn [interp] in E.
  pose proof (interp_members_untouched (g_write g) (map interp ms)) as U.
  pose proof (fun k f F => interp_members_proj (g_write g) (map interp ms) k f F l vs) as Pj.
  destruct (interp_members (g_write g) (map interp ms) l vs) as [r vs'] eqn:I.
  exists (good r), vs', po'. split; [exact E|]. split.
  - intros k G. specialize (U k l vs G). now rewrite I in U.
  - intros R k t v K V. destruct r; try discriminate.
    cbn [fst snd] in *.
    apply (Pj k (interp t)); auto.
    + rewrite nth_error_map', K. reflexivity.
    + rewrite map_length. exact Len.
Qed.

(** What one occurrence does, by field type. *)
Lemma C10_field t v j : has_ty t v = true -> j <> JNull ->
  match t, v with
  | TField _, _ | TStr, _ => forall v2, has_ty t v2 = true -> interp t v j = interp t v2 j
  | TB64, VB64 old => forall s, j = JStr s -> interp t v j = (RGood, VB64 (old ++ fst (b64_decode s)))
  | TRep t', VList old => forall js, j = JArr js -> exists new,
      interp t v j = (fst (interp t (VList []) j), VList (old ++ new)) /\
      snd (interp t (VList []) j) = VList new
  | _, _ => True
  end.
Proof.
  intros T N. destruct t; try exact I; destruct v; try discriminate.
  - intros v2 _. cbn [interp]. destruct (interp_prim p (pzero p) j) as [[] x] eqn:E; try reflexivity.
    destruct p, j; try discriminate; contradiction.
  - intros v2 _. destruct j; try reflexivity.
  - intros x ->. reflexivity.
  - intros js ->. cbn [interp]. rewrite interp_elems_acc.
    destruct (interp_elems (interp t (dflt t)) js []) as [r new]. exists new. split; reflexivity.
Qed.

Lemma C13_lemma ty v j inp inp' po : jdoc true j inp -> jdoc true j inp' ->
  has_ty ty v = true -> lookup_ok ty ->
  exists r v' po1 po2, deserialize ty v inp po = Some (r, v', po1) /\
                       deserialize ty v inp' po = Some (r, v', po2).
Proof. intros D D' T L. apply has_ty_shape in T. eapply deserialize_same; eauto. Qed.
