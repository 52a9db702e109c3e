(** The depth of the reader's recursion on documents the writer made. *)
From Verif Require Import Bytes BaseProofs Num Dbl Types Stream Tokenizer Write Read Depth
  SpecJson SpecInterp SpecWrite SpecTok SpecDepth Termination ReadSim WriteProofs ApiProofs DepthProofs DepthAny.
Local Open Scope nat_scope.

Lemma tojson_known strict sn t : tables_ok strict t -> forall v, known t (tojson sn t v).
Proof.
  induction t as [p|p| | |t IH|ms g IH] using ty_ind2; intros TO v; try exact I.
  - destruct v; try exact I. cbn [tojson known]. apply Forall_forall. intros j Hj.
    apply in_map_iff in Hj as (x & <- & _). now apply IH.
  - destruct v; try exact I. cbn [tojson known]. apply tables_ok_msg in TO as ((ND1 & ND2 & Cl & _) & TOs).
    apply Forall_forall. intros [name j] Hj. cbn [fst snd]. unfold obj_items in Hj.
    apply in_flat_map in Hj as ([k label] & Hi & Hj). cbn [fst snd] in Hj.
    rewrite nth_error_map in Hj. destruct (nth_error ms k) as [t'|] eqn:M; [|contradiction]. cbn [option_map] in Hj.
    destruct (nth_error l k) as [x|]; [|contradiction].
    destruct (sn || negb (vempty x)); [|contradiction]. destruct Hj as [Hj|[]]. injection Hj as <- <-.
    rewrite (member_named_in _ k label ND2 Hi), nth_error_map, M. cbn [option_map].
    apply nth_error_In in M. rewrite Forall_forall in *. now apply IH; auto.
Qed.

Lemma own_depth t v po v2 po2 w1 w2 : tables_ok false t -> lookup_ok t -> jsonable (po_ea po) false t v ->
  has_ty t v2 = true -> ws w1 -> ws w2 ->
  exists text po', serialize t v po = (true, text, po') /\
    deserialize_depth t v2 (w1 ++ text ++ w2) po2 <= levels t.
Proof.
  intros TO LO J H W1 W2. destruct (serialize_jtext false t v po TO J) as (text & E & JT).
  exists text, (clear_params po). split; [exact E|].
  assert (D : jdoc false (tojson (po_sn po) t v) (w1 ++ text ++ w2)) by (exists w1, w2, text; auto).
  pose proof (doc_depth false t v2 _ _ po2 D (has_ty_shape _ _ H) LO) as [B _].
  pose proof (known_reach _ _ (tojson_known false (po_sn po) t TO v)). lia.
Qed.

(** Statements for [has_ty]. *)
Lemma exact_depth strict t v j inp po : has_ty t v = true -> lookup_ok t -> jdoc strict j inp ->
  deserialize_depth t v inp po <= reach t j /\
  (fst (interp t v j) <> RFail -> deserialize_depth t v inp po = reach t j).
Proof. intros H LO D. exact (doc_depth strict t v j inp po D (has_ty_shape _ _ H) LO). Qed.

Lemma typed_depth strict t v j inp po : has_ty t v = true -> lookup_ok t -> jdoc strict j inp ->
  known t j -> deserialize_depth t v inp po <= levels t.
Proof.
  intros H LO D K. destruct (exact_depth strict t v j inp po H LO D) as [B _]. pose proof (known_reach t j K). lia.
Qed.

Lemma enough_stack t v inp po d limit : has_ty t v = true -> lookup_ok t -> nested_at_most d inp -> d < limit ->
  exists r, deserialize t v inp po = Some r /\ deserialize_within limit t v inp po = SResult r.
Proof. intros H. apply within_enough. now apply has_ty_shape. Qed.

Lemma bracket_stack t v inp po limit : has_ty t v = true -> lookup_ok t -> brackets inp < limit ->
  exists r, deserialize t v inp po = Some r /\ deserialize_within limit t v inp po = SResult r.
Proof. intros H LO. apply (enough_stack t v inp po (brackets inp)); auto. apply nested_brackets. Qed.

Lemma too_deep_typed ms g vs po : has_ty (TMsg ms g) (VMsg vs) = true -> lookup_ok (TMsg ms g) ->
  exists k, forall limit, exists inp j po', jdoc true j inp /\ length inp <= 2 * limit + k /\
    deserialize (TMsg ms g) (VMsg vs) inp po = Some (true, VMsg vs, po') /\
    deserialize_within limit (TMsg ms g) (VMsg vs) inp po = SOverflow.
Proof. intros H. apply too_deep. now apply has_ty_shape. Qed.
