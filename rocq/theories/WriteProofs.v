(** Serialization produces the JSON value [tojson], and reading that value back gives
    the object. *)
From Verif Require Import Bytes BaseProofs Num Dbl Types Stream Tokenizer Write Read
  SpecJson SpecStr SpecInterp SpecNum SpecB64 SpecDbl SpecWrite LexView LexMono LexJson Termination ReadSim
  StrProofs IntProofs B64Proofs ApiProofs DblProofs DblApi InterpProofs.

Lemma tables_ok_msg strict ms g : tables_ok strict (TMsg ms g) <->
  (NoDup (map fst (g_write g)) /\ NoDup (map snd (g_write g)) /\
   (forall k label, In (k, label) (g_write g) -> clean strict label /\ (k < length ms)%nat) /\
   (forall p, ~ In (TPrim p) ms)) /\ Forall (tables_ok strict) ms.
Proof.
  cbn [tables_ok]. split; intros [A B]; (split; [exact A|]); clear A; induction ms as [|t ms IH].
  - constructor.
  - destruct B. constructor; auto.
  - exact I.
  - inversion B; subst. split; [assumption|]. apply IH. assumption.
Qed.

Lemma json_lax s : json_number s -> lax_number s.
Proof.
  intros (m & i & f & e & -> & M & I & F & E).
  assert (NI : exists c r, i = c :: r /\ digit_char c = true /\ forallb num_char r = true).
  { destruct I as [->|(c & r & -> & D & _ & R)]; [exists "0"%char, []; auto|].
    exists c, r. repeat split; auto. rewrite forallb_forall in *. intros x X. unfold num_char. now rewrite R. }
  assert (NF : forallb num_char f = true).
  { destruct F as [->|(d & -> & _ & D)]; [reflexivity|]. simpl. rewrite forallb_forall in *.
    intros x X. unfold num_char. now rewrite D. }
  assert (NE : forallb num_char e = true).
  { destruct E as [->|(c & s & d & -> & C & S & _ & D)]; [reflexivity|].
    assert (forallb num_char d = true).
    { rewrite forallb_forall in *. intros x X. unfold num_char. now rewrite D. }
    cbn [forallb]. rewrite forallb_app. destruct C as [-> | ->], S as [-> | [-> | ->]]; simpl; auto. }
  destruct NI as (c & r & -> & D & R).
  assert (T : forallb num_char (r ++ f ++ e) = true) by (rewrite !forallb_app, R, NF, NE; reflexivity).
  destruct M as [-> | ->].
  - exists c, (r ++ f ++ e). split; [reflexivity|]. auto.
  - exists "-"%char, (c :: r ++ f ++ e). split; [reflexivity|]. split; [auto|].
    cbn [forallb]. rewrite T, andb_true_r. unfold num_char. now rewrite D.
Qed.

Lemma jt_number strict s : json_number s -> jtext strict (JNum s) s.
Proof. intros J. constructor. destruct strict; [exact J|now apply json_lax]. Qed.

Lemma prim_jtext strict p x : pval_ok p x = true -> prim_finite x -> jtext strict (prim_json x) (prim_text x).
Proof.
  intros V F. destruct x as [z|d|x]; cbn [prim_json prim_text].
  - apply jt_number. apply dec_json.
  - apply jt_number.
    assert (O : fin_ok d = true).
    { destruct d; try contradiction; [reflexivity|]. cbn [fin_ok].
      destruct p; try discriminate; cbn [pval_ok] in V; rewrite V; auto using orb_true_r. }
    rewrite dbl_to_string_full by exact O. now apply fmt_f_json.
  - destruct x; constructor.
Qed.

Lemma clean_jstring strict l : clean strict l -> jstring strict ([chr 34] ++ l ++ [chr 34]) l.
Proof.
  intros C. exists l. split; [reflexivity|]. induction C; constructor; auto.
Qed.

Lemma raw_jstring strict v : jstring strict ([chr 34] ++ b64_encode v ++ [chr 34]) (b64_encode v).
Proof.
  apply clean_jstring. pose proof (b64_encode_text v) as H. eapply Forall_impl; [|exact H].
  intros c (R & N1 & N2). split; [exact N2|]. split; [exact N1|]. destruct strict; lia.
Qed.

(** Elements. *)
Lemma write_elems_text strict w f l e :
  (forall x, In x l -> exists o, w x e = (PGR_OK, o, e) /\ jtext strict (f x) o) ->
  exists o, write_elems w l e = (o, e) /\ (l <> [] -> jelems strict (map f l) o) /\ (l = [] -> o = []).
Proof.
  induction l as [|x l IH]; intros H; [exists []; repeat split; congruence|].
  destruct (H x) as (o & E & J); [now left|].
  destruct IH as (o2 & E2 & J2 & _); [intros; apply H; now right|].
  cbn [write_elems]. rewrite E. destruct l as [|y l].
  - exists o. split; [reflexivity|]. split; [|discriminate]. intros _. cbn [map].
    replace o with ([] ++ o ++ []) by apply app_nil_r. constructor; try reflexivity. exact J.
  - rewrite E2. eexists. split; [reflexivity|]. split; [|discriminate]. intros _. cbn [map].
    change (jelems strict (f x :: map f (y :: l)) ([] ++ o ++ [] ++ [chr 44] ++ o2)).
    constructor; try reflexivity; [exact J|]. apply J2. discriminate.
Qed.

(** Members. *)
Lemma write_items_text strict sn (ws : list (val -> errinfo -> wres)) fs vs items : forall first e,
  length ws = length fs ->
  (forall k label, In (k, label) items -> clean strict label) ->
  (forall k label w f x, In (k, label) items -> nth_error ws k = Some w -> nth_error fs k = Some f ->
     nth_error vs k = Some x -> exists o, w x e = (PGR_OK, o, e) /\ jtext strict (f x) o) ->
  exists o, write_items sn ws vs items first e = (o, e) /\
    (obj_items sn fs vs items = [] -> o = []) /\
    (obj_items sn fs vs items <> [] -> exists u, jmembers strict (obj_items sn fs vs items) u /\
        o = (if first then [] else [chr 44]) ++ u).
Proof.
  induction items as [|[k label] items IH]; intros first e L C H.
  { exists []. cbn. repeat split; congruence. }
  assert (IH' := fun fi => IH fi e L (fun k l I => C k l (or_intror I))
                            (fun k l w f x I => H k l w f x (or_intror I))).
  clear IH. unfold obj_items. cbn [write_items flat_map fst snd].
  fold (obj_items sn fs vs items).
  destruct (nth_error ws k) as [w|] eqn:W.
  2:{ assert (nth_error fs k = None) as -> by (apply nth_error_None; rewrite <- L; now apply nth_error_None).
      apply IH'. }
  destruct (nth_error fs k) as [f|] eqn:F.
  2:{ apply nth_error_None in F. rewrite <- L in F. apply nth_error_None in F. congruence. }
  destruct (nth_error vs k) as [x|] eqn:X; [|apply IH'].
  destruct (sn || negb (vempty x)); [|apply IH'].
  destruct (H k label w f x (or_introl eq_refl) W F X) as (o & -> & J).
  destruct (IH' false) as (o2 & -> & E0 & E1).
  eexists. split; [reflexivity|]. split; [discriminate|]. intros _. cbn [app].
  pose proof (clean_jstring strict label (C k label (or_introl eq_refl))) as JS.
  destruct (obj_items sn fs vs items) as [|it its] eqn:OI.
  - rewrite (E0 eq_refl).
    exists ([] ++ ([chr 34] ++ label ++ [chr 34]) ++ [] ++ [chr 58] ++ [] ++ o ++ []).
    split; [constructor; try reflexivity; auto|]. destruct first; rewrite <- !app_assoc; reflexivity.
  - destruct E1 as (u & JM & ->); [discriminate|].
    exists ([] ++ ([chr 34] ++ label ++ [chr 34]) ++ [] ++ [chr 58] ++ [] ++ o ++ [] ++ [chr 44] ++ u).
    split; [constructor; try reflexivity; auto|]. destruct first; rewrite <- !app_assoc; reflexivity.
Qed.

Theorem write_jtext ea sn strict t : tables_ok strict t -> forall v e, jsonable ea strict t v ->
  exists o, write ea sn t v e = (PGR_OK, o, e) /\ jtext strict (tojson sn t v) o.
Proof.
  induction t using ty_ind2; intros T v e J.
  - inversion J; subst. exists (prim_text x). split; [reflexivity|]. cbn [tojson]. eapply prim_jtext; eauto.
  - inversion J; subst.
    + exists (b "null"). split; [reflexivity|constructor].
    + exists (prim_text x). split; [reflexivity|]. cbn [tojson]. eapply prim_jtext; eauto.
  - inversion J as [| | |n s E|n s W F| | |]; subst; cbn [write tojson].
    + rewrite E. exists (b "null"). split; [reflexivity|constructor].
    + destruct (vempty (VStr n s)); [exists (b "null"); split; [reflexivity|constructor]|].
      destruct (write_string_jstring ea strict s e W F) as (o & -> & S & _).
      exists o. split; [reflexivity|]. now constructor.
  - inversion J; subst. cbn [write tojson]. eexists. split; [reflexivity|]. constructor.
    apply raw_jstring.
  - inversion J as [| | | | | |t' l H|]; subst. cbn [write tojson]. cbn [tables_ok] in T.
    destruct (write_elems_text strict (write ea sn t) (tojson sn t) l e) as (o & -> & N & Z).
    { intros x I. apply IHt; auto. }
    eexists. split; [reflexivity|]. destruct l as [|x l].
    + rewrite (Z eq_refl). apply (jt_arr0 strict []). reflexivity.
    + apply jt_arr, N. discriminate.
  - inversion J as [| | | | | | |ms' g' vs H']; subst. apply tables_ok_msg in T as ((_ & _ & C & _) & T).
    cbn [write tojson].
    destruct (write_items_text strict sn (map (write ea sn) ms) (map (tojson sn) ms) vs (g_write g) true e)
      as (o & -> & Z & N).
    { now rewrite !map_length. }
    { intros k label I. now apply (C k label). }
    { intros k label w f x I W F X. rewrite nth_error_map' in W. rewrite nth_error_map' in F.
      destruct (nth_error ms k) as [t|] eqn:M; [|discriminate]. injection W as <-. injection F as <-.
      pose proof (nth_error_In _ _ M) as IM. rewrite Forall_forall in H, T. apply H; auto.
      eapply H'; eauto. }
    eexists. split; [reflexivity|].
    destruct (obj_items sn (map (tojson sn) ms) vs (g_write g)) as [|it its] eqn:OI.
    + rewrite (Z eq_refl). apply (jt_obj0 strict []). reflexivity.
    + destruct N as (u & JM & ->); [discriminate|]. apply jt_obj. exact JM.
Qed.

(** ** Reading the written value back *)
Lemma nth_error_ext {A} (l l' : list A) : (forall k, nth_error l k = nth_error l' k) -> l = l'.
Proof.
  revert l'; induction l as [|x l IH]; intros [|y l'] H; auto.
  - specialize (H 0%nat). discriminate.
  - specialize (H 0%nat). discriminate.
  - f_equal; [specialize (H 0%nat); simpl in H; congruence|].
    apply IH. intros k. apply (H (S k)).
Qed.

Lemma persist_members_nth g : forall fs ds vs i k,
  nth_error (persist_members g i fs ds vs) k =
  match nth_error fs k, nth_error ds k, nth_error vs k with
  | Some f, Some d, Some v => Some (if written g (i + k) then f v else d)
  | _, _, _ => None
  end.
Proof.
  induction fs as [|f fs IH]; intros [|d ds] [|v vs] i k; cbn [persist_members];
    try (destruct k; cbn [nth_error]; try reflexivity; fail);
    try (destruct k; cbn [nth_error]; repeat (match goal with |- context [nth_error ?l ?n] => destruct (nth_error l n) end); reflexivity).
  destruct k as [|k]; cbn [nth_error]; [now rewrite Nat.add_0_r|].
  rewrite IH. replace (S i + k)%nat with (i + S k)%nat by lia. reflexivity.
Qed.

Lemma written_in g k : written g k = true <-> exists label, In (k, label) (g_write g).
Proof.
  unfold written. rewrite existsb_exists. split.
  - intros ([k' l] & I & E). apply Nat.eqb_eq in E. simpl in E. subst. eauto.
  - intros (l & I). exists (k, l). split; [exact I|apply Nat.eqb_refl].
Qed.

Lemma persist_dflt t : persist t (dflt t) = dflt t.
Proof.
  induction t using ty_ind2; try reflexivity. cbn [persist dflt]. f_equal.
  apply nth_error_ext. intros k. rewrite persist_members_nth, !nth_error_map'.
  destruct (nth_error ms k) as [t|] eqn:E; [|reflexivity].
  apply nth_error_In in E. rewrite Forall_forall in H. rewrite H by exact E. now destruct (written g _).
Qed.

Lemma dflt_empty t : vempty (dflt t) = true.
Proof.
  induction t using ty_ind2; try reflexivity.
  - destruct p; reflexivity.
  - cbn [dflt vempty]. rewrite forallb_forall. intros x I. apply in_map_iff in I as (t & <- & I).
    rewrite Forall_forall in H. auto.
Qed.

Lemma empty_persist strict sn t : tables_ok strict t -> (forall p, t <> TPrim p) ->
  forall v, faithful sn t v -> vempty v = true -> persist t v = dflt t.
Proof.
  induction t using ty_ind2; intros T NP v F E; inversion F; subst; try discriminate.
  - now exfalso; apply (NP p).
  - cbn [vempty] in E. destruct s; [reflexivity|discriminate].
  - cbn [vempty] in E. destruct l; [reflexivity|discriminate].
  - apply tables_ok_msg in T as ((_ & _ & _ & NPM) & T). cbn [persist dflt]. f_equal.
    apply nth_error_ext. intros k. rewrite persist_members_nth, !nth_error_map'.
    destruct (nth_error ms k) as [t|] eqn:M; [|reflexivity].
    destruct (nth_error vs k) as [x|] eqn:X.
    2:{ apply nth_error_None in X. assert (nth_error ms k <> None) by congruence.
        apply nth_error_Some in H0. lia. }
    destruct (written g (0 + k)) eqn:W; [|reflexivity].
    apply written_in in W as (label & I). cbn [Nat.add] in I. f_equal.
    destruct (H4 k label t x I M X) as [Fx|[-> _]]; [|apply persist_dflt].
    pose proof (nth_error_In _ _ M) as IM. rewrite Forall_forall in H, T.
    apply H; auto; [intros p ->; now apply (NPM p)|].
    cbn [vempty] in E. rewrite forallb_forall in E. apply E. eapply nth_error_In; eauto.
Qed.

Lemma prim_back p x : pval_ok p x = true -> prim_exact p x ->
  forall v, interp_prim p v (prim_json x) = (RGood, x).
Proof.
  intros V X v. destruct x as [z|d|x]; cbn [prim_json prim_text].
  - destruct p; try discriminate. cbn [interp_prim string_to_prim]. cbn [pval_ok] in V.
    unfold int_to_string. now rewrite string_to_int_dec.
  - destruct p; try discriminate; cbn [interp_prim].
    + destruct (prim_text_back false d V X) as [E _]. cbn [fprim] in E. now rewrite E.
    + destruct (prim_text_back true d V X) as [E _]. cbn [fprim] in E. now rewrite E.
  - destruct p; try discriminate. reflexivity.
Qed.

Lemma member_named_in names k label : NoDup (map snd names) -> In (k, label) names ->
  member_named names label = Some k.
Proof.
  induction names as [|[k' l'] names IH]; intros ND I; [destruct I|].
  cbn [map snd] in ND. inversion ND as [|? ? N1 N2]; subst. cbn [member_named].
  destruct I as [[= -> ->]|I]; [now rewrite bytes_eqb_refl|].
  destruct (bytes_eqb l' label) eqn:E; [|auto]. apply bytes_eqb_true in E. subst. exfalso. apply N1.
  apply in_map_iff. now exists (k, label).
Qed.

Lemma members_back strict sn ms g vs : tables_ok strict (TMsg ms g) -> length vs = length ms ->
  (forall k label t x, In (k, label) (g_write g) -> nth_error ms k = Some t -> nth_error vs k = Some x ->
     (sn || negb (vempty x) = true -> exists r, interp t (dflt t) (tojson sn t x) = (r, persist t x) /\ r <> RFail) /\
     (vempty x = true -> sn = false -> persist t x = dflt t)) ->
  forall items pre cur, g_write g = pre ++ items -> length cur = length ms ->
  (forall k label t, In (k, label) items -> nth_error ms k = Some t -> nth_error cur k = Some (dflt t)) ->
  exists cur', interp_members (g_write g) (map interp ms) (obj_items sn (map (tojson sn) ms) vs items) cur
               = (RGood, cur') /\ length cur' = length ms /\
    forall k t x, nth_error ms k = Some t -> nth_error vs k = Some x ->
      nth_error cur' k = if existsb (fun it => Nat.eqb (fst it) k) items then Some (persist t x)
                         else nth_error cur k.
Proof.
  intros T LV HM. apply tables_ok_msg in T as ((ND1 & ND2 & CL & _) & _).
  induction items as [|[k label] items IH]; intros pre cur GW LC D.
  { exists cur. cbn. auto. }
  assert (IN : In (k, label) (g_write g)) by (rewrite GW; apply in_app_iff; right; now left).
  assert (GW' : g_write g = (pre ++ [(k, label)]) ++ items) by (rewrite <- app_assoc; exact GW).
  destruct (CL k label IN) as (_ & KL).
  destruct (nth_error ms k) as [t|] eqn:M; [|apply nth_error_None in M; lia].
  destruct (nth_error vs k) as [x|] eqn:X; [|apply nth_error_None in X; lia].
  destruct (HM k label t x IN M X) as (ER & EM).
  assert (DK : nth_error cur k = Some (dflt t)) by (eapply D; [now left|exact M]).
  assert (NK : existsb (fun it => Nat.eqb (fst it) k) items = false).
  { destruct (existsb _ items) eqn:EX; [|reflexivity]. apply existsb_exists in EX as ([k' l'] & I' & E').
    simpl in E'. apply Nat.eqb_eq in E'. subst k'. rewrite GW', !map_app in ND1.
    exfalso. rewrite <- app_assoc in ND1. cbn [map fst app] in ND1. apply NoDup_remove_2 in ND1. apply ND1.
    apply in_app_iff. right. apply in_map_iff. now exists (k, l'). }
  unfold obj_items. cbn [flat_map fst snd]. fold (obj_items sn (map (tojson sn) ms) vs items).
  rewrite nth_error_map', M, X.
  destruct (sn || negb (vempty x)) eqn:SW.
  - destruct (ER eq_refl) as (r & E & NF).
    cbn [app interp_members]. rewrite (member_named_in _ k label ND2 IN), nth_error_map', M, DK, E.
    destruct (IH (pre ++ [(k, label)]) (set_nth k (persist t x) cur) GW') as (cur' & E' & L' & N').
    { now rewrite set_nth_length. }
    { intros k' l' t' I' M'. destruct (Nat.eq_dec k k') as [->|NE].
      - exfalso. assert (existsb (fun it => Nat.eqb (fst it) k') items = true); [|congruence].
        apply existsb_exists. exists (k', l'). split; [exact I'|apply Nat.eqb_refl].
      - rewrite nth_error_set_nth_neq by exact NE. eapply D; [now right; eauto|exact M']. }
    exists cur'. split; [destruct r; try exact E'; congruence|]. split; [exact L'|].
    intros k' t' x' M' X'. rewrite (N' k' t' x' M' X'). cbn [existsb fst].
    destruct (Nat.eqb_spec k k') as [->|NE]; cbn [orb].
    + rewrite NK, nth_error_set_nth_eq by lia. congruence.
    + now rewrite nth_error_set_nth_neq by exact NE.
  - apply orb_false_elim in SW as [-> SW]. apply negb_false_iff in SW. cbn [app].
    destruct (IH (pre ++ [(k, label)]) cur GW' LC) as (cur' & E' & L' & N').
    { intros k' l' t' I' M'. eapply D; [now right; eauto|exact M']. }
    exists cur'. split; [exact E'|]. split; [exact L'|].
    intros k' t' x' M' X'. rewrite (N' k' t' x' M' X'). cbn [existsb fst].
    destruct (Nat.eqb_spec k k') as [->|NE]; cbn [orb]; [|reflexivity].
    rewrite NK, DK. rewrite M in M'. injection M' as <-. rewrite X in X'. injection X' as <-.
    now rewrite EM.
Qed.

Lemma interp_elems_map_good f (g : val -> jval) (h : val -> val) l : (forall x, In x l -> f (g x) = (RGood, h x)) ->
  forall acc, interp_elems f (map g l) acc = (RGood, acc ++ map h l).
Proof.
  induction l as [|x l IH]; intros H acc; [simpl; now rewrite app_nil_r|].
  cbn [map interp_elems]. rewrite H by (now left). rewrite IH by (intros; apply H; now right).
  now rewrite <- app_assoc.
Qed.

Theorem interp_back strict sn t : tables_ok strict t -> forall v, faithful sn t v ->
  interp t (dflt t) (tojson sn t v) = (RGood, persist t v).
Proof.
  induction t using ty_ind2; intros T v F; inversion F as [| | | | |ms' g' vs LV FM]; subst; cbn [interp dflt tojson persist].
  - now rewrite prim_back.
  - now rewrite prim_back.
  - reflexivity.
  - rewrite b64_decode_encode. reflexivity.
  - rewrite (interp_elems_map_good _ _ (persist t)); [reflexivity|]. auto.
  - assert (T' := T). apply tables_ok_msg in T' as ((ND1 & ND2 & CL & NPM) & TM).
    destruct (members_back strict sn ms g vs T) with (items := g_write g) (pre := @nil (nat * bytes))
      (cur := map dflt ms) as (cur' & E & L & N); auto.
    + intros k label t x I M X. pose proof (nth_error_In _ _ M) as IM. rewrite Forall_forall in H, TM.
      destruct (FM k label t x I M X) as [Fx|[-> SN]].
      * split; [intros _; exists RGood; split; [auto|discriminate]|]. intros EM ->.
        eapply empty_persist; eauto. intros p ->. now apply (NPM p).
      * rewrite persist_dflt. split; [|reflexivity]. destruct sn.
        -- intros _. destruct (SN eq_refl) as (p & ->). exists RNull. split; [destruct p; reflexivity|discriminate].
        -- rewrite dflt_empty. discriminate.
    + now rewrite map_length.
    + intros k label t I M. now rewrite nth_error_map', M.
    + rewrite E. do 2 f_equal. apply nth_error_ext. intros k. rewrite persist_members_nth, !nth_error_map'.
      destruct (nth_error ms k) as [t|] eqn:M.
      2:{ apply nth_error_None. apply nth_error_None in M. lia. }
      destruct (nth_error vs k) as [x|] eqn:X.
      2:{ apply nth_error_None in X. assert (nth_error ms k <> None) as Y by congruence.
          apply nth_error_Some in Y. lia. }
      rewrite (N k t x M X). unfold written. cbn [Nat.add].
      destruct (existsb _ (g_write g)); [reflexivity|]. now rewrite nth_error_map', M.
Qed.

(** ** serialize and deserialize *)
Lemma serialize_jtext strict t v po : tables_ok strict t -> jsonable (po_ea po) strict t v ->
  exists text, serialize t v po = (true, text, clear_params po) /\ jtext strict (tojson (po_sn po) t v) text.
Proof.
  intros T J. unfold serialize.
  assert (EA : ensure_ascii (ctx_params po) = po_ea po) by (destruct po; reflexivity).
  assert (SN : serialize_null (ctx_params po) = po_sn po) by (destruct po; reflexivity).
  rewrite EA, SN. destruct (write_jtext (po_ea po) (po_sn po) strict t T v (p_err (ctx_params po)) J) as (o & -> & JT).
  eauto.
Qed.

Lemma round_trip_lemma t v po : tables_ok false t -> lookup_ok t -> jsonable (po_ea po) false t v ->
  faithful (po_sn po) t v ->
  exists text, serialize t v po = (true, text, clear_params po) /\
    forall w1 w2 po2, ws w1 -> ws w2 -> exists po2',
      deserialize t (dflt t) (w1 ++ text ++ w2) po2 = Some (true, persist t v, po2').
Proof.
  intros T L J F. destruct (serialize_jtext false t v po T J) as (text & E & JT).
  exists text. split; [exact E|]. intros w1 w2 po2 W1 W2.
  destruct (deserialize_interp false t (dflt t) (tojson (po_sn po) t v) (w1 ++ text ++ w2) po2) as (po' & D).
  - exists w1, w2, text. auto.
  - apply dflt_shape.
  - exact L.
  - exists po'. rewrite D, (interp_back false) by assumption. reflexivity.
Qed.

Lemma persist_id t : all_written t -> forall v, has_ty t v = true -> persist t v = v.
Proof.
  induction t using ty_ind2; intros A v V; try reflexivity; destruct v; try discriminate.
  - cbn [persist]. f_equal. cbn [all_written] in A. cbn [has_ty] in V. rewrite forallb_forall in V.
    induction l as [|x l IH]; [reflexivity|]. cbn [map]. f_equal; [apply IHt; auto; apply V; now left|].
    apply IH. intros y Y. apply V. now right.
  - cbn [persist]. f_equal. destruct A as [A AM].
    assert (AF : Forall all_written ms).
    { clear - AM. induction ms as [|t ms IH]; constructor; destruct AM; auto. }
    clear AM. pose proof (has_ty_msg_length _ _ _ V) as L.
    apply nth_error_ext. intros k. rewrite persist_members_nth, !nth_error_map'.
    destruct (nth_error ms k) as [t|] eqn:M.
    2:{ symmetry. apply nth_error_None. apply nth_error_None in M. lia. }
    destruct (nth_error l k) as [x|] eqn:X; [|reflexivity].
    assert (W : written g (0 + k) = true).
    { apply written_in. cbn [Nat.add]. assert (KL : (k < length ms)%nat) by (apply nth_error_Some; congruence).
      apply A, in_map_iff in KL as ([k' label] & E & I). simpl in E. subst. eauto. }
    rewrite W. f_equal. pose proof (nth_error_In _ _ M) as IM. rewrite Forall_forall in H, AF.
    apply H; auto. clear - V M X. cbn [has_ty] in V. revert l k V M X.
    induction ms as [|t' ms IH]; intros [|v l] [|k] V M X; try discriminate; apply andb_prop in V as [V1 V2].
    + injection M as ->. injection X as ->. exact V1.
    + exact (IH l k V2 M X).
Qed.
