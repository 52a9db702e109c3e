(** Properties of writing into a [std::ostream]. *)
From Verif Require Import Bytes BaseProofs Num Dbl Types Stream Tokenizer Write Read SpecJson SpecStr SpecWrite SpecInterp SpecDoc
  WriteProofs SerProofs InterpProofs ApiProofs StdOut SpecOut.

Section Out.
  Context (accepts : bytes -> ascii -> bool).

  Lemma puts_taken l : forall x, exists p, so_puts accepts l x = (x ++ p, Nat.eqb (length p) (length l)) /\
    taken accepts x l p /\ (length p <= length l)%nat /\ p = firstn (length p) l.
  Proof.
    induction l as [|c l IH]; intros x; cbn [so_puts].
    - exists []. rewrite app_nil_r. repeat split; constructor.
    - destruct (accepts x c) eqn:A.
      + destruct (IH (x ++ [c])) as (p & E & T & L & F). exists (c :: p). rewrite E, <- app_assoc.
        split; [reflexivity|]. split; [now constructor|]. cbn [length firstn]. split; [lia|]. now rewrite <- F.
      + exists []. rewrite app_nil_r. split; [reflexivity|]. split; [now constructor|]. cbn. split; [lia|reflexivity].
  Qed.

  Lemma taken_all x l p : taken accepts x l p -> length p = length l -> p = l.
  Proof.
    induction 1; cbn [length]; intros H1; [reflexivity|discriminate|]. f_equal. apply IHtaken. lia.
  Qed.

  Lemma taken_len x l p : taken accepts x l p -> (length p <= length l)%nat.
  Proof. induction 1; cbn [length]; lia. Qed.

  Lemma taken_app x l p q r : taken accepts x l p -> p = l -> taken accepts (x ++ l) q r -> taken accepts x (l ++ q) (p ++ r).
  Proof.
    induction 1; intros E T; cbn [app].
    - now rewrite app_nil_r in T.
    - discriminate.
    - injection E as E. constructor; [assumption|]. apply IHtaken; [exact E|].
      now rewrite <- app_assoc.
  Qed.

  Lemma taken_cut x l p q : taken accepts x l p -> p <> l -> taken accepts x (l ++ q) p.
  Proof.
    induction 1; intros N; cbn [app]; [congruence|now constructor|].
    constructor; [assumption|]. apply IHtaken. congruence.
  Qed.

  Lemma insert_bad o : forall s, so_good s = false -> fold_left (so_insert accepts) o s = s.
  Proof.
    induction o as [|c o IH]; intros s G; cbn [fold_left]; [reflexivity|].
    unfold so_insert at 2. rewrite G. now apply IH.
  Qed.

  Lemma puts_same x l : exists p, so_puts accepts l x = (x ++ p, if list_eq_dec ascii_dec p l then true else false) /\ taken accepts x l p.
  Proof.
    destruct (puts_taken l x) as (p & E & T & L & F). exists p. split; [|exact T]. rewrite E. f_equal.
    destruct (list_eq_dec ascii_dec p l) as [->|N]; [apply Nat.eqb_refl|].
    apply Nat.eqb_neq. intros H. apply N. now apply (taken_all x).
  Qed.

  Lemma insert_one x w lf f c : w <= 1 -> so_insert accepts (SOut x true w lf f) c =
    if accepts x c then SOut (x ++ [c]) true 0 lf f else SOut x false 0 lf f.
  Proof.
    intros W. unfold so_insert. cbn [so_text so_good so_width so_left so_fill].
    replace (Z.to_nat (w - 1)) with O by lia. destruct lf; cbn [repeat app so_puts];
    destruct (accepts x c); reflexivity.
  Qed.

  (** Without padding left. *)
  Lemma insert_flat o : forall s, so_good s = true -> so_width s <= 1 -> exists p,
    taken accepts (so_text s) o p /\
    fold_left (so_insert accepts) o s =
      SOut (so_text s ++ p) (if list_eq_dec ascii_dec p o then true else false)
           (match o with [] => so_width s | _ => 0 end) (so_left s) (so_fill s).
  Proof.
    induction o as [|c o IH]; intros [x g w lf f] G W; cbn [so_text so_good so_width so_left so_fill] in *.
    - exists []. split; [constructor|]. cbn [fold_left]. rewrite app_nil_r. now subst g.
    - subst g. cbn [fold_left]. rewrite insert_one by exact W.
      destruct (accepts x c) eqn:A; cbv iota.
      + destruct (IH (SOut (x ++ [c]) true 0 lf f)) as (p & T & E); [reflexivity|cbn; lia|].
        cbn [so_text so_width so_left so_fill] in *. exists (c :: p). split; [now constructor|]. rewrite E, <- app_assoc.
        cbn [app]. f_equal; [|now destruct o].
        destruct (list_eq_dec ascii_dec p o) as [->|N];
          [destruct (list_eq_dec ascii_dec (c :: o) (c :: o)); congruence|].
        destruct (list_eq_dec ascii_dec (c :: p) (c :: o)); congruence.
      + exists []. split; [now constructor|]. rewrite insert_bad by reflexivity. rewrite app_nil_r.
        destruct (list_eq_dec ascii_dec [] (c :: o)); [discriminate|reflexivity].
  Qed.

  Lemma insert_all o s : so_good s = true -> exists p,
    taken accepts (so_text s) (shown s o) p /\
    fold_left (so_insert accepts) o s =
      SOut (so_text s ++ p) (if list_eq_dec ascii_dec p (shown s o) then true else false)
           (match o with [] => so_width s | _ => 0 end) (so_left s) (so_fill s).
  Proof.
    intros G. destruct o as [|c o].
    { exists []. split; [constructor|]. cbn [shown fold_left]. rewrite app_nil_r. destruct s; cbn in *. now subst. }
    set (pad := repeat (so_fill s) (Z.to_nat (so_width s - 1))).
    set (seq := if so_left s then c :: pad else pad ++ [c]).
    assert (S1 : shown s (c :: o) = seq ++ o).
    { unfold shown, seq. cbv zeta. fold pad. destruct (so_left s); [reflexivity|]. now rewrite <- app_assoc. }
    rewrite S1. destruct (puts_same (so_text s) seq) as (p & E & T). 
    cbn [fold_left].
    assert (I1 : so_insert accepts s c = SOut (so_text s ++ p) (if list_eq_dec ascii_dec p seq then true else false) 0 (so_left s) (so_fill s)).
    { unfold so_insert. rewrite G. cbv zeta. exact (f_equal (fun q => let '(text, ok) := q in SOut text ok 0 (so_left s) (so_fill s)) E). }
    rewrite I1.
    destruct (list_eq_dec ascii_dec p seq) as [->|N].
    - destruct (insert_flat o (SOut (so_text s ++ seq) true 0 (so_left s) (so_fill s))) as (q & T2 & E2); [reflexivity|cbn; lia|].
      cbn [so_text so_width so_left so_fill] in *. exists (seq ++ q). split; [now apply taken_app|].
      rewrite E2, <- app_assoc. f_equal; [|now destruct o].
      destruct (list_eq_dec ascii_dec q o) as [->|N].
      + destruct (list_eq_dec ascii_dec (seq ++ o) (seq ++ o)); congruence.
      + destruct (list_eq_dec ascii_dec (seq ++ q) (seq ++ o)) as [X|]; [|reflexivity].
        apply app_inv_head in X. congruence.
    - exists p. split; [now apply taken_cut|]. rewrite insert_bad by reflexivity.
      destruct (list_eq_dec ascii_dec p (seq ++ o)) as [->|]; [|reflexivity].
      exfalso. assert (L := taken_len _ _ _ T). rewrite app_length in L.
      destruct o; [now rewrite app_nil_r in N|cbn in L; lia].
  Qed.
End Out.

Lemma received_lemma : forall accepts t v s po r o po1, serialize t v po = (r, o, po1) ->
  exists s', serialize_std accepts t v s po = (r, s', po1) /\
    (so_good s = false -> s' = s) /\
    (so_good s = true -> exists p, taken accepts (so_text s) (shown s o) p /\ so_text s' = so_text s ++ p /\
       (so_good s' = true <-> p = shown s o) /\ so_left s' = so_left s /\ so_fill s' = so_fill s /\ (o <> [] -> so_width s' = 0)).
Proof.
  intros accepts t v s po r o po1 E. unfold serialize_std. rewrite E. eexists. split; [reflexivity|]. split.
  - apply insert_bad.
  - intros G. destruct (insert_all accepts o s G) as (p & T & F). exists p. rewrite F. cbn [so_text so_good so_left so_fill so_width].
    split; [exact T|]. split; [reflexivity|]. split.
    + destruct (list_eq_dec ascii_dec p (shown s o)); split; congruence.
    + repeat split. destruct o; congruence.
Qed.

Lemma taken_free accepts l : (forall x c, accepts x c = true) -> forall x p, taken accepts x l p -> p = l.
Proof.
  intros A. induction l as [|c l IH]; intros x p T; inversion T; subst; [reflexivity| |].
  - match goal with H : accepts _ _ = false |- _ => now rewrite A in H end.
  - f_equal. eapply IH; eassumption.
Qed.

Lemma shown_flat s o : so_width s <= 1 -> shown s o = o.
Proof.
  intros W. unfold shown. destruct o; [reflexivity|]. replace (Z.to_nat (so_width s - 1)) with O by lia.
  now destruct (so_left s).
Qed.

Lemma plain_out_lemma : forall accepts t v s po r o po1, serialize t v po = (r, o, po1) ->
  so_good s = true -> so_width s <= 1 -> (forall x c, accepts x c = true) ->
  exists s', serialize_std accepts t v s po = (r, s', po1) /\ so_good s' = true /\ so_text s' = so_text s ++ o.
Proof.
  intros accepts t v s po r o po1 E G W A. destruct (received_lemma accepts t v s po r o po1 E) as (s' & R & _ & H).
  destruct (H G) as (p & T & X & Y & _). apply taken_free in T; [|exact A]. exists s'. split; [exact R|]. split; [now apply Y|].
  rewrite X, T. now rewrite shown_flat.
Qed.

(** *** Padding with blanks *)
Lemma ws_app x y : ws x -> ws y -> ws (x ++ y).
Proof. unfold ws. intros. rewrite forallb_app. now rewrite H, H0. Qed.

Lemma ws_pad c n : ws [c] -> ws (repeat c n).
Proof. unfold ws. cbn [forallb]. intros H. induction n; [reflexivity|]. cbn [repeat forallb]. rewrite andb_true_r in H. now rewrite H, IHn. Qed.

Lemma jtext_pad strict l c t w : ws w -> jtext strict (JObj l) (c :: t) -> jtext strict (JObj l) (c :: w ++ t).
Proof.
  intros W J. inversion J as [| | | | | | |w0 W0 E1 E2|l0 t0 M E1 E2]; subst.
  - rewrite app_assoc. apply (jt_obj0 strict (w ++ w0)). now apply ws_app.
  - rewrite app_assoc. apply (jt_obj strict l (w ++ t0)). inversion M; subst.
    + rewrite app_assoc. apply jm_one; auto using ws_app.
    + rewrite app_assoc. apply jm_more; auto using ws_app.
Qed.

Lemma shown_jdoc strict s l text : ws [so_fill s] -> jtext strict (JObj l) text -> jdoc strict (JObj l) (shown s text).
Proof.
  intros W J. destruct text as [|c t]; [inversion J|]. unfold shown.
  pose proof (ws_pad (so_fill s) (Z.to_nat (so_width s - 1)) W) as P. cbv zeta.
  destruct (so_left s).
  - exists [], [], (c :: repeat (so_fill s) (Z.to_nat (so_width s - 1)) ++ t). rewrite app_nil_r.
    split; [reflexivity|]. repeat split. now apply jtext_pad.
  - eexists _, [], (c :: t). rewrite app_nil_r. split; [reflexivity|]. repeat split; assumption.
Qed.

Lemma blank_lemma : forall accepts ms g v s po, tables_ok false (TMsg ms g) -> lookup_ok (TMsg ms g) ->
  jsonable (po_ea po) false (TMsg ms g) v -> faithful (po_sn po) (TMsg ms g) v ->
  so_good s = true -> ws [so_fill s] -> (forall x c, accepts x c = true) ->
  exists s' text, serialize_std accepts (TMsg ms g) v s po = (true, s', clear_params po) /\
    so_good s' = true /\ so_text s' = so_text s ++ text /\
    forall po2, exists po2',
      deserialize (TMsg ms g) (dflt (TMsg ms g)) text po2 = Some (true, persist (TMsg ms g) v, po2').
Proof.
  intros accepts ms g v s po T L J F G W A.
  destruct (round_trip_lemma (TMsg ms g) v po T L J F) as (text & E & R).
  destruct (serialize_jtext false (TMsg ms g) v po T J) as (text' & E' & X). rewrite E in E'. injection E' as <-.
  destruct (received_lemma accepts _ v s po _ _ _ E) as (s' & S1 & _ & S2). destruct (S2 G) as (p & T1 & T2 & T3 & _).
  apply taken_free in T1; [|exact A]. exists s', (shown s text). split; [exact S1|]. split; [now apply T3|].
  split; [now rewrite T2, T1|]. intros po2.
  destruct (R [] [] po2) as (po2' & D); [reflexivity|reflexivity|]. rewrite app_nil_r in D. cbn [app] in D.
  assert (O : exists l, tojson (po_sn po) (TMsg ms g) v = JObj l).
  { inversion J; subst; eexists; reflexivity. }
  destruct O as (l & O). rewrite O in X.
  destruct (deserialize_same false (TMsg ms g) (dflt (TMsg ms g)) (JObj l) (JObj l) text (shown s text) po2) as (r & v' & p1 & p2 & D1 & D2).
  - exists [], [], text. rewrite app_nil_r. repeat split. exact X.
  - now apply shown_jdoc.
  - apply ReadSim.dflt_shape.
  - exact L.
  - reflexivity.
  - rewrite D in D1. injection D1 as <- <- <-. now exists p2.
Qed.
