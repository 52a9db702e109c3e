(** Runs of the token reader: what was consumed, look-ahead of one token, and what
    the grammar says about it. *)
From Verif Require Import Bytes BaseProofs Num Dbl Types Stream Tokenizer Write Read
  SpecJson SpecInterp SpecTok SpecTakes Termination ReadSim TokRead.

Definition same_head (l m : list jtok) : Prop :=
  match l, m with
  | [], [] => True
  | k :: _, k' :: _ => k = k'
  | _, _ => False
  end.

Definition okl (r : tres) (l l2 : list jtok) : Prop := r = TBad \/ same_head l l2.

Lemma sh_refl l : same_head l l.
Proof. destruct l; simpl; auto. Qed.

Lemma sh_app r p l l2 : okl r l l2 -> (r = TBad -> p <> []) -> same_head (p ++ l) (p ++ l2).
Proof.
  destruct p as [|k p]; [|reflexivity]. intros [->|H] N; [|exact H]. now elim N.
Qed.

(** The run of [f] on [p ++ l'], which ends before [l'], depends on [l'] only
    through its first token. *)
Definition loc {A} (f : list jtok -> option (tres * A * list jtok)) r x p l' : Prop :=
  (r = TBad -> p <> []) /\ forall l2, okl r l' l2 -> f (p ++ l2) = Some (r, x, l2).

Definition ext (Q : list jtok -> Prop) (p : list jtok) : Prop := exists more, Q (p ++ more).

(** What an outcome says about the tokens [p] consumed. *)
Definition obs (w : bool) (T : bool -> list jtok -> Prop) (r : tres) (p : list jtok) : Prop :=
  match r with
  | TOk => T w p
  | TNil => False
  | TErr _ _ => ext (T w) p
  | TBad => w = true /\ exists p0 s, p = p0 ++ [KStr s] /\ ext (T true) p0 /\ ext (T false) p
  end.

Definition is_err (r : tres) : bool := match r with TErr _ _ | TBad => true | _ => false end.

Lemma ext_wrap (Q Q' : list jtok -> Prop) a c p :
  (forall x, Q x -> Q' (a ++ x ++ c)) -> ext Q p -> ext Q' (a ++ p).
Proof.
  intros H (more & E). apply H in E. exists (more ++ c).
  rewrite <- !app_assoc in *. exact E.
Qed.

Lemma obs_wrap w (T T' : bool -> list jtok -> Prop) a c r p :
  (forall w' x, w' = w \/ w' = false -> T w' x -> T' w' (a ++ x ++ c)) ->
  is_err r = true -> obs w T r p -> obs w T' r (a ++ p).
Proof.
  intros H E O. destruct r; try discriminate E; simpl in *.
  - eapply ext_wrap; [|exact O]. intros x. apply H. auto.
  - destruct O as (-> & p0 & s & -> & O1 & O2). split; [reflexivity|].
    exists (a ++ p0), s. split; [now rewrite app_assoc|]. split.
    + eapply ext_wrap; [|exact O1]. intros x. apply H. auto.
    + eapply ext_wrap; [|exact O2]. intros x. apply H. auto.
Qed.

(** ** Everything about a run *)
Section Out.
  Context {A : Type} (w : bool) (T : bool -> list jtok -> A -> Prop) (Nil : A -> Prop)
          (f : list jtok -> option (tres * A * list jtok)).
  Definition out (l : list jtok) r x l' : Prop :=
    exists p, l = p ++ l' /\ loc f r x p l' /\
      match r with
      | TOk => T w p x
      | TNil => p = [] /\ Nil x
      | _ => obs w (fun w' y => exists z, T w' y z) r p
      end.

  Definition run : Prop := forall l r x l', f l = Some (r, x, l') -> out l r x l'.

  (** Error after [p] without further reading. *)
  Lemma out_err p c m x l' :
    (forall l2, same_head l' l2 -> f (p ++ l2) = Some (TErr c m, x, l2)) ->
    (exists more z, T w (p ++ more) z) -> out (p ++ l') (TErr c m) x l'.
  Proof.
    intros L E. exists p. split; [reflexivity|]. split; [|exact E].
    split; [discriminate|]. intros l2 [K|K]; [discriminate K|auto].
  Qed.

  Lemma out_ok p x l' :
    (forall l2, same_head l' l2 -> f (p ++ l2) = Some (TOk, x, l2)) ->
    T w p x -> out (p ++ l') TOk x l'.
  Proof.
    intros L E. exists p. split; [reflexivity|]. split; [|exact E].
    split; [discriminate|]. intros l2 [K|K]; [discriminate K|auto].
  Qed.
End Out.

(** An inner run that fails makes the outer run fail. *)
Lemma out_fail {A B} w (T : bool -> list jtok -> A -> Prop) Nil f (T' : bool -> list jtok -> B -> Prop) Nil' f'
    a c l r x y l' :
  out w T Nil f l r x l' -> is_err r = true ->
  (forall p l2, same_head l (p ++ l2) -> f (p ++ l2) = Some (r, x, l2) -> f' (a ++ p ++ l2) = Some (r, y, l2)) ->
  (forall w' z, w' = w \/ w' = false -> (exists u, T w' z u) -> exists u, T' w' (a ++ z ++ c) u) ->
  out w T' Nil' f' (a ++ l) r y l'.
Proof.
  intros (p & -> & (NB & L) & O) E F W. exists (a ++ p). split; [now rewrite app_assoc|]. split.
  - split; [intros R N; apply app_eq_nil in N as [_ N]; now apply NB in R|].
    intros l2 K. rewrite <- app_assoc. apply F; [now apply (sh_app r)|now apply L].
  - assert (O' : obs w (fun w' y => exists z, T w' y z) r p) by (destruct r; try discriminate E; exact O).
    assert (O2 : obs w (fun w' y => exists z, T' w' y z) r (a ++ p)).
    { eapply obs_wrap; [|exact E|exact O']. exact W. }
    destruct r; try discriminate E; exact O2.
Qed.

(** An inner run that succeeds is followed by a run of [f2]. *)
Lemma out_seq {A B C} w (T : bool -> list jtok -> A -> Prop) Nil f (T2 : bool -> list jtok -> C -> Prop) Nil2 f2
    (T' : bool -> list jtok -> B -> Prop) Nil' f' a d l0 x l1 r y y' l' :
  out w T Nil f l0 TOk x (d ++ l1) -> out w T2 Nil2 f2 l1 r y l' -> d <> [] -> r <> TNil ->
  (forall p q l2, same_head l0 (p ++ d ++ q ++ l2) -> f (p ++ d ++ q ++ l2) = Some (TOk, x, d ++ q ++ l2) -> f2 (q ++ l2) = Some (r, y, l2) ->
     f' (a ++ p ++ d ++ q ++ l2) = Some (r, y', l2)) ->
  (forall w' p q, w' = w \/ w' = false -> T w' p x -> (exists u, T2 w' q u) -> exists u, T' w' (a ++ p ++ d ++ q) u) ->
  (forall p q, T w p x -> T2 w q y -> T' w (a ++ p ++ d ++ q) y') ->
  (forall w' p, w' = w \/ w' = false -> T w p x -> T w' p x) ->
  out w T' Nil' f' (a ++ l0) r y' l'.
Proof.
  intros (p & -> & (_ & L) & O) (q & -> & (NB & L2) & O2) D NN F W OK Wk.
  exists (a ++ p ++ d ++ q). split; [now rewrite !app_assoc|]. split.
  - split.
    { intros _ N. apply app_eq_nil in N as [_ N]. apply app_eq_nil in N as [_ N].
      apply app_eq_nil in N as [N _]. contradiction. }
    intros l2 K. rewrite <- !app_assoc. apply F; [|apply L; right; destruct d; [contradiction|reflexivity]|now apply L2].
    apply (sh_app TOk); [|discriminate]. right. destruct d; [contradiction|reflexivity].
  - assert (Er : is_err r = true -> obs w (fun w' y => exists z, T' w' y z) r (a ++ p ++ d ++ q)).
    { intros E. assert (O' : obs w (fun w' y => exists z, T2 w' y z) r q) by (destruct r; try discriminate E; exact O2).
      assert (O3 : obs w (fun w' y => exists z, T' w' y z) r ((a ++ p ++ d) ++ q)).
      { eapply (obs_wrap w _ _ (a ++ p ++ d) []); [|exact E|exact O'].
        intros w' x0 K H. rewrite app_nil_r, <- !app_assoc. apply W; auto. }
      rewrite <- !app_assoc in O3. exact O3. }
    destruct r; try (apply Er; reflexivity); [|now elim NN]. now apply OK.
Qed.

(** ** Skipping *)
Definition skT (T : list jtok -> Prop) : bool -> list jtok -> unit -> Prop := fun _ x _ => T x.
Definition sk_out (T : list jtok -> Prop) f := out false (skT T) (fun _ => False) f.
Definition sk_run (T : list jtok -> Prop) f : Prop := run false (skT T) (fun _ => False) f.

(** Open a list whose head is known up to [same_head]. *)
Ltac sh_cases l2 H := destruct l2 as [|[] ?]; simpl in H; try contradiction; try discriminate H; try reflexivity.

Lemma tign_arr_S n l : tign_arr (S n) l =
  match l with
  | KRBrack :: r => Some (TOk, tt, r)
  | _ =>
      match tign n l with
      | Some (TOk, _, l1) =>
          match l1 with
          | KComma :: l2 => tign_arr n l2
          | KRBrack :: l2 => Some (TOk, tt, l2)
          | _ => Some (ign_err (b "invalid array"), tt, l1)
          end
      | x => x
      end
  end.
Proof. reflexivity. Qed.
Lemma tign_obj_S n l : tign_obj (S n) l =
  match l with
  | KRBrace :: r => Some (TOk, tt, r)
  | KStr _ :: KColon :: l1 =>
      match tign n l1 with
      | Some (TOk, _, l2) =>
          match l2 with
          | KComma :: l3 => tign_obj n l3
          | KRBrace :: l3 => Some (TOk, tt, l3)
          | _ => Some (ign_err (b "invalid object"), tt, l2)
          end
      | x => x
      end
  | KStr _ :: l1 => Some (ign_err (b "expected colon"), tt, l1)
  | _ => Some (ign_err (b "expected field name"), tt, l)
  end.
Proof. reflexivity. Qed.

Lemma tign_run n : sk_run skips (tign n) /\ sk_run skip_elems (tign_arr n) /\ sk_run skip_members (tign_obj n).
Proof.
  induction n as [|n (IV & IA & IO)].
  { split; [|split]; intros l r x l' E; discriminate E. }
  split; [|split]; intros l r [] l' E.
  - (* value *)
    assert (Here : forall m k, r = ign_err m -> l' = l -> match l with c :: _ => c = k | [] => False end ->
      (forall l2, tign (S n) (k :: l2) = Some (ign_err m, tt, k :: l2)) -> sk_out skips (tign (S n)) l r tt l').
    { intros m k -> -> Hk F. apply (out_err _ _ _ _ []).
      - intros l2 SH. destruct l; [contradiction|]. destruct l2; [contradiction|]. simpl in SH. subst. apply F.
      - exists [KNull], tt. constructor. }
    assert (Scalar : forall k l1, l = k :: l1 -> skips [k] ->
      (forall l2, tign (S n) (k :: l2) = match l2 with
          | [] => Some (ign_err (b "end of stream"), tt, l2) | _ => Some (TOk, tt, l2) end) ->
      sk_out skips (tign (S n)) l r tt l').
    { intros k l1 -> SK F. rewrite F in E. destruct l1 as [|k1 l1]; injection E as <- <-.
      - apply (out_err _ _ _ _ [k]).
        + intros l2 SH. destruct l2; [|contradiction]. apply F.
        + exists [], tt. exact SK.
      - apply (out_ok _ _ _ _ [k]); [|exact SK].
        intros l2 SH. destruct l2; [contradiction|]. apply F. }
    destruct l as [|[] l1];
      try (eapply Scalar; [reflexivity|constructor|reflexivity]);
      try (cbn [tign] in E; injection E as <- <-; eapply Here; reflexivity).
    + cbn [tign] in E. injection E as <- <-. apply (out_err _ _ _ _ []).
      * intros l2 SH. destruct l2; [reflexivity|contradiction].
      * exists [KNull], tt. constructor.
    + cbn [tign] in E. apply IO in E. destruct (is_err r) eqn:R.
      * eapply (out_fail _ _ _ _ _ _ _ [KLBrace] []); [exact E|exact R|intros p l2 _ F; exact F|].
        intros w' z _ [u H]. exists tt. rewrite app_nil_r. now constructor.
      * destruct E as (p & -> & (L1 & L2) & O). destruct r; try discriminate R; [|destruct O as [_ []]].
        apply (out_ok _ _ _ _ (KLBrace :: p)); [|now constructor]. intros l2 SH. apply L2. now right.
    + cbn [tign] in E. apply IA in E. destruct (is_err r) eqn:R.
      * eapply (out_fail _ _ _ _ _ _ _ [KLBrack] []); [exact E|exact R|intros p l2 _ F; exact F|].
        intros w' z _ [u H]. exists tt. rewrite app_nil_r. now constructor.
      * destruct E as (p & -> & (L1 & L2) & O). destruct r; try discriminate R; [|destruct O as [_ []]].
        apply (out_ok _ _ _ _ (KLBrack :: p)); [|now constructor]. intros l2 SH. apply L2. now right.
  - (* array *)
    destruct (match l with KRBrack :: _ => true | _ => false end) eqn:Hd.
    { destruct l as [|[] l1]; try discriminate Hd. injection E as <- <-.
      apply (out_ok _ _ _ _ [KRBrack]); [reflexivity|constructor]. }
    assert (F0 : forall l2, same_head l l2 -> tign_arr (S n) l2 =
      match tign n l2 with
      | Some (TOk, _, l1) =>
          match l1 with
          | KComma :: l2 => tign_arr n l2
          | KRBrack :: l2 => Some (TOk, tt, l2)
          | _ => Some (ign_err (b "invalid array"), tt, l1)
          end
      | x => x
      end).
    { intros l2 SH. rewrite tign_arr_S. destruct l as [|[] l0], l2 as [|[] l2]; try reflexivity;
        try discriminate Hd; try contradiction; try discriminate SH. }
    rewrite F0 in E by apply sh_refl.
    destruct (tign n l) as [[[r1 []] l1]|] eqn:E1; [|discriminate E]. pose proof (IV _ _ _ _ E1) as V.
    destruct (is_err r1) eqn:R1.
    { assert (r1 = r /\ l1 = l') as [-> ->] by (destruct r1; try discriminate R1; injection E; auto).
      eapply (out_fail _ _ _ _ _ _ _ [] [KRBrack]); [exact V|exact R1| |].
      - intros p l2 SH F. cbn [app]. rewrite F0, F by exact SH. destruct r; try discriminate R1; reflexivity.
      - intros w' z _ [u H]. exists tt. now apply se_last. }
    destruct r1; try discriminate R1. 2:{ destruct V as (p & _ & _ & _ & []). }
    assert (Bad : r = ign_err (b "invalid array") -> l' = l1 ->
      (forall l2, same_head l1 l2 -> match l2 with
          | KComma :: l2 => tign_arr n l2
          | KRBrack :: l2 => Some (TOk, tt, l2)
          | _ => Some (ign_err (b "invalid array"), tt, l2)
          end = Some (ign_err (b "invalid array"), tt, l2)) -> sk_out skip_elems (tign_arr (S n)) l r tt l').
    { intros -> -> F. destruct V as (p & -> & (_ & L) & O). apply (out_err _ _ _ _ p).
      - intros l2 SH. rewrite F0 by (apply (sh_app TOk); [now right|discriminate]).
        rewrite L by now right. now apply F.
      - exists [KRBrack], tt. now apply se_last. }
    destruct l1 as [|[] l2]; try (injection E as <- <-; apply Bad; [reflexivity|reflexivity|intros l3 SH; sh_cases l3 SH; fail]).
    + (* closing bracket *)
      injection E as <- <-. destruct V as (p & -> & (_ & L) & O). change (KRBrack :: l2) with ([KRBrack] ++ l2).
      rewrite app_assoc. apply (out_ok _ _ _ _ (p ++ [KRBrack])); [|now apply se_last].
      intros l3 _. rewrite <- app_assoc. rewrite F0 by (apply (sh_app TOk); [right; reflexivity|discriminate]).
      now rewrite L by (right; reflexivity).
    + (* comma *)
      pose proof (IA _ _ _ _ E) as W.
      eapply (out_seq _ _ _ _ _ _ _ _ _ _ [] [KComma]); [exact V|exact W|discriminate| | | | |].
      * intros ->. destruct W as (p & _ & _ & _ & []).
      * intros p q l3 SH F F2. cbn [app] in *. rewrite F0 by exact SH. now rewrite F.
      * intros w' p q _ H [u H2]. exists tt. cbn [app]. now apply se_more.
      * intros p q H H2. now apply se_more.
      * auto.
  - (* object *)
    destruct (match l with KRBrace :: _ => true | _ => false end) eqn:Hd.
    { destruct l as [|[] l1]; try discriminate Hd. injection E as <- <-.
      apply (out_ok _ _ _ _ [KRBrace]); [reflexivity|constructor]. }
    destruct (match l with KStr _ :: _ => true | _ => false end) eqn:Hs.
    2:{ assert (r = ign_err (b "expected field name") /\ l' = l) as [-> ->].
        { rewrite tign_obj_S in E. destruct l as [|[] l1]; try discriminate Hd; try discriminate Hs;
            injection E as <- <-; auto. }
        apply (out_err _ _ _ _ []).
        - intros l2 SH. cbn [app]. rewrite tign_obj_S. destruct l as [|[] l1], l2 as [|[] l2]; try discriminate Hd;
            try discriminate Hs; try contradiction; try discriminate SH; reflexivity.
        - exists [KRBrace], tt. constructor. }
    destruct l as [|[] l0]; try discriminate Hs. clear Hd Hs.
    destruct (match l0 with KColon :: _ => true | _ => false end) eqn:Hc.
    2:{ assert (r = ign_err (b "expected colon") /\ l' = l0) as [-> ->].
        { rewrite tign_obj_S in E. destruct l0 as [|[] l1]; try discriminate Hc; injection E as <- <-; auto. }
        apply (out_err _ _ _ _ [KStr s]).
        - intros l2 SH. cbn [app]. rewrite tign_obj_S. destruct l0 as [|[] l1], l2 as [|[] l2]; try discriminate Hc;
            try contradiction; try discriminate SH; reflexivity.
        - exists [KColon; KNull; KRBrace], tt. apply (sm_last s [KNull]). constructor. }
    destruct l0 as [|[] l0]; try discriminate Hc. clear Hc. rewrite tign_obj_S in E.
    destruct (tign n l0) as [[[r1 []] l1]|] eqn:E1; [|discriminate E]. pose proof (IV _ _ _ _ E1) as V.
    change (KStr s :: KColon :: l0) with ([KStr s; KColon] ++ l0).
    destruct (is_err r1) eqn:R1.
    { assert (r1 = r /\ l1 = l') as [-> ->] by (destruct r1; try discriminate R1; injection E; auto).
      eapply (out_fail _ _ _ _ _ _ _ _ [KRBrace]); [exact V|exact R1| |].
      - intros p l2 SH F. cbn [app]. rewrite tign_obj_S, F. destruct r; try discriminate R1; reflexivity.
      - intros w' z _ [u H]. exists tt. now apply sm_last. }
    destruct r1; try discriminate R1. 2:{ destruct V as (p & _ & _ & _ & []). }
    assert (Bad : r = ign_err (b "invalid object") -> l' = l1 ->
      (forall l2, same_head l1 l2 -> match l2 with
          | KComma :: l2 => tign_obj n l2
          | KRBrace :: l2 => Some (TOk, tt, l2)
          | _ => Some (ign_err (b "invalid object"), tt, l2)
          end = Some (ign_err (b "invalid object"), tt, l2)) ->
      sk_out skip_members (tign_obj (S n)) ([KStr s; KColon] ++ l0) r tt l').
    { intros -> -> F. destruct V as (p & -> & (_ & L) & O). rewrite app_assoc. apply out_err.
      - intros l2 SH. rewrite <- app_assoc. cbn [app]. rewrite tign_obj_S.
        rewrite L by now right. now apply F.
      - exists [KRBrace], tt. rewrite <- app_assoc. now apply sm_last. }
    destruct l1 as [|[] l2]; try (injection E as <- <-; apply Bad; [reflexivity|reflexivity|intros l3 SH; sh_cases l3 SH; fail]).
    + (* closing brace *)
      injection E as <- <-. destruct V as (p & -> & (_ & L) & O). change (KRBrace :: l2) with ([KRBrace] ++ l2).
      replace ([KStr s; KColon] ++ p ++ [KRBrace] ++ l2) with ((KStr s :: KColon :: p ++ [KRBrace]) ++ l2)
        by (cbn [app]; now rewrite <- app_assoc).
      apply out_ok; [|now apply sm_last].
      intros l3 _. cbn [app]. rewrite <- app_assoc, tign_obj_S. now rewrite L by (right; reflexivity).
    + (* comma *)
      pose proof (IO _ _ _ _ E) as W.
      eapply (out_seq _ _ _ _ _ _ _ _ _ _ _ [KComma]); [exact V|exact W|discriminate| | | | |].
      * intros ->. destruct W as (p & _ & _ & _ & []).
      * intros p q l3 SH F F2. cbn [app] in *. rewrite tign_obj_S. now rewrite F.
      * intros w' p q _ H [u H2]. exists tt. cbn [app]. now apply sm_more.
      * intros p q H H2. now apply sm_more.
      * auto.
Qed.

(** ** Readers *)
Definition takesT (t : ty) (v : val) : bool -> list jtok -> val -> Prop := fun w x v' => takes w t v x v'.

(** The reader of a type, on values of its shape. *)
Definition rd_run (w : bool) (n : nat) (t : ty) : Prop :=
  forall v, shape t v = true -> run w (takesT t v) (fun x => x = nulled v) (tread w n t v).

(** A null leaves everything as it is and is not consumed. *)
Definition nil_head (l : list jtok) : bool := match l with KNull :: _ => true | _ => false end.

Lemma b64_bad s : forall k, (length s < k)%nat ->
  snd (b64_decode s) = negb (Nat.eqb (Nat.modulo (length s) 4) 0).
Proof.
  intros k. revert s. induction k as [|k IH]; intros s L; [lia|].
  destruct s as [|c0 [|c1 [|c2 [|c3 r]]]]; try reflexivity.
  cbn [b64_decode]. specialize (IH r). destruct (b64_decode r) as [o bad] eqn:E. cbn [snd] in *.
  rewrite IH by (cbn [length] in L; lia).
  change (length (c0 :: c1 :: c2 :: c3 :: r)) with (4 + length r)%nat.
  replace (4 + length r)%nat with (length r + 1 * 4)%nat by lia.
  now rewrite Nat.mod_add by lia.
Qed.

Lemma b64_whole s : snd (b64_decode s) = false <-> (Nat.modulo (length s) 4 = 0)%nat.
Proof.
  rewrite (b64_bad s (S (length s))) by lia. destruct (Nat.eqb_spec (Nat.modulo (length s) 4) 0); simpl; split;
    intros H; auto; try discriminate H; contradiction.
Qed.

Lemma tprim_run w p v0 :
  run w (fun _ x y => exists k, x = [k] /\ takes_prim p k y) (fun x => x = v0) (fun l => Some (tprim p v0 l)).
Proof.
  assert (V : exists more z, (exists k, more = [k] /\ takes_prim p k z)).
  { destruct p; eexists _, _, _; (split; [reflexivity|]); first [apply tp_true|apply (tp_num _ []); discriminate]. }
  intros l r x l' E. injection E as E.
  assert (Err : forall c m, r = TErr c m -> l' = l -> x = v0 ->
    (forall l2, same_head l l2 -> tprim p v0 l2 = (TErr c m, v0, l2)) ->
    out w (fun _ x y => exists k, x = [k] /\ takes_prim p k y) (fun x => x = v0) (fun l => Some (tprim p v0 l)) l r x l').
  { intros c m -> -> -> F. apply (out_err _ _ _ _ []); [|exact V].
    intros l2 SH. cbn [app]. now rewrite F. }
  destruct l as [|k l0].
  - destruct p; simpl in E; injection E as <- <- <-; eapply Err; try reflexivity;
      intros l2 SH; destruct l2; try contradiction; reflexivity.
  - assert (Sh : forall c m, (forall l2, tprim p v0 (k :: l2) = (TErr c m, v0, k :: l2)) ->
      forall l2, same_head (k :: l0) l2 -> tprim p v0 l2 = (TErr c m, v0, l2)).
    { intros c m H l2 SH. destruct l2; [contradiction|]. simpl in SH. subst. apply H. }
    destruct k.
    11:{ simpl in E. injection E as <- <- <-. exists []. split; [reflexivity|]. split; [|auto].
         split; [discriminate|]. intros l2 [K|K]; [discriminate K|]. destruct l2; [contradiction|].
         simpl in K. subst. reflexivity. }
    all: destruct p; simpl in E; injection E as <- <- <-;
      try (eapply Err; [reflexivity..|]; apply Sh; reflexivity);
      (match goal with |- out _ _ _ _ (?k :: _) _ _ _ => apply (out_ok _ _ _ _ [k]) end;
       [reflexivity|eexists; split; [reflexivity|]; constructor; discriminate]).
Qed.

(** Runs under a change of value. *)
Lemma out_map {A B} w (T : bool -> list jtok -> A -> Prop) (Nil : A -> Prop) f
    (T' : bool -> list jtok -> B -> Prop) (Nil' : B -> Prop) f' l r x y l' :
  out w T Nil f l r x l' ->
  (forall l2 m, f l2 = Some (r, x, m) -> f' l2 = Some (r, y, m)) ->
  (forall w' z u, T w' z u -> exists u', T' w' z u') ->
  (r = TOk -> forall z, T w z x -> T' w z y) -> (r = TNil -> Nil x -> Nil' y) ->
  out w T' Nil' f' l r y l'.
Proof.
  intros (p & -> & (NB & L) & O) F W OK N. exists p. split; [reflexivity|]. split.
  - split; [exact NB|]. intros l2 K. apply F. now apply L.
  - assert (Er : is_err r = true -> obs w (fun w' y => exists z, T' w' y z) r p).
    { intros E. assert (O' : obs w (fun w' y => exists z, T w' y z) r ([] ++ p)) by (destruct r; try discriminate E; exact O).
      apply (obs_wrap w (fun w' y => exists z, T w' y z) _ [] [] r p); [|exact E|exact O'].
      intros w' z _ [u H]. rewrite app_nil_r. eapply W; exact H. }
    destruct r; try (apply Er; reflexivity).
    + now apply OK.
    + destruct O as [-> O]. split; [reflexivity|]. now apply N.
Qed.

Lemma scalar_run w n t : match t with TRep _ | TMsg _ _ => False | _ => True end -> rd_run w n t.
Proof.
  intros Sc v S l r x l' E. destruct t, v; try contradiction; try discriminate S; cbn [tread] in E.
  - (* bare arithmetic *)
    destruct (tprim p p0 l) as [[r1 x1] l1] eqn:P. cbn [tmap] in E. injection E as <- <- <-.
    eapply out_map; [apply (tprim_run w p p0); rewrite P; reflexivity|..].
    + intros l2 m H. cbn [tread]. injection H as ->. reflexivity.
    + intros w' z u (k & -> & H). eexists. constructor. exact H.
    + intros _ z (k & -> & H). constructor. exact H.
    + intros _ ->. reflexivity.
  - (* field *)
    injection E as E. unfold tfield in E.
    destruct (tprim p (pzero p) l) as [[r1 x1] l1] eqn:P.
    assert (r1 = r /\ l1 = l' /\ (if match r with TNil => true | _ => false end then x = VField e p0 else x = VField false x1)) as (-> & -> & Hx).
    { destruct r1; injection E as <- <- <-; auto. }
    eapply out_map; [apply (tprim_run w p (pzero p)); rewrite P; reflexivity|..].
    + intros l2 m H. cbn [tread]. injection H as H. unfold tfield. rewrite H. destruct r; rewrite Hx; reflexivity.
    + intros w' z u (k & -> & H). eexists. constructor. exact H.
    + intros -> z (k & -> & H). rewrite Hx. constructor. exact H.
    + intros -> _. exact Hx.
  - (* string *)
    injection E as E.
    destruct l as [|k l0]; [|destruct k]; simpl in E; injection E as <- <- <-;
      try (apply (out_err _ _ _ _ []); [intros l2 SH; sh_cases l2 SH|exists [KStr []], (VStr false []); constructor]; fail).
    + apply (out_ok _ _ _ _ [KStr s0]); [reflexivity|constructor].
    + exists []. split; [reflexivity|]. split; [|auto]. split; [discriminate|].
      intros l2 [K|K]; [discriminate K|]. sh_cases l2 K.
  - (* bytes *)
    injection E as E.
    assert (Vi : exists more z, takesT TB64 (VB64 s) w ([] ++ more) z).
    { exists [KStr []]. eexists. constructor. reflexivity. }
    destruct l as [|k l0]; [|destruct k]; simpl in E;
      try (injection E as <- <- <-; apply (out_err _ _ _ _ []); [intros l2 SH; sh_cases l2 SH|exact Vi]; fail).
    + destruct (b64_decode s0) as [o bad] eqn:D. injection E as <- <- <-.
      change (KStr s0 :: l0) with ([KStr s0] ++ l0).
      assert (Tk : forall w', (w' = true -> bad = false) -> takes w' TB64 (VB64 s) [KStr s0] (VB64 (s ++ o))).
      { intros w' H. replace o with (fst (b64_decode s0)) by now rewrite D. constructor.
        intros K. apply b64_whole. rewrite D. now apply H. }
      destruct (bad && w) eqn:Bw.
      * apply andb_prop in Bw as [-> ->]. exists [KStr s0]. split; [reflexivity|]. split.
        { split; [discriminate|]. intros l2 _. cbn [app tread tb64]. now rewrite D. }
        split; [reflexivity|]. exists [], s0. split; [reflexivity|]. split; [exact Vi|].
        exists []. eexists. apply Tk. discriminate.
      * apply out_ok; [|apply Tk; intros ->; now rewrite andb_true_r in Bw].
        intros l2 _. cbn [app tread tb64]. now rewrite D, Bw.
    + injection E as <- <- <-. exists []. split; [reflexivity|]. split; [|auto]. split; [discriminate|].
      intros l2 [K|K]; [discriminate K|]. sh_cases l2 K.
Qed.

(** ** Arrays *)
Definition elemsT (t : ty) (acc : list val) : bool -> list jtok -> list val -> Prop :=
  fun w x acc' => takes_elems w t acc x acc'.

Lemma tarr_S n rd d acc l : tarr (S n) rd d acc l =
  match rd d l with
  | None => None
  | Some (TErr c m, _, l1) => Some (TErr c m, acc, l1)
  | Some (TBad, _, l1) => Some (TBad, acc, l1)
  | Some (r, x, l1) =>
      let acc1 := match r with TOk => acc ++ [x] | _ => acc end in
      match l1 with
      | KComma :: l2 => tarr n rd d acc1 l2
      | KRBrack :: l2 => Some (TOk, acc1, l2)
      | _ => Some (TErr PGERR_INVALID_ARRAY (b "invalid array"), acc1, l1)
      end
  end.
Proof. reflexivity. Qed.

(** The reader returns TNil only in front of a null. *)
Lemma tread_nil w n t v l x l' : tread w n t v l = Some (TNil, x, l') -> l' = l /\ exists l0, l = KNull :: l0.
Proof.
  assert (O : forall k nf rf vs l r x l', tobj k nf rf vs l = Some (r, x, l') -> r <> TNil).
  { induction k as [|k IH]; intros nf rf vs m r y l2 E; [discriminate E|]. cbn [tobj] in E.
    assert (Tv : forall name vs m r y l2, tvalue nf rf name vs m = Some (r, y, l2) -> r <> TNil).
    { clear. intros name vs m r y l2 E. unfold tvalue in E. destruct (rf name vs m) as [[[r1 y1] l1]|]; [|discriminate E].
      destruct r1; try (injection E as <- <- <-; discriminate).
      destruct (tign nf l1) as [[[r2 []] l3]|] eqn:I; [|discriminate E]. injection E as <- <- <-.
      apply (proj1 (tign_run nf)) in I. intros ->. destruct I as (p & _ & _ & _ & []). }
    destruct m as [|[] m]; try (injection E as <- <- <-; discriminate).
    destruct m as [|[] m]; try (injection E as <- <- <-; discriminate).
    destruct (tvalue nf rf s vs m) as [[[r1 y1] l1]|] eqn:V; [|discriminate E]. apply Tv in V.
    destruct r1; try (injection E as <- <- <-; assumption).
    destruct l1 as [|[] l1]; try (injection E as <- <- <-; discriminate). eapply IH; eauto. }
  assert (A : forall k rd d acc l r x l', tarr k rd d acc l = Some (r, x, l') -> r <> TNil).
  { induction k as [|k IH]; intros rd d acc m r y l2 E; [discriminate E|]. rewrite tarr_S in E.
    destruct (rd d m) as [[[r1 y1] l1]|]; [|discriminate E].
    destruct r1; try (injection E as <- <- <-; discriminate); cbv zeta in E;
      (destruct l1 as [|[] l1]; try (injection E as <- <- <-; discriminate); eapply IH; eauto). }
  intros E. destruct t, v; try discriminate E; cbn [tread] in E.
  - destruct l as [|[] l0]; simpl in E; try (destruct p; discriminate E); injection E as _ <-; eauto.
  - injection E as E. unfold tfield in E. destruct l as [|[] l0]; simpl in E; try (destruct p; discriminate E);
      injection E as _ <-; eauto.
  - destruct l as [|[] l0]; simpl in E; try discriminate E; injection E as _ <-; eauto.
  - destruct l as [|[] l0]; simpl in E; try discriminate E; try (injection E as _ <-; eauto).
    destruct (b64_decode s0) as [o bad]. destruct (bad && w); discriminate E.
  - destruct (tarray n (tread w n t) (dflt t) l0 l) as [[[r1 y1] l1]|] eqn:Q; [|discriminate E].
    injection E as -> _ ->. unfold tarray in Q.
    destruct l as [|[] l]; try discriminate Q.
    + destruct l as [|[] l]; try discriminate Q; apply A in Q; now elim Q.
    + injection Q as _ <-. eauto.
  - destruct (tobject n (tmember g (map (tread w n) ms)) l0 l) as [[[r1 y1] l1]|] eqn:Q; [|discriminate E].
    injection E as -> _ ->. unfold tobject in Q.
    destruct l as [|[] l]; try discriminate Q.
    + destruct l as [|[] l]; try discriminate Q; apply O in Q; now elim Q.
    + injection Q as _ <-. eauto.
Qed.

Lemma tarr_run w t nf : rd_run w nf t -> forall n acc,
  run w (elemsT t acc) (fun _ => False) (tarr n (tread w nf t) (dflt t) acc).
Proof.
  intros RD. induction n as [|n IH]; intros acc l r x l' E; [discriminate E|].
  rewrite tarr_S in E. destruct (tread w nf t (dflt t) l) as [[[r1 y1] l1]|] eqn:E1; [|discriminate E].
  pose proof (RD _ (dflt_shape t) _ _ _ _ E1) as V.
  destruct (is_err r1) eqn:R1.
  { assert (r1 = r /\ l1 = l' /\ x = acc) as (-> & -> & ->) by (destruct r1; try discriminate R1; injection E; auto).
    eapply (out_fail _ _ _ _ _ _ _ [] [KRBrack]); [exact V|exact R1| |].
    - intros p l2 _ F. cbn [app]. rewrite tarr_S, F. destruct r; try discriminate R1; reflexivity.
    - intros w' z _ [u H]. eexists. apply te_last. exact H. }
  destruct r1; try discriminate R1.
  - (* an element *)
    cbv zeta iota in E.
    assert (Bad : r = TErr PGERR_INVALID_ARRAY (b "invalid array") -> l' = l1 -> x = acc ++ [y1] ->
      (forall l2, same_head l1 l2 -> match l2 with
          | KComma :: l2 => tarr n (tread w nf t) (dflt t) (acc ++ [y1]) l2
          | KRBrack :: l2 => Some (TOk, acc ++ [y1], l2)
          | _ => Some (TErr PGERR_INVALID_ARRAY (b "invalid array"), acc ++ [y1], l2)
          end = Some (TErr PGERR_INVALID_ARRAY (b "invalid array"), acc ++ [y1], l2)) ->
      out w (elemsT t acc) (fun _ => False) (tarr (S n) (tread w nf t) (dflt t) acc) l r x l').
    { intros -> -> -> F. destruct V as (p & -> & (_ & L) & O). apply out_err.
      - intros l2 SH. rewrite tarr_S, L by now right. now apply F.
      - exists [KRBrack]. eexists. apply te_last. exact O. }
    destruct l1 as [|[] l2];
      try (injection E as <- <- <-; apply Bad; [reflexivity..|intros l3 SH; sh_cases l3 SH; fail]).
    + injection E as <- <- <-. destruct V as (p & -> & (_ & L) & O). change (KRBrack :: l2) with ([KRBrack] ++ l2).
      rewrite app_assoc. apply out_ok; [|apply te_last; exact O].
      intros l3 _. rewrite <- app_assoc, tarr_S. now rewrite L by (right; reflexivity).
    + pose proof (IH _ _ _ _ _ E) as W.
      eapply (out_seq _ _ _ _ _ _ _ _ _ _ [] [KComma]); [exact V|exact W|discriminate| | | | |].
      * intros ->. destruct W as (p & _ & _ & _ & []).
      * intros p q l3 SH F F2. cbn [app] in *. rewrite tarr_S. now rewrite F.
      * intros w' p q _ H [u H2]. eexists. eapply te_more; eauto.
      * intros p q H H2. eapply te_more; eauto.
      * intros w' p [->| ->] H; [exact H|]. eapply takes_weaken; exact H.
  - (* null *)
    destruct (tread_nil _ _ _ _ _ _ _ E1) as (-> & l0 & ->). cbv zeta iota in E. injection E as <- <- <-.
    destruct V as (p & Ep & (_ & L) & -> & ->).
    apply (out_err _ _ _ _ []).
    + intros l2 SH. destruct l2 as [|k2 l2]; [contradiction|]. simpl in SH. subst k2. cbn [app]. rewrite tarr_S.
      specialize (L (KNull :: l2)). cbn [app] in L. rewrite L by (right; reflexivity). reflexivity.
    + destruct (takes_some w t (dflt t) (dflt_shape t)) as (k & more & v' & H).
      exists ((k :: more) ++ [KRBrack]). eexists. apply te_last. exact H.
Qed.

(** ** Messages *)
Definition memberT ms g vs name : bool -> list jtok -> list val -> Prop :=
  fun w x vs' => takes_member w ms g vs name x vs'.
Definition membersT ms g vs : bool -> list jtok -> list val -> Prop :=
  fun w x vs' => takes_members w ms g vs x vs'.

Lemma tobj_S n nf rf vs l : tobj (S n) nf rf vs l =
  match l with
  | KStr name :: KColon :: l1 =>
      match tvalue nf rf name vs l1 with
      | Some (TOk, vs1, l2) =>
          match l2 with
          | KComma :: l3 => tobj n nf rf vs1 l3
          | KRBrace :: l3 => Some (TOk, vs1, l3)
          | _ => Some (TErr PGERR_INVALID_OBJECT (b "invalid JSON object"), vs1, l2)
          end
      | x => x
      end
  | KStr _ :: l1 =>
      Some (TErr PGERR_INVALID_SEPARATOR (b "field name and value must be separated by ':'"), vs, l1)
  | _ => Some (TErr PGERR_INVALID_NAME (b "object key must be string"), vs, l)
  end.
Proof. reflexivity. Qed.

Lemma tvalue_run w nf ms g name vs : Forall (rd_run w nf) ms ->
  (forall name, select_member g name = member_named (g_write g) name) -> shapes ms vs ->
  run w (memberT ms g vs name) (fun _ => False) (tvalue nf (tmember g (map (tread w nf) ms)) name vs).
Proof.
  intros RD LO S l r x l' E.
  assert (Unknown : field_of ms g name = None ->
    (forall l, tmember g (map (tread w nf) ms) name vs l = Some (TNil, vs, l)) ->
    out w (memberT ms g vs name) (fun _ => False) (tvalue nf (tmember g (map (tread w nf) ms)) name vs) l r x l').
  { intros F U. unfold tvalue in E. rewrite U in E.
    destruct (tign nf l) as [[[r1 []] l1]|] eqn:I; [|discriminate E]. injection E as <- <- <-.
    apply (proj1 (tign_run nf)) in I.
    destruct I as (p & -> & (NB & L) & O).
    assert (L' : loc (tvalue nf (tmember g (map (tread w nf) ms)) name vs) r1 vs p l1).
    { split; [exact NB|]. intros l2 K. unfold tvalue. rewrite U, L by exact K. reflexivity. }
    exists p. split; [reflexivity|]. split; [exact L'|]. destruct r1.
    - now apply tf_unknown.
    - destruct O as [_ []].
    - destruct O as (more & [] & O). exists more. eexists. apply tf_unknown; [exact F|exact O].
    - destruct O as [O _]. discriminate O. }
  assert (TM : forall l, tmember g (map (tread w nf) ms) name vs l =
    match field_of ms g name with
    | Some (k, t) => match nth_error vs k with
                     | Some v => match tread w nf t v l with
                                 | None => None
                                 | Some (r, v', l1) => Some (r, set_nth k v' vs, l1)
                                 end
                     | None => Some (TNil, vs, l)
                     end
    | None => Some (TNil, vs, l)
    end).
  { intros m. unfold tmember, field_of. rewrite LO. destruct (member_named (g_write g) name) as [k|]; [|reflexivity].
    rewrite nth_error_map. destruct (nth_error ms k); reflexivity. }
  destruct (field_of ms g name) as [[k t]|] eqn:F; [|now apply Unknown]. clear Unknown.
  pose proof (field_of_some _ _ _ _ _ F) as [_ M].
  destruct (Forall2_nth_error _ _ _ _ _ S M) as (v & V & Sv). rewrite V in TM.
  rewrite Forall_forall in RD. specialize (RD t (nth_error_In _ _ M) v Sv).
  unfold tvalue in E. rewrite TM in E.
  destruct (tread w nf t v l) as [[[r1 y1] l1]|] eqn:E1; [|discriminate E]. pose proof (RD _ _ _ _ E1) as O.
  destruct (match r1 with TNil => true | _ => false end) eqn:N.
  - (* null *)
    destruct r1; try discriminate N. destruct (tread_nil _ _ _ _ _ _ _ E1) as (-> & l0 & ->).
    destruct O as (p & _ & (_ & L) & -> & ->).
    assert (L' : forall l2, tread w nf t v (KNull :: l2) = Some (TNil, nulled v, KNull :: l2)).
    { intros l2. apply (L (KNull :: l2)). right. reflexivity. }
    destruct nf as [|nf]; [discriminate E|]. cbn [tign] in E. destruct l0 as [|k0 l0]; injection E as <- <- <-.
    + apply (out_err _ _ _ _ [KNull]).
      * intros l2 SH. destruct l2; [|contradiction]. unfold tvalue. cbn [app]. rewrite TM, L'. reflexivity.
      * exists []. eexists. eapply tf_null; eauto.
    + apply (out_ok _ _ _ _ [KNull]); [|eapply tf_null; eauto].
      intros l2 SH. destruct l2; [contradiction|]. unfold tvalue. cbn [app]. rewrite TM, L'. reflexivity.
  - (* a value *)
    assert (r1 = r /\ l1 = l' /\ x = set_nth k y1 vs) as (-> & -> & ->)
      by (destruct r1; try discriminate N; injection E; auto).
    eapply out_map; [exact O|..].
    + intros l2 m H. unfold tvalue. rewrite TM, H. destruct r; try discriminate N; reflexivity.
    + intros w' z u H. eexists. eapply tf_value; eauto.
    + intros _ z H. eapply tf_value; eauto.
    + intros ->. discriminate N.
Qed.

Lemma tobj_run w nf ms g : Forall (rd_run w nf) ms ->
  (forall name, select_member g name = member_named (g_write g) name) -> forall n vs, shapes ms vs ->
  run w (membersT ms g vs) (fun _ => False) (tobj n nf (tmember g (map (tread w nf) ms)) vs).
Proof.
  intros RD LO. induction n as [|n IH]; intros vs SV l r x l' E; [discriminate E|].
  assert (Some_member : forall name, exists more vs', takes_member w ms g vs name more vs').
  { intros name. destruct (field_of ms g name) as [[k t]|] eqn:F.
    - pose proof (field_of_some _ _ _ _ _ F) as [_ M].
      destruct (Forall2_nth_error _ _ _ _ _ SV M) as (v & V & Sv).
      eexists [KNull], _. eapply tf_null; eauto.
    - eexists [KNull], _. apply tf_unknown; [exact F|constructor]. }
  destruct (match l with KStr _ :: _ => true | _ => false end) eqn:Hs.
  2:{ assert (r = TErr PGERR_INVALID_NAME (b "object key must be string") /\ l' = l /\ x = vs) as (-> & -> & ->).
      { rewrite tobj_S in E. destruct l as [|[] l1]; try discriminate Hs; injection E as <- <- <-; auto. }
      apply (out_err _ _ _ _ []).
      - intros l2 SH. cbn [app]. rewrite tobj_S. destruct l as [|[] l1], l2 as [|[] l2];
          try discriminate Hs; try contradiction; try discriminate SH; reflexivity.
      - destruct (Some_member []) as (more & vs' & H). eexists. eexists. cbn [app]. apply tm_last. exact H. }
  destruct l as [|[] l0]; try discriminate Hs. clear Hs. rename s into name.
  destruct (match l0 with KColon :: _ => true | _ => false end) eqn:Hc.
  2:{ assert (r = TErr PGERR_INVALID_SEPARATOR (b "field name and value must be separated by ':'")
              /\ l' = l0 /\ x = vs) as (-> & -> & ->).
      { rewrite tobj_S in E. destruct l0 as [|[] l1]; try discriminate Hc; injection E as <- <- <-; auto. }
      apply (out_err _ _ _ _ [KStr name]).
      - intros l2 SH. cbn [app]. rewrite tobj_S. destruct l0 as [|[] l1], l2 as [|[] l2]; try discriminate Hc;
          try contradiction; try discriminate SH; reflexivity.
      - destruct (Some_member name) as (more & vs' & H). eexists (KColon :: more ++ [KRBrace]). eexists.
        cbn [app]. apply tm_last. exact H. }
  destruct l0 as [|[] l0]; try discriminate Hc. clear Hc. rewrite tobj_S in E.
  destruct (tvalue nf (tmember g (map (tread w nf) ms)) name vs l0) as [[[r1 vs1] l1]|] eqn:E1; [|discriminate E].
  pose proof (tvalue_run w nf ms g name vs RD LO SV _ _ _ _ E1) as V.
  change (KStr name :: KColon :: l0) with ([KStr name; KColon] ++ l0).
  destruct (is_err r1) eqn:R1.
  { assert (r1 = r /\ l1 = l' /\ vs1 = x) as (-> & -> & ->) by (destruct r1; try discriminate R1; injection E; auto).
    eapply (out_fail _ _ _ _ _ _ _ _ [KRBrace]); [exact V|exact R1| |].
    - intros p l2 SH F. cbn [app]. rewrite tobj_S, F. destruct r; try discriminate R1; reflexivity.
    - intros w' z _ [u H]. eexists. apply tm_last. exact H. }
  destruct r1; try discriminate R1. 2:{ destruct V as (p & _ & _ & _ & []). }
  assert (Bad : r = TErr PGERR_INVALID_OBJECT (b "invalid JSON object") -> l' = l1 -> x = vs1 ->
    (forall l2, same_head l1 l2 -> match l2 with
        | KComma :: l2 => tobj n nf (tmember g (map (tread w nf) ms)) vs1 l2
        | KRBrace :: l2 => Some (TOk, vs1, l2)
        | _ => Some (TErr PGERR_INVALID_OBJECT (b "invalid JSON object"), vs1, l2)
        end = Some (TErr PGERR_INVALID_OBJECT (b "invalid JSON object"), vs1, l2)) ->
    out w (membersT ms g vs) (fun _ => False) (tobj (S n) nf (tmember g (map (tread w nf) ms)) vs)
        ([KStr name; KColon] ++ l0) r x l').
  { intros -> -> -> F. destruct V as (p & -> & (_ & L) & O). rewrite app_assoc. apply out_err.
    - intros l2 SH. rewrite <- app_assoc. cbn [app]. rewrite tobj_S.
      rewrite L by now right. now apply F.
    - exists [KRBrace], vs1. rewrite <- app_assoc. apply tm_last. exact O. }
  destruct l1 as [|[] l2];
    try (injection E as <- <- <-; apply Bad; [reflexivity..|intros l3 SH; sh_cases l3 SH; fail]).
  + injection E as <- <- <-. destruct V as (p & -> & (_ & L) & O). change (KRBrace :: l2) with ([KRBrace] ++ l2).
    replace ([KStr name; KColon] ++ p ++ [KRBrace] ++ l2) with ((KStr name :: KColon :: p ++ [KRBrace]) ++ l2)
      by (cbn [app]; now rewrite <- app_assoc).
    apply out_ok; [|apply tm_last; exact O].
    intros l3 _. cbn [app]. rewrite <- app_assoc, tobj_S. now rewrite L by (right; reflexivity).
  + assert (S1 : shapes ms vs1).
    { destruct V as (p & _ & _ & O). eapply takes_member_shape; [exact O|exact SV]. }
    pose proof (IH _ S1 _ _ _ _ E) as W.
    eapply (out_seq _ _ _ _ _ _ _ _ _ _ _ [KComma]); [exact V|exact W|discriminate| | | | |].
    * intros ->. destruct W as (p & _ & _ & _ & []).
    * intros p q l3 SH F F2. cbn [app] in *. rewrite tobj_S. now rewrite F.
    * intros w' p q _ H [u H2]. eexists. eapply tm_more; eauto.
    * intros p q H H2. eapply tm_more; eauto.
    * intros w' p [->| ->] H; [exact H|]. eapply takes_member_weaken; exact H.
Qed.

(** ** All types *)
Lemma nulled_list l : nulled (VList l) = VList l. Proof. reflexivity. Qed.

Lemma tread_run w n t : lookup_ok t -> rd_run w n t.
Proof.
  induction t using ty_ind2; intros LO; try (apply scalar_run; exact I).
  - (* array *)
    intros v S l r x l' E. destruct v; try discriminate S. cbn [tread] in E.
    destruct (tarray n (tread w n t) (dflt t) l0 l) as [[[r1 x1] l1]|] eqn:Q; [|discriminate E].
    cbn [tmap] in E. injection E as <- <- <-.
    assert (O : out w (fun w' y u => takes w' (TRep t) (VList l0) y (VList u)) (fun u => u = l0)
                    (tarray n (tread w n t) (dflt t) l0) l r1 x1 l1).
    { assert (Err : r1 = TErr PGERR_INVALID_ARRAY (b "invalid array") -> l1 = l -> x1 = l0 ->
        match l with KLBrack :: _ | KNull :: _ => False | _ => True end ->
        out w (fun w' y u => takes w' (TRep t) (VList l0) y (VList u)) (fun u => u = l0)
            (tarray n (tread w n t) (dflt t) l0) l r1 x1 l1).
      { intros -> -> -> Hd. apply (out_err _ _ _ _ []).
        - intros l2 SH. destruct l as [|[] l], l2 as [|[] l2]; try contradiction; try discriminate SH; reflexivity.
        - exists [KLBrack; KRBrack]. eexists. apply tk_arr0. }
      unfold tarray in Q. destruct l as [|[] l]; try (injection Q as <- <- <-; apply Err; [reflexivity..|exact I]).
      - destruct (match l with KRBrack :: _ => true | _ => false end) eqn:Hd.
        + destruct l as [|[] l]; try discriminate Hd. injection Q as <- <- <-.
          apply (out_ok _ _ _ _ [KLBrack; KRBrack]); [reflexivity|apply tk_arr0].
        + assert (Q' : tarr n (tread w n t) (dflt t) l0 l = Some (r1, x1, l1))
            by (destruct l as [|[] l]; try discriminate Hd; exact Q). clear Q.
          assert (F0 : forall l2, same_head l l2 -> tarray n (tread w n t) (dflt t) l0 (KLBrack :: l2) =
                                                    tarr n (tread w n t) (dflt t) l0 l2).
          { intros l2 SH. destruct l as [|[] l], l2 as [|[] l2]; try discriminate Hd; try contradiction;
              try discriminate SH; reflexivity. }
          pose proof (tarr_run w t n (IHt LO) n l0 _ _ _ _ Q') as V. change (KLBrack :: l) with ([KLBrack] ++ l).
          destruct (is_err r1) eqn:R1.
          * eapply (out_fail _ _ _ _ _ _ _ _ []); [exact V|exact R1| |].
            -- intros p l2 SH F. cbn [app]. now rewrite F0.
            -- intros w' z _ [u H]. exists u. rewrite app_nil_r. apply tk_arr. exact H.
          * destruct V as (p & -> & (_ & L) & O). destruct r1; try discriminate R1; [|destruct O as [_ []]].
            rewrite app_assoc. apply out_ok; [|apply tk_arr; exact O].
            intros l2 SH. cbn [app]. rewrite F0 by (apply (sh_app TOk); [now right|discriminate]).
            apply L. now right.
      - injection Q as <- <- <-. exists []. split; [reflexivity|]. split; [|auto]. split; [discriminate|].
        intros l2 [K|K]; [discriminate K|]. sh_cases l2 K. }
    eapply out_map; [exact O|..].
    + intros l2 m H. cbn [tread]. now rewrite H.
    + intros w' z u H. exists (VList u). exact H.
    + intros _ z H. exact H.
    + intros _ ->. reflexivity.
  - (* message *)
    intros v S l r x l' E. destruct v; try discriminate S. cbn [tread] in E.
    set (rf := tmember g (map (tread w n) ms)) in *.
    destruct (tobject n rf l0 l) as [[[r1 x1] l1]|] eqn:Q; [|discriminate E].
    cbn [tmap] in E. injection E as <- <- <-. apply shape_msg in S.
    apply lookup_ok_msg in LO as [LO LOs].
    assert (RD : Forall (rd_run w n) ms).
    { rewrite Forall_forall in *. intros t Ht. apply H; auto. }
    assert (O : out w (fun w' y u => takes w' (TMsg ms g) (VMsg l0) y (VMsg u)) (fun u => u = l0)
                    (tobject n rf l0) l r1 x1 l1).
    { assert (Err : r1 = TErr PGERR_INVALID_OBJECT (b "objects must start with '{'") -> l1 = l -> x1 = l0 ->
        match l with KLBrace :: _ | KNull :: _ => False | _ => True end ->
        out w (fun w' y u => takes w' (TMsg ms g) (VMsg l0) y (VMsg u)) (fun u => u = l0)
            (tobject n rf l0) l r1 x1 l1).
      { intros -> -> -> Hd. apply (out_err _ _ _ _ []).
        - intros l2 SH. destruct l as [|[] l], l2 as [|[] l2]; try contradiction; try discriminate SH; reflexivity.
        - exists [KLBrace; KRBrace]. eexists. apply tk_obj0. }
      unfold tobject in Q. destruct l as [|[] l]; try (injection Q as <- <- <-; apply Err; [reflexivity..|exact I]).
      - destruct (match l with KRBrace :: _ => true | _ => false end) eqn:Hd.
        + destruct l as [|[] l]; try discriminate Hd. injection Q as <- <- <-.
          apply (out_ok _ _ _ _ [KLBrace; KRBrace]); [reflexivity|apply tk_obj0].
        + assert (Q' : tobj n n rf l0 l = Some (r1, x1, l1))
            by (destruct l as [|[] l]; try discriminate Hd; exact Q). clear Q.
          assert (F0 : forall l2, same_head l l2 -> tobject n rf l0 (KLBrace :: l2) = tobj n n rf l0 l2).
          { intros l2 SH. destruct l as [|[] l], l2 as [|[] l2]; try discriminate Hd; try contradiction;
              try discriminate SH; reflexivity. }
          pose proof (tobj_run w n ms g RD LO n l0 S _ _ _ _ Q') as V. change (KLBrace :: l) with ([KLBrace] ++ l).
          destruct (is_err r1) eqn:R1.
          * eapply (out_fail _ _ _ _ _ _ _ _ []); [exact V|exact R1| |].
            -- intros p l2 SH F. cbn [app]. now rewrite F0.
            -- intros w' z _ [u Hu]. exists u. rewrite app_nil_r. apply tk_obj. exact Hu.
          * destruct V as (p & -> & (_ & L) & O). destruct r1; try discriminate R1; [|destruct O as [_ []]].
            rewrite app_assoc. apply out_ok; [|apply tk_obj; exact O].
            intros l2 SH. cbn [app]. rewrite F0 by (apply (sh_app TOk); [now right|discriminate]).
            apply L. now right.
      - injection Q as <- <- <-. exists []. split; [reflexivity|]. split; [|auto]. split; [discriminate|].
        intros l2 [K|K]; [discriminate K|]. sh_cases l2 K. }
    eapply out_map; [exact O|..].
    + intros l2 m Hm. cbn [tread]. fold rf. now rewrite Hm.
    + intros w' z u Hu. exists (VMsg u). exact Hu.
    + intros _ z Hz. exact Hz.
    + intros _ ->. reflexivity.
Qed.
