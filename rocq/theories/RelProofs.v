(** Relational reasoning about readers: two runs from related tokenizers, with any
    two amounts of fuel, give equal results and related tokenizers. *)
From Verif Require Import Bytes BaseProofs Num Dbl Types Stream Tokenizer Write Read
  LexView LexMono FuelMono Termination.

Section Related.
  Variable R : tokenizer -> tokenizer -> Prop.
  Hypothesis R_id : forall t u, R t u -> tk_id t = tk_id u.
  Hypothesis R_val : forall t u, R t u -> t_val (tk_cur t) = t_val (tk_cur u).
  Hypothesis R_next : forall n m t u t1 u1, R t u -> tk_id t <> T_NONE ->
    tk_next n t = Some t1 -> tk_next m u = Some u1 -> R t1 u1.
  Hypothesis R_error : forall c msg t u, R t u -> R (tk_error c msg t) (tk_error c msg u).

  Lemma R_expect n m id t u x t1 y u1 : R t u -> id <> T_NONE ->
    tk_expect n id t = Some (x, t1) -> tk_expect m id u = Some (y, u1) -> x = y /\ R t1 u1.
  Proof.
    unfold tk_expect. intros H N A B. rewrite <- (R_id _ _ H) in B.
    destruct (tid_eqb (tk_id t) id) eqn:E.
    - apply tid_eqb_true in E. destruct (tk_next n t) as [t2|] eqn:Nt; [|discriminate].
      destruct (tk_next m u) as [u2|] eqn:Nu; [|discriminate].
      injection A as <- <-. injection B as <- <-. split; [reflexivity|].
      eapply R_next; eauto. congruence.
    - injection A as <- <-. injection B as <- <-. auto.
  Qed.

  Definition rel2 {A} (f g : tokenizer -> option (A * tokenizer)) : Prop :=
    forall t u x y t1 u1, R t u -> f t = Some (x, t1) -> g u = Some (y, u1) -> x = y /\ R t1 u1.

  Ltac exp2 A B n m id t u :=
    let x := fresh "x" in let y := fresh "y" in let t1 := fresh "t" in let u1 := fresh "u" in
    let Et := fresh "Et" in let Eu := fresh "Eu" in let Q := fresh "Q" in let H' := fresh "H" in
    destruct (tk_expect n id t) as [[x t1]|] eqn:Et; [|discriminate A];
    destruct (tk_expect m id u) as [[y u1]|] eqn:Eu; [|discriminate B];
    destruct (R_expect n m id t u x t1 y u1 ltac:(assumption) ltac:(discriminate) Et Eu) as [Q H'];
    subst y; destruct x.

  Lemma ignore_rel n : forall m,
    rel2 (ignore_value n) (ignore_value m) /\
    rel2 (ignore_array_loop n) (ignore_array_loop m) /\
    rel2 (ignore_object_loop n) (ignore_object_loop m).
  Proof.
    induction n as [|n IH]; intros m.
    { split; [|split]; intros ? ? ? ? ? ? _ A; discriminate A. }
    destruct m as [|m]. { split; [|split]; intros ? ? ? ? ? ? _ _ A; discriminate A. }
    destruct (IH m) as (IV & IA & IO).
    split; [|split]; intros t u x y t1 u1 H A B; simpl in A, B.
    - rewrite <- (R_id _ _ H) in B. unfold ign_fail in *.
      destruct (tk_id t) eqn:I;
        try (injection A as <- <-; injection B as <- <-; split; [reflexivity|now apply R_error]);
        (destruct (tk_next n t) as [t2|] eqn:Nt; [|discriminate A];
         destruct (tk_next m u) as [u2|] eqn:Nu; [|discriminate B];
         assert (H2 : R t2 u2) by (eapply R_next; [exact H|congruence|exact Nt|exact Nu]));
        try (eapply IO; eauto; fail); try (eapply IA; eauto; fail);
        rewrite <- (R_id _ _ H2) in B;
        destruct (tk_id t2); injection A as <- <-; injection B as <- <-; split; auto.
    - assert (F : forall a c, R a c ->
        match tk_expect n T_ARRE a with
        | Some (true, t') => Some (PGR_OK, t')
        | Some (false, t') => ign_fail (b "invalid array") t'
        | None => None end = Some (x, t1) ->
        match tk_expect m T_ARRE c with
        | Some (true, t') => Some (PGR_OK, t')
        | Some (false, t') => ign_fail (b "invalid array") t'
        | None => None end = Some (y, u1) -> x = y /\ R t1 u1).
      { intros a c Hac A' B'. exp2 A' B' n m T_ARRE a c; unfold ign_fail in *;
          injection A' as <- <-; injection B' as <- <-; split; auto. }
      rewrite <- (R_id _ _ H) in B. destruct (tid_eqb (tk_id t) T_ARRE); [now apply (F t u)|].
      destruct (ignore_value n t) as [[r t2]|] eqn:Et; [|discriminate A].
      destruct (ignore_value m u) as [[s u2]|] eqn:Eu; [|discriminate B].
      destruct (IV _ _ _ _ _ _ H Et Eu) as [<- H2].
      destruct r; try (injection A as <- <-; injection B as <- <-; auto; fail).
      exp2 A B n m T_COMMA t2 u2; [eapply IA; eauto|eapply F; eauto].
    - assert (F : forall a c, R a c ->
        match tk_expect n T_OBJE a with
        | Some (true, t') => Some (PGR_OK, t')
        | Some (false, t') => ign_fail (b "invalid object") t'
        | None => None end = Some (x, t1) ->
        match tk_expect m T_OBJE c with
        | Some (true, t') => Some (PGR_OK, t')
        | Some (false, t') => ign_fail (b "invalid object") t'
        | None => None end = Some (y, u1) -> x = y /\ R t1 u1).
      { intros a c Hac A' B'. exp2 A' B' n m T_OBJE a c; unfold ign_fail in *;
          injection A' as <- <-; injection B' as <- <-; split; auto. }
      rewrite <- (R_id _ _ H) in B. destruct (tid_eqb (tk_id t) T_OBJE); [now apply (F t u)|].
      exp2 A B n m T_STRING t u.
      2:{ unfold ign_fail in *. injection A as <- <-; injection B as <- <-; split; auto. }
      exp2 A B n m T_COLON t0 u0.
      2:{ unfold ign_fail in *. injection A as <- <-; injection B as <- <-; split; auto. }
      destruct (ignore_value n t2) as [[r t3]|] eqn:Ev; [|discriminate A].
      destruct (ignore_value m u2) as [[s u3]|] eqn:Ew; [|discriminate B].
      destruct (IV _ _ _ _ _ _ ltac:(eassumption) Ev Ew) as [<- H3].
      destruct r; try (injection A as <- <-; injection B as <- <-; auto; fail).
      exp2 A B n m T_COMMA t3 u3; [eapply IO; eauto|eapply F; eauto].
  Qed.

  Definition rrel {A} (f g : tokenizer -> A -> rres A) : Prop :=
    forall t u v x y r s t1 u1, R t u -> f t v = Some (r, x, t1) -> g u v = Some (s, y, u1) ->
      r = s /\ x = y /\ R t1 u1.

  Ltac fin A B := unfold rfail in A, B; injection A as <- <- <-; injection B as <- <- <-;
    split; [reflexivity|split; [reflexivity|auto]].

  Lemma read_prim_rel n m p : rrel (read_prim n p) (read_prim m p).
  Proof.
    intros t u v x y r s t1 u1 H A B. unfold read_prim in *.
    rewrite <- (R_id _ _ H), <- (R_val _ _ H) in B.
    destruct (tk_id t) eqn:I; destruct p; try (fin A B; fail);
      (destruct (tk_next n t) as [t2|] eqn:Nt; [|discriminate A];
       destruct (tk_next m u) as [u2|] eqn:Nu; [|discriminate B];
       assert (H2 : R t2 u2) by (eapply R_next; [exact H|congruence|exact Nt|exact Nu]);
       fin A B).
  Qed.

  Lemma array_loop_rel n nf mf rd rd' d : rrel rd rd' ->
    forall m, rrel (array_loop n nf rd d) (array_loop m mf rd' d).
  Proof.
    intros RD. induction n as [|n IH]; intros m t u v x y r s t1 u1 H A B; [discriminate A|].
    destruct m as [|m]; [discriminate B|]. simpl in A, B.
    destruct (rd t d) as [[[r1 x1] t2]|] eqn:Et; [|discriminate A].
    destruct (rd' u d) as [[[s1 y1] u2]|] eqn:Eu; [|discriminate B].
    destruct (RD _ _ _ _ _ _ _ _ _ H Et Eu) as (<- & <- & H2).
    destruct r1; [|fin A B|];
      (exp2 A B nf mf T_COMMA t2 u2; [eapply IH; eauto|];
       match goal with H3 : R ?a ?c |- _ => exp2 A B nf mf T_ARRE a c end; fin A B).
  Qed.

  Lemma read_array_rel n m rd rd' d : rrel rd rd' -> rrel (read_array n rd d) (read_array m rd' d).
  Proof.
    intros RD t u v x y r s t1 u1 H A B. unfold read_array in *. rewrite <- (R_id _ _ H) in B.
    destruct (tk_id t); try (fin A B; fail);
      (exp2 A B n m T_ARRS t u; [|fin A B];
       exp2 A B n m T_ARRE t0 u0; [fin A B|];
       eapply array_loop_rel; eauto).
  Qed.

  Lemma object_loop_rel n nf mf rf rf' : (forall name, rrel (rf name) (rf' name)) ->
    forall m, rrel (object_loop n nf rf) (object_loop m mf rf').
  Proof.
    intros RF. induction n as [|n IH]; intros m t u v x y r s t1 u1 H A B; [discriminate A|].
    destruct m as [|m]; [discriminate B|]. cbn [object_loop] in A, B.
    rewrite <- (R_val _ _ H) in B.
    exp2 A B nf mf T_STRING t u; [|fin A B].
    exp2 A B nf mf T_COLON t0 u0; [|fin A B].
    destruct (rf (t_val (tk_cur t)) t2 v) as [[[r1 x1] t3]|] eqn:Ert; [|discriminate A].
    destruct (rf' (t_val (tk_cur t)) u2 v) as [[[s1 y1] u3]|] eqn:Eru; [|discriminate B].
    destruct (RF _ _ _ _ _ _ _ _ _ _ ltac:(eassumption) Ert Eru) as (<- & <- & H3).
    assert (IG : forall r4 t4 s4 u4,
      (match r1 with PGR_OK => Some (PGR_OK, t3) | _ => ignore_value nf t3 end) = Some (r4, t4) ->
      (match r1 with PGR_OK => Some (PGR_OK, u3) | _ => ignore_value mf u3 end) = Some (s4, u4) ->
      r4 = s4 /\ R t4 u4).
    { intros r4 t4 s4 u4 A' B'. destruct r1;
        try (eapply (proj1 (ignore_rel nf mf)); eauto; fail).
      injection A' as <- <-. injection B' as <- <-. auto. }
    destruct r1 eqn:R1; [|fin A B|].
    - exp2 A B nf mf T_COMMA t3 u3; [eapply IH; eauto|].
      exp2 A B nf mf T_OBJE t4 u4; fin A B.
    - destruct (ignore_value nf t3) as [[r4 t4]|] eqn:Ev; [|discriminate A].
      destruct (ignore_value mf u3) as [[s4 u4]|] eqn:Ew; [|discriminate B].
      destruct (IG _ _ _ _ eq_refl eq_refl) as [<- H4].
      destruct r4; [|fin A B|];
        (exp2 A B nf mf T_COMMA t4 u4; [eapply IH; eauto|];
         match goal with H5 : R ?a ?c |- _ => exp2 A B nf mf T_OBJE a c; fin A B end).
  Qed.

  Lemma read_object_rel n m rf rf' : (forall name, rrel (rf name) (rf' name)) ->
    rrel (read_object n rf) (read_object m rf').
  Proof.
    intros RF t u v x y r s t1 u1 H A B. unfold read_object in *. rewrite <- (R_id _ _ H) in B.
    destruct (tk_id t); try (fin A B; fail);
      (exp2 A B n m T_OBJS t u; [|fin A B];
       exp2 A B n m T_OBJE t0 u0; [fin A B|];
       eapply object_loop_rel; eauto).
  Qed.

  Lemma rmap_rel {A B} (f : A -> B) (a a' : rres A) r s x y t1 u1 :
    (forall r x t1 s y u1, a = Some (r, x, t1) -> a' = Some (s, y, u1) -> r = s /\ x = y /\ R t1 u1) ->
    rmap f a = Some (r, x, t1) -> rmap f a' = Some (s, y, u1) -> r = s /\ x = y /\ R t1 u1.
  Proof.
    intros H. destruct a as [[[r1 x1] t2]|]; [|discriminate].
    destruct a' as [[[s1 y1] u2]|]; [|discriminate]. simpl.
    intros E F. injection E as <- <- <-. injection F as <- <- <-.
    destruct (H _ _ _ _ _ _ eq_refl eq_refl) as (<- & <- & ?). auto.
  Qed.

  Lemma read_rel n m ty0 : rrel (read n ty0) (read m ty0).
  Proof.
    induction ty0 using ty_ind2; intros t u v x y r s t1 u1 Ht A B; cbn [read] in A, B;
      destruct v; try (fin A B; fail).
    - eapply rmap_rel; [|exact A|exact B]. intros; eapply read_prim_rel; eauto.
    - unfold read_fieldnum in *.
      destruct (read_prim n p t (pzero p)) as [[[r1 x1] t2]|] eqn:Et; [|discriminate A].
      destruct (read_prim m p u (pzero p)) as [[[s1 y1] u2]|] eqn:Eu; [|discriminate B].
      destruct (read_prim_rel n m p _ _ _ _ _ _ _ _ _ Ht Et Eu) as (<- & <- & H2).
      destruct r1; fin A B.
    - unfold read_strfield, read_string in *.
      rewrite <- (R_id _ _ Ht), <- (R_val _ _ Ht) in B.
      destruct (tk_id t); try (simpl in A, B; fin A B; fail);
        (exp2 A B n m T_STRING t u; simpl in A, B; fin A B).
    - unfold read_b64 in *. rewrite <- (R_id _ _ Ht), <- (R_val _ _ Ht) in B.
      destruct (tk_id t) eqn:I; try (fin A B; fail).
      destruct (tk_next n t) as [t2|] eqn:Nt; [|discriminate A].
      destruct (tk_next m u) as [u2|] eqn:Nu; [|discriminate B].
      assert (H2 : R t2 u2) by (eapply R_next; [exact Ht|congruence|exact Nt|exact Nu]).
      destruct (b64_decode (cstr (t_val (tk_cur t)))) as [o bad]. destruct bad; fin A B.
    - eapply rmap_rel; [|exact A|exact B]. intros; eapply read_array_rel; eauto.
    - eapply rmap_rel; [|exact A|exact B]. clear A B. intros r' x' t' s' y' u' A B.
      eapply read_object_rel; [|exact Ht|exact A|exact B]. clear - H R_id R_val R_next R_error.
      intros name t u vs x y r s t1 u1 Ht A B. unfold read_member in *.
      destruct (select_member g name) as [k|]; [|fin A B].
      rewrite nth_error_map in A, B. destruct (nth_error ms k) as [ty1|] eqn:M; [|fin A B].
      simpl in A, B. destruct (nth_error vs k) as [v|]; [|fin A B].
      rewrite Forall_forall in H. specialize (H ty1 (nth_error_In _ _ M)).
      destruct (read n ty1 t v) as [[[r1 x1] t2]|] eqn:Et; [|discriminate A].
      destruct (read m ty1 u v) as [[[s1 y1] u2]|] eqn:Eu; [|discriminate B].
      destruct (H _ _ _ _ _ _ _ _ _ Ht Et Eu) as (<- & <- & H2). fin A B.
  Qed.
End Related.

(** ** Invariants *)
Lemma read_inv (I : tokenizer -> Prop) :
  (forall n t t1, I t -> tk_id t <> T_NONE -> tk_next n t = Some t1 -> I t1) ->
  (forall c msg t, I t -> I (tk_error c msg t)) ->
  forall n ty0 t v r v' t', I t -> read n ty0 t v = Some (r, v', t') -> I t'.
Proof.
  intros N E n ty0 t v r v' t' H A.
  destruct (read_rel (fun t u => t = u /\ I t)) with (n := n) (m := n) (ty0 := ty0)
      (t := t) (u := t) (v := v) (x := v') (y := v') (r := r) (s := r) (t1 := t') (u1 := t')
    as (_ & _ & _ & Q); auto.
  - intros a c [-> _]. reflexivity.
  - intros a c [-> _]. reflexivity.
  - intros n1 m1 a c a1 c1 [<- Ia] NN A1 C1. split; [|eapply N; eauto].
    pose proof (tk_next_mono n1 (Nat.max n1 m1) a _ (Nat.le_max_l _ _) A1).
    pose proof (tk_next_mono m1 (Nat.max n1 m1) a _ (Nat.le_max_r _ _) C1). congruence.
  - intros c msg a c0 [<- Ia]. split; auto.
Qed.

(** ** The result does not depend on the fuel *)
Lemma read_fuel n m ty0 t v x y : read n ty0 t v = Some x -> read m ty0 t v = Some y -> x = y.
Proof.
  destruct x as [[r x] t1], y as [[s y] u1]. intros A B.
  destruct (read_rel (fun t u => t = u)) with (n := n) (m := m) (ty0 := ty0)
      (t := t) (u := t) (v := v) (x := x) (y := y) (r := r) (s := s) (t1 := t1) (u1 := u1)
    as (-> & -> & ->); auto; try congruence.
  intros n1 m1 a c a1 c1 <- NN A1 C1.
  pose proof (tk_next_mono n1 (Nat.max n1 m1) a _ (Nat.le_max_l _ _) A1).
  pose proof (tk_next_mono m1 (Nat.max n1 m1) a _ (Nat.le_max_r _ _) C1). congruence.
Qed.

Lemma deserialize_fuel_indep n m ty0 v s po x y :
  deserialize_fuel n ty0 v s po = Some x -> deserialize_fuel m ty0 v s po = Some y -> x = y.
Proof.
  unfold deserialize_fuel, tk_make. intros A B.
  destruct (tk_next n _) as [t|] eqn:Nt; [|discriminate A].
  destruct (tk_next m _) as [u|] eqn:Nu; [|discriminate B].
  assert (t = u) as <-.
  { pose proof (tk_next_mono _ (Nat.max n m) _ _ (Nat.le_max_l _ _) Nt).
    pose proof (tk_next_mono _ (Nat.max n m) _ _ (Nat.le_max_r _ _) Nu). congruence. }
  destruct (read n ty0 t v) as [p|] eqn:Et; [|discriminate A].
  destruct (read m ty0 t v) as [q|] eqn:Eu; [|discriminate B].
  pose proof (read_fuel _ _ _ _ _ _ _ Et Eu) as <-. rewrite A in B. congruence.
Qed.
