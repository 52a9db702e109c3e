(** The reader implements the interpretation of JSON documents. *)
From Verif Require Import Bytes BaseProofs Num Dbl Types Stream Tokenizer Write Read
  SpecJson SpecInterp LexView LexMono LexJson Termination.

(** ** Tokenizer steps *)
Lemma pos_lex t x id v r : pos t x -> lex x = Some (id, v, r) ->
  tk_id t = id /\ t_val (tk_cur t) = v /\ vw (tk_in t) = r /\ (left_len t <= length x)%nat.
Proof.
  intros [W P] E. rewrite E in P. destruct P as (A & B & C).
  repeat split; auto. unfold left_len. rewrite C. apply lex_length in E as [E _]. exact E.
Qed.

Lemma pos_next n t x id v r : pos t x -> lex x = Some (id, v, r) -> (length x + 2 <= n)%nat ->
  exists t', tk_next n t = Some t' /\ pos t' r.
Proof.
  intros P E L. destruct (pos_lex _ _ _ _ _ P E) as (A & B & C & D).
  destruct (tk_next_spec n t (proj1 P)) as (t' & E' & P' & _); [lia|].
  rewrite C in P'. eauto.
Qed.

Lemma tid_eqb_refl id : tid_eqb id id = true.
Proof. destruct id; reflexivity. Qed.
Lemma tid_eqb_eq x y : tid_eqb x y = true <-> x = y.
Proof. split; [destruct x, y; simpl; congruence|intros ->; apply tid_eqb_refl]. Qed.
Lemma tid_eqb_neq x y : x <> y -> tid_eqb x y = false.
Proof. intros N. destruct (tid_eqb x y) eqn:E; [|reflexivity]. apply tid_eqb_eq in E. contradiction. Qed.

Lemma expect_yes n t x id v r : pos t x -> lex x = Some (id, v, r) -> (length x + 2 <= n)%nat ->
  exists t', tk_expect n id t = Some (true, t') /\ pos t' r.
Proof.
  intros P E L. destruct (pos_lex _ _ _ _ _ P E) as (A & _). unfold tk_expect.
  rewrite A, tid_eqb_refl. destruct (pos_next n t x id v r P E L) as (t' & -> & P'). eauto.
Qed.

Lemma expect_no n t id : tk_id t <> id -> tk_expect n id t = Some (false, t).
Proof. intros N. unfold tk_expect. now rewrite tid_eqb_neq. Qed.

Lemma pos_ws t w x : ws w -> pos t (nolf (w ++ x)) <-> pos t (nolf x).
Proof. intros W. unfold pos. now rewrite lex_ws. Qed.

(** ** First token of a value *)
Definition first_tok (j : jval) : token_id * bytes :=
  match j with
  | JNull => (T_NIL, [])
  | JBool true => (T_BTRUE, [])
  | JBool false => (T_BFALSE, [])
  | JNum s => (T_NUMBER, s)
  | JStr s => (T_STRING, s)
  | JArr _ => (T_ARRS, [])
  | JObj _ => (T_OBJS, [])
  end.

Definition composite (j : jval) : bool := match j with JArr _ | JObj _ => true | _ => false end.
Definition sep (rest : bytes) : Prop :=
  stops is_num_c (nolf rest) /\ stops is_alpha_c (nolf rest).
Definition delim (j : jval) (rest : bytes) : Prop := if composite j then True else sep rest.

Lemma delim_follow j rest : follow rest -> delim j rest.
Proof. unfold delim. destruct (composite j); [auto|]. apply follow_stops. Qed.

Lemma jtext_first strict j x rest : jtext strict j x -> delim j rest ->
  exists r, lex (nolf (x ++ rest)) = Some (fst (first_tok j), snd (first_tok j), r)
            /\ (composite j = false -> r = nolf rest).
Proof.
  intros H D. unfold delim in D. destruct H; simpl in D; rewrite nolf_app.
  - destruct D as [_ D]. exists (nolf rest). split; [|reflexivity].
    change (nolf (b "null")) with (b "null"). apply lex_lit; auto.
  - destruct D as [_ D]. exists (nolf rest). split; [|reflexivity].
    change (nolf (b "true")) with (b "true"). apply lex_lit; auto.
  - destruct D as [_ D]. exists (nolf rest). split; [|reflexivity].
    change (nolf (b "false")) with (b "false"). apply lex_lit; auto.
  - destruct D as [D _]. exists (nolf rest). split; [|reflexivity].
    assert (lax_number s) as LN by (destruct strict; auto using json_number_lax).
    rewrite (num_char_nolf s) by now apply lax_all. apply lex_number; auto.
  - exists (nolf rest). split; [|reflexivity].
    rewrite (jstring_nolf _ _ _ H). eapply lex_jstring; eauto.
  - rewrite <- nolf_app. change (([chr 91] ++ w ++ [chr 93]) ++ rest) with (chr 91 :: (w ++ [chr 93]) ++ rest).
    rewrite (lex_punct (chr 91) T_ARRS) by reflexivity. eexists; split; [reflexivity|discriminate].
  - rewrite <- nolf_app. change (([chr 91] ++ t ++ [chr 93]) ++ rest) with (chr 91 :: (t ++ [chr 93]) ++ rest).
    rewrite (lex_punct (chr 91) T_ARRS) by reflexivity. eexists; split; [reflexivity|discriminate].
  - rewrite <- nolf_app. change (([chr 123] ++ w ++ [chr 125]) ++ rest) with (chr 123 :: (w ++ [chr 125]) ++ rest).
    rewrite (lex_punct (chr 123) T_OBJS) by reflexivity. eexists; split; [reflexivity|discriminate].
  - rewrite <- nolf_app. change (([chr 123] ++ t ++ [chr 125]) ++ rest) with (chr 123 :: (t ++ [chr 125]) ++ rest).
    rewrite (lex_punct (chr 123) T_OBJS) by reflexivity. eexists; split; [reflexivity|discriminate].
Qed.

Lemma pos_first strict j x rest t : jtext strict j x -> delim j rest -> pos t (nolf (x ++ rest)) ->
  tk_id t = fst (first_tok j) /\ t_val (tk_cur t) = snd (first_tok j).
Proof.
  intros H D P. destruct (jtext_first _ _ _ _ H D) as (r & E & _).
  destruct (pos_lex _ _ _ _ _ P E) as (A & B & _). auto.
Qed.

(** After a scalar. *)
Lemma next_scalar strict j x rest t n : jtext strict j x -> composite j = false -> sep rest ->
  pos t (nolf (x ++ rest)) -> (length (x ++ rest) + 2 <= n)%nat ->
  exists t', tk_next n t = Some t' /\ pos t' (nolf rest).
Proof.
  intros H C F P L. assert (D : delim j rest) by (unfold delim; now rewrite C).
  destruct (jtext_first strict j x rest H D) as (r & E & R).
  rewrite R in E by assumption. eapply pos_next; eauto.
  pose proof (nolf_length (x ++ rest)). lia.
Qed.

Lemma follow_closer c r : closer c -> follow (c :: r).
Proof. intros. exists [], c, r. split; [reflexivity|]. split; [reflexivity|assumption]. Qed.

Ltac len := cbn [length] in *; rewrite ?app_length in *; cbn [length] in *; rewrite ?app_length in *; cbn [length] in *; lia.

(** A punctuation character is the current token. *)
Lemma at_punct n t c x id : pos t (nolf (c :: x)) -> punct (schar c) = Some id ->
  (length (c :: x) + 2 <= n)%nat ->
  tk_id t = id /\ exists t', tk_next n t = Some t' /\ tk_expect n id t = Some (true, t') /\ pos t' (nolf x).
Proof.
  intros P K L. pose proof (lex_punct c id x K) as E.
  destruct (pos_lex _ _ _ _ _ P E) as (A & _ & _ & _). split; [exact A|].
  pose proof (nolf_length (c :: x)).
  destruct (pos_next n t _ _ _ _ P E) as (t' & N & P'); [lia|].
  exists t'. split; [exact N|]. split; [|exact P'].
  unfold tk_expect. now rewrite A, tid_eqb_refl, N.
Qed.

Lemma at_punct_ws n t w c x id : ws w -> pos t (nolf (w ++ c :: x)) -> punct (schar c) = Some id ->
  (length (c :: x) + 2 <= n)%nat ->
  tk_id t = id /\ exists t', tk_next n t = Some t' /\ tk_expect n id t = Some (true, t') /\ pos t' (nolf x).
Proof. intros W P. rewrite pos_ws in P by assumption. now apply at_punct. Qed.

(** ** Skipping *)
Lemma ignore_sim strict :
  (forall j x, jtext strict j x -> forall rest t n, (composite j = false -> follow rest) ->
     pos t (nolf (x ++ rest)) -> (2 * length (x ++ rest) + 2 <= n)%nat ->
     exists t', ignore_value n t = Some (PGR_OK, t') /\ pos t' (nolf rest)) /\
  (forall l u, jelems strict l u -> forall rest t n,
     pos t (nolf (u ++ chr 93 :: rest)) -> (2 * length (u ++ chr 93 :: rest) + 3 <= n)%nat ->
     exists t', ignore_array_loop n t = Some (PGR_OK, t') /\ pos t' (nolf rest)) /\
  (forall l u, jmembers strict l u -> forall rest t n,
     pos t (nolf (u ++ chr 125 :: rest)) -> (2 * length (u ++ chr 125 :: rest) + 3 <= n)%nat ->
     exists t', ignore_object_loop n t = Some (PGR_OK, t') /\ pos t' (nolf rest)).
Proof.
  assert (Scalar : forall j x, jtext strict j x -> composite j = false -> forall rest t n, (composite j = false -> follow rest) ->
     pos t (nolf (x ++ rest)) -> (2 * length (x ++ rest) + 2 <= n)%nat ->
     exists t', ignore_value n t = Some (PGR_OK, t') /\ pos t' (nolf rest)).
  { intros j x H C rest t n D P L. specialize (D C).
    destruct (pos_first _ _ _ _ _ H (delim_follow j _ D) P) as [A _].
    destruct n as [|n]; [lia|].
    assert (NE : (1 <= length (x ++ rest))%nat).
    { pose proof D as D'. apply follow_head in D' as (d & r & E & _). destruct rest; [discriminate|len]. }
    destruct (next_scalar strict j x rest t n H C (follow_stops _ D) P) as (t' & N & P'); [lia|].
    destruct (follow_lex rest D) as (id & v & r & E & N1 & N2).
    destruct (pos_lex _ _ _ _ _ P' E) as (A' & _).
    exists t'. split; [|exact P']. simpl. rewrite A.
    destruct j as [|[]|s|s|l|l]; simpl in C; try discriminate; simpl; rewrite N, A';
      destruct id; try reflexivity; congruence. }
  assert (Open : forall n t c id x, pos t (nolf (c :: x)) -> punct (schar c) = Some id ->
     (2 * length (c :: x) + 2 <= S n)%nat ->
     tk_id t = id /\ exists t', tk_next n t = Some t' /\ pos t' (nolf x)).
  { intros n t c id x P K L. destruct (at_punct n t c x id P K) as (A & t' & N & _ & P'); [len|].
    eauto. }
  apply jtext_jelems_jmembers_ind.
  - apply Scalar; [constructor|reflexivity].
  - apply Scalar; [constructor|reflexivity].
  - apply Scalar; [constructor|reflexivity].
  - intros s H. apply Scalar; [now constructor|reflexivity].
  - intros t0 s H. apply Scalar; [now constructor|reflexivity].
  - (* empty array *)
    intros w W rest t n D P L. rewrite <- !app_assoc in P, L. simpl in P.
    destruct n as [|n]; [lia|].
    destruct (Open n t (chr 91) T_ARRS _ P eq_refl) as (A & t1 & N & P1); [len|].
    simpl. rewrite A, N. destruct n as [|n]; [len|].
    destruct (at_punct_ws n t1 w (chr 93) rest T_ARRE W P1 eq_refl) as (A1 & t2 & _ & E2 & P2); [len|].
    simpl. rewrite A1. simpl. rewrite E2. eauto.
  - (* array *)
    intros l u H IH rest t n D P L. rewrite <- !app_assoc in P, L. simpl in P.
    destruct n as [|n]; [lia|].
    destruct (Open n t (chr 91) T_ARRS _ P eq_refl) as (A & t1 & N & P1); [len|].
    simpl. rewrite A, N. apply IH; [exact P1|]. len.
  - (* empty object *)
    intros w W rest t n D P L. rewrite <- !app_assoc in P, L. simpl in P.
    destruct n as [|n]; [lia|].
    destruct (Open n t (chr 123) T_OBJS _ P eq_refl) as (A & t1 & N & P1); [len|].
    simpl. rewrite A, N. destruct n as [|n]; [len|].
    destruct (at_punct_ws n t1 w (chr 125) rest T_OBJE W P1 eq_refl) as (A1 & t2 & _ & E2 & P2); [len|].
    simpl. rewrite A1. simpl. rewrite E2. eauto.
  - (* object *)
    intros l u H IH rest t n D P L. rewrite <- !app_assoc in P, L. simpl in P.
    destruct n as [|n]; [lia|].
    destruct (Open n t (chr 123) T_OBJS _ P eq_refl) as (A & t1 & N & P1); [len|].
    simpl. rewrite A, N. apply IH; [exact P1|]. len.
  - (* last element *)
    intros w1 w2 j x W1 W2 H IH rest t n P L. rewrite <- !app_assoc in P, L.
    rewrite pos_ws in P by assumption.
    assert (F : follow (w2 ++ chr 93 :: rest)).
    { apply follow_ws; auto. apply follow_closer. unfold closer. rewrite code_chr. lia. }
    destruct n as [|n]; [lia|]. simpl.
    destruct (pos_first _ _ _ _ _ H (delim_follow j _ F) P) as [A _].
    rewrite A. destruct (IH _ t n (fun _ => F) P) as (t1 & E1 & P1); [len|].
    rewrite E1.
    replace (tid_eqb (fst (first_tok j)) T_ARRE) with false by (destruct j as [|[]| | | |]; reflexivity).
    destruct (at_punct_ws n t1 w2 (chr 93) rest T_ARRE W2 P1 eq_refl) as (A1 & t2 & _ & E2 & P2); [len|].
    rewrite (expect_no n t1 T_COMMA) by (rewrite A1; discriminate). rewrite E2. eauto.
  - (* more elements *)
    intros w1 w2 j x l u W1 W2 H IH H2 IH2 rest t n P L. rewrite <- !app_assoc in P, L.
    rewrite pos_ws in P by assumption.
    assert (F : follow (w2 ++ [chr 44] ++ u ++ chr 93 :: rest)).
    { apply follow_ws; auto. apply (follow_closer (chr 44)). unfold closer. rewrite code_chr. lia. }
    destruct n as [|n]; [lia|]. simpl.
    destruct (pos_first _ _ _ _ _ H (delim_follow j _ F) P) as [A _].
    rewrite A. destruct (IH _ t n (fun _ => F) P) as (t1 & E1 & P1); [len|].
    rewrite E1.
    replace (tid_eqb (fst (first_tok j)) T_ARRE) with false by (destruct j as [|[]| | | |]; reflexivity).
    destruct (at_punct_ws n t1 w2 (chr 44) (u ++ chr 93 :: rest) T_COMMA W2 P1 eq_refl)
      as (A1 & t2 & _ & E2 & P2); [len|].
    rewrite E2. apply IH2; [exact P2|]. len.
  - (* last member *)
    intros w1 w2 w3 w4 k kt j x W1 W2 W3 W4 K H IH rest t n P L. rewrite <- !app_assoc in P, L.
    rewrite pos_ws in P by assumption.
    assert (F : follow (w4 ++ chr 125 :: rest)).
    { apply follow_ws; auto. apply follow_closer. unfold closer. rewrite code_chr. lia. }
    destruct n as [|n]; [lia|]. simpl.
    rewrite nolf_app, (jstring_nolf _ _ _ K) in P.
    pose proof (lex_jstring strict kt k (nolf (w2 ++ [chr 58] ++ w3 ++ x ++ w4 ++ chr 125 :: rest)) K) as E0.
    destruct (pos_lex _ _ _ _ _ P E0) as (A0 & _).
    destruct (expect_yes n t _ _ _ _ P E0) as (t1 & E1 & P1).
    { pose proof (nolf_length (w2 ++ [chr 58] ++ w3 ++ x ++ w4 ++ chr 125 :: rest)). len. }
    rewrite A0. simpl tid_eqb. cbv iota. rewrite E1.
    destruct (at_punct_ws n t1 w2 (chr 58) _ T_COLON W2 P1 eq_refl) as (A2 & t2 & _ & E2 & P2); [len|].
    rewrite E2. rewrite pos_ws in P2 by assumption.
    destruct (IH _ t2 n (fun _ => F) P2) as (t3 & E3 & P3); [len|]. rewrite E3.
    destruct (at_punct_ws n t3 w4 (chr 125) rest T_OBJE W4 P3 eq_refl) as (A4 & t4 & _ & E4 & P4); [len|].
    rewrite (expect_no n t3 T_COMMA) by (rewrite A4; discriminate). rewrite E4. eauto.
  - (* more members *)
    intros w1 w2 w3 w4 k kt j x l u W1 W2 W3 W4 K H IH H2 IH2 rest t n P L. rewrite <- !app_assoc in P, L.
    rewrite pos_ws in P by assumption.
    assert (F : follow (w4 ++ [chr 44] ++ u ++ chr 125 :: rest)).
    { apply follow_ws; auto. apply (follow_closer (chr 44)). unfold closer. rewrite code_chr. lia. }
    destruct n as [|n]; [lia|]. simpl.
    rewrite nolf_app, (jstring_nolf _ _ _ K) in P.
    pose proof (lex_jstring strict kt k (nolf (w2 ++ [chr 58] ++ w3 ++ x ++ w4 ++ [chr 44] ++ u ++ chr 125 :: rest)) K) as E0.
    destruct (pos_lex _ _ _ _ _ P E0) as (A0 & _).
    destruct (expect_yes n t _ _ _ _ P E0) as (t1 & E1 & P1).
    { pose proof (nolf_length (w2 ++ [chr 58] ++ w3 ++ x ++ w4 ++ [chr 44] ++ u ++ chr 125 :: rest)). len. }
    rewrite A0. simpl tid_eqb. cbv iota. rewrite E1.
    destruct (at_punct_ws n t1 w2 (chr 58) _ T_COLON W2 P1 eq_refl) as (A2 & t2 & _ & E2 & P2); [len|].
    rewrite E2. rewrite pos_ws in P2 by assumption.
    destruct (IH _ t2 n (fun _ => F) P2) as (t3 & E3 & P3); [len|]. rewrite E3.
    destruct (at_punct_ws n t3 w4 (chr 44) (u ++ chr 125 :: rest) T_COMMA W4 P3 eq_refl)
      as (A4 & t4 & _ & E4 & P4); [len|].
    rewrite E4. apply IH2; [exact P4|]. len.
Qed.

(** ** Shapes *)
Definition shapes (ms : list ty) (l : list val) : Prop := Forall2 (fun t v => shape t v = true) ms l.

Lemma shape_msg ms g l : shape (TMsg ms g) (VMsg l) = true <-> shapes ms l.
Proof.
  unfold shapes. simpl. revert l. induction ms as [|t ms IH]; intros [|v l]; split; intros H;
    try constructor; try discriminate; try (inversion H; fail).
  - now apply andb_prop in H as [H _].
  - apply IH. now apply andb_prop in H as [_ H].
  - inversion H; subst. apply andb_true_intro. split; [assumption|]. now apply IH.
Qed.

Lemma lookup_ok_msg ms g : lookup_ok (TMsg ms g) <->
  (forall name, select_member g name = member_named (g_write g) name) /\ Forall lookup_ok ms.
Proof.
  simpl. split; intros [H1 H2]; (split; [exact H1|]); clear H1; induction ms as [|t ms IH].
  - constructor.
  - destruct H2 as [A B]. constructor; [exact A|]. now apply IH.
  - exact I.
  - inversion H2; subst. split; [assumption|]. now apply IH.
Qed.

Lemma pzero_pshape p : pshape p (pzero p) = true.
Proof. destruct p; reflexivity. Qed.

Lemma dflt_shape t : shape t (dflt t) = true.
Proof.
  induction t using ty_ind2; try reflexivity; try apply pzero_pshape.
  change (dflt (TMsg ms g)) with (VMsg (map dflt ms)). apply shape_msg. unfold shapes.
  induction H; simpl; constructor; auto.
Qed.

Lemma string_to_prim_shape p s : p <> PBool -> pshape p (string_to_prim p s) = true.
Proof. destruct p; intros; [reflexivity..|congruence]. Qed.

Lemma interp_prim_shape p v j : pshape p v = true -> pshape p (snd (interp_prim p v j)) = true.
Proof. destruct p, j; simpl; auto. Qed.

Lemma interp_members_shape names ms : 
  Forall (fun t => forall v j, shape t v = true -> shape t (snd (interp t v j)) = true) ms ->
  forall l vs, shapes ms vs -> shapes ms (snd (interp_members names (map interp ms) l vs)).
Proof.
  intros H l. induction l as [|[name j] l IH]; intros vs S; [exact S|].
  cbn [interp_members]. destruct (member_named names name) as [k|]; [|now apply IH].
  rewrite nth_error_map. destruct (nth_error ms k) as [t|] eqn:M; simpl; [|now apply IH].
  destruct (nth_error vs k) as [v|] eqn:V; [|now apply IH].
  assert (Sv : shape t v = true) by (destruct (Forall2_nth_error _ _ _ _ _ S M) as (y & Ey & Sy); rewrite V in Ey; now injection Ey as <-).
  assert (Sv' : shape t (snd (interp t v j)) = true).
  { rewrite Forall_forall in H. apply H; [|exact Sv]. eapply nth_error_In; eauto. }
  destruct (interp t v j) as [r v']; simpl in Sv'.
  assert (shapes ms (set_nth k v' vs)) as S' by (eapply Forall2_set_nth; eauto).
  destruct r; simpl; auto.
Qed.

Lemma interp_elems_shape t : (forall j, shape t (snd (interp t (dflt t) j)) = true) ->
  forall l acc, forallb (shape t) acc = true ->
  forallb (shape t) (snd (interp_elems (interp t (dflt t)) l acc)) = true.
Proof.
  intros H l. induction l as [|j l IH]; intros acc A; [exact A|]. simpl.
  specialize (H j). destruct (interp t (dflt t) j) as [[| |] x]; simpl in *; try exact A.
  apply IH. rewrite forallb_app. simpl. now rewrite A, H.
Qed.

Lemma interp_shape t : forall v j, shape t v = true -> shape t (snd (interp t v j)) = true.
Proof.
  induction t using ty_ind2; intros v j S.
  - destruct v; try discriminate. simpl in *.
    pose proof (interp_prim_shape p p0 j S) as Q. destruct (interp_prim p p0 j). exact Q.
  - destruct v; try discriminate. simpl in *.
    pose proof (interp_prim_shape p (pzero p) j (pzero_pshape p)) as Q.
    destruct (interp_prim p (pzero p) j) as [[| |] x]; simpl in *; auto.
  - destruct j; reflexivity.
  - destruct v; try discriminate. destruct j; reflexivity.
  - destruct v; try discriminate. destruct j; try exact S. cbn [interp].
    pose proof (interp_elems_shape t (fun j => IHt _ j (dflt_shape t)) l0 l S) as Q.
    destruct (interp_elems (interp t (dflt t)) l0 l). exact Q.
  - destruct v; try discriminate. destruct j; try exact S. cbn [interp].
    apply shape_msg in S. pose proof (interp_members_shape (g_write g) ms H l0 l S) as Q.
    destruct (interp_members (g_write g) (map interp ms) l0 l).
    now apply shape_msg.
Qed.

(** ** Reading *)
Definition conv (r : ires) : pgr :=
  match r with RGood => PGR_OK | RNull => PGR_NIL | RFail => PGR_ERROR end.

Lemma pos_error c m t x : pos t x -> pos (tk_error c m t) x.
Proof. unfold pos, tk_id. now rewrite tk_error_in, tk_error_cur. Qed.

Definition sim_to (res : rres val) (out : ires * val) (t : tokenizer) (rest : bytes) : Prop :=
  exists t', res = Some (conv (fst out), snd out, t') /\
    (fst out = RGood -> pos t' (nolf rest)) /\ (fst out = RNull -> t' = t).

Lemma read_prim_sim strict n p v j x rest t : jtext strict j x -> delim j rest ->
  pos t (nolf (x ++ rest)) -> (2 * length (x ++ rest) + 3 <= n)%nat ->
  exists t', read_prim n p t v = Some (conv (fst (interp_prim p v j)), snd (interp_prim p v j), t') /\
    (fst (interp_prim p v j) = RGood -> pos t' (nolf rest)) /\
    (fst (interp_prim p v j) = RNull -> t' = t).
Proof.
  intros H D P L. destruct (pos_first _ _ _ _ _ H D P) as [A B].
  unfold read_prim, rfail. rewrite A, B.
  destruct (composite j) eqn:C.
  { destruct j; try discriminate; destruct p; simpl; eexists; (split; [reflexivity|]); split; discriminate. }
  unfold delim in D. rewrite C in D.
  destruct (next_scalar strict j x rest t n H C D P) as (t' & N & P'); [lia|].
  destruct j as [|[]|s|s| |]; try discriminate; destruct p; simpl; rewrite ?N; eexists;
    (split; [reflexivity|]); split; first [discriminate | auto].
Qed.

Lemma conv_ok r : conv r = PGR_OK -> r = RGood.
Proof. destruct r; simpl; congruence. Qed.

Lemma read_str_sim strict n nl s j x rest t : jtext strict j x -> delim j rest ->
  pos t (nolf (x ++ rest)) -> (2 * length (x ++ rest) + 3 <= n)%nat ->
  sim_to (read n TStr t (VStr nl s)) (interp TStr (VStr nl s) j) t rest.
Proof.
  intros H D P L. destruct (pos_first _ _ _ _ _ H D P) as [A B].
  unfold sim_to. cbn [read]. unfold read_strfield, read_string, rfail.
  destruct (jtext_first _ _ _ _ H D) as (r & E & R).
  rewrite A, B. destruct j as [|[]|y|y| |]; simpl;
    try (rewrite expect_no by (rewrite A; discriminate); simpl; eexists;
         (split; [reflexivity|]); split; first [discriminate|auto]; fail).
  - eexists; (split; [reflexivity|]); split; first [discriminate|auto].
  - rewrite R in E by reflexivity. simpl in E.
    destruct (expect_yes n t _ _ _ _ P E) as (t' & E' & P').
    { pose proof (nolf_length (x ++ rest)). lia. }
    rewrite E'. simpl. eexists; (split; [reflexivity|]); split; first [discriminate|auto].
Qed.

Lemma jtext_str_nonul strict s x : jtext strict (JStr s) x -> cstr s = s.
Proof.
  inversion 1; subst. match goal with h : jstring _ _ _ |- _ => destruct h as (u & _ & J) end.
  apply cstr_id. eapply jchars_nonul; eauto.
Qed.

Lemma read_b64_sim strict n s j x rest t : jtext strict j x -> delim j rest ->
  pos t (nolf (x ++ rest)) -> (2 * length (x ++ rest) + 3 <= n)%nat ->
  sim_to (read n TB64 t (VB64 s)) (interp TB64 (VB64 s) j) t rest.
Proof.
  intros H D P L. destruct (pos_first _ _ _ _ _ H D P) as [A B].
  unfold sim_to. cbn [read]. unfold read_b64, rfail. rewrite A, B.
  destruct (composite j) eqn:C.
  { destruct j; try discriminate; simpl; eexists; (split; [reflexivity|]); split; discriminate. }
  unfold delim in D. rewrite C in D.
  destruct (next_scalar strict j x rest t n H C D P) as (t' & N & P'); [lia|].
  destruct j as [|[]|y|y| |]; try discriminate; simpl;
    try (eexists; (split; [reflexivity|]); split; first [discriminate|auto]; fail).
  rewrite N, (jtext_str_nonul _ _ _ H). destruct (b64_decode y) as [o bad].
  eexists. split; [reflexivity|]. split; [|discriminate]. intros _.
  destruct bad; [apply pos_error|]; exact P'.
Qed.

Definition P_text (strict : bool) (j : jval) (x : bytes) : Prop :=
  forall ty v, shape ty v = true -> lookup_ok ty -> forall rest t n, delim j rest ->
    pos t (nolf (x ++ rest)) -> (2 * length (x ++ rest) + 3 <= n)%nat ->
    sim_to (read n ty t v) (interp ty v j) t rest.

Definition P_elems (strict : bool) (l : list jval) (u : bytes) : Prop :=
  forall ty, lookup_ok ty -> forall acc rest t n nf,
    pos t (nolf (u ++ chr 93 :: rest)) -> (length (u ++ chr 93 :: rest) + 1 <= n)%nat ->
    (2 * length (u ++ chr 93 :: rest) + 3 <= nf)%nat ->
    let out := interp_elems (interp ty (dflt ty)) l acc in
    exists t', array_loop n nf (read nf ty) (dflt ty) t acc = Some (conv (fst out), snd out, t') /\
      (fst out = RGood -> pos t' (nolf rest)).

Definition P_members (strict : bool) (l : list (bytes * jval)) (u : bytes) : Prop :=
  forall ms g, lookup_ok (TMsg ms g) -> forall vs, shapes ms vs -> forall rest t n nf,
    pos t (nolf (u ++ chr 125 :: rest)) -> (length (u ++ chr 125 :: rest) + 1 <= n)%nat ->
    (2 * length (u ++ chr 125 :: rest) + 3 <= nf)%nat ->
    let out := interp_members (g_write g) (map interp ms) l vs in
    exists t', object_loop n nf (read_member g (map (read nf) ms)) t vs = Some (conv (fst out), snd out, t') /\
      (fst out = RGood -> pos t' (nolf rest)).

(** Reading a scalar document, at any type. *)
Lemma scalar_sim strict j x : jtext strict j x -> composite j = false -> P_text strict j x.
Proof.
  intros H C ty v S LO rest t n D P L. destruct ty as [p|p| | |ty'|ms g]; destruct v; try discriminate.
  - unfold sim_to. cbn [read interp].
    destruct (read_prim_sim strict n p p0 j x rest t H D P L) as (t' & E & A & B).
    rewrite E. destruct (interp_prim p p0 j) as [r y]. simpl in *. eauto.
  - unfold sim_to. cbn [read interp]. unfold read_fieldnum.
    destruct (read_prim_sim strict n p (pzero p) j x rest t H D P L) as (t' & E & A & B).
    rewrite E. destruct (interp_prim p (pzero p) j) as [[| |] y]; simpl in *; eauto.
  - eapply read_str_sim; eauto.
  - eapply read_b64_sim; eauto.
  - destruct (pos_first _ _ _ _ _ H D P) as [A _].
    unfold sim_to. cbn [read]. unfold read_array, rfail. rewrite A.
    destruct j as [|[]|y|y| |]; try discriminate; simpl;
      try (rewrite expect_no by (rewrite A; discriminate)); simpl; eexists;
      (split; [reflexivity|]); split; first [discriminate|auto].
  - destruct (pos_first _ _ _ _ _ H D P) as [A _].
    unfold sim_to. cbn [read]. unfold read_object, rfail. rewrite A.
    destruct j as [|[]|y|y| |]; try discriminate; simpl;
      try (rewrite expect_no by (rewrite A; discriminate)); simpl; eexists;
      (split; [reflexivity|]); split; first [discriminate|auto].
Qed.

(** The result of a container is never null. *)
Lemma interp_elems_notnull f l acc : fst (interp_elems f l acc) <> RNull.
Proof.
  revert acc. induction l as [|j l IH]; intros acc; simpl; [discriminate|].
  destruct (f j) as [[| |] x]; simpl; auto; discriminate.
Qed.

Lemma interp_members_notnull names fs l vs : fst (interp_members names fs l vs) <> RNull.
Proof.
  revert vs. induction l as [|[name j] l IH]; intros vs; simpl; [discriminate|].
  destruct (member_named names name) as [k|]; auto.
  destruct (nth_error fs k) as [f|]; auto. destruct (nth_error vs k) as [v|]; auto.
  destruct (f v j) as [[| |] x]; simpl; auto; discriminate.
Qed.

(** Reading a container at a type other than its own. *)
Lemma mismatch_sim strict j x rest t n : jtext strict j x -> composite j = true ->
  pos t (nolf (x ++ rest)) -> (2 * length (x ++ rest) + 3 <= n)%nat ->
  forall ty v, shape ty v = true ->
  (match ty, j with TRep _, JArr _ | TMsg _ _, JObj _ => False | _, _ => True end) ->
  sim_to (read n ty t v) (interp ty v j) t rest.
Proof.
  intros H C P L ty v S M.
  assert (D : delim j rest) by (unfold delim; now rewrite C).
  destruct (pos_first _ _ _ _ _ H D P) as [A _].
  destruct ty as [p|p| | |ty'|ms g]; destruct v; try discriminate.
  - unfold sim_to. cbn [read]. unfold read_prim, rfail. rewrite A.
    destruct j; try discriminate; destruct p; simpl; eexists; (split; [reflexivity|]); split; discriminate.
  - unfold sim_to. cbn [read]. unfold read_fieldnum, read_prim, rfail. rewrite A.
    destruct j; try discriminate; destruct p; simpl; eexists; (split; [reflexivity|]); split; discriminate.
  - eapply read_str_sim; eauto.
  - eapply read_b64_sim; eauto.
  - unfold sim_to. cbn [read]. unfold read_array, rfail. rewrite A.
    destruct j; try discriminate; [contradiction|]. simpl.
    rewrite expect_no by (rewrite A; discriminate). simpl.
    eexists; (split; [reflexivity|]); split; discriminate.
  - unfold sim_to. cbn [read]. unfold read_object, rfail. rewrite A.
    destruct j; try discriminate; [|contradiction]. simpl.
    rewrite expect_no by (rewrite A; discriminate). simpl.
    eexists; (split; [reflexivity|]); split; discriminate.
Qed.

Lemma array_sim strict l body : jtext strict (JArr l) ([chr 91] ++ body ++ [chr 93]) ->
  (forall ty acc rest t n, lookup_ok ty ->
     pos t (nolf (body ++ chr 93 :: rest)) -> (2 * length (body ++ chr 93 :: rest) + 5 <= n)%nat ->
     exists t', (match tk_expect n T_ARRE t return rres (list val) with
        | None => None
        | Some (true, t2) => Some (PGR_OK, acc, t2)
        | Some (false, t2) => array_loop n n (read n ty) (dflt ty) t2 acc
        end) = Some (conv (fst (interp_elems (interp ty (dflt ty)) l acc)),
                     snd (interp_elems (interp ty (dflt ty)) l acc), t') /\
       (fst (interp_elems (interp ty (dflt ty)) l acc) = RGood -> pos t' (nolf rest))) ->
  P_text strict (JArr l) ([chr 91] ++ body ++ [chr 93]).
Proof.
  intros H Body ty v S LO rest t n D P L.
  destruct ty as [p|p| | |ty'|ms g];
    try (eapply mismatch_sim; eauto; reflexivity).
  destruct v; try discriminate.
  destruct (pos_first _ _ _ _ _ H D P) as [A _].
  rewrite <- !app_assoc in P, L. cbn [app] in P, L.
  destruct (at_punct n t (chr 91) _ T_ARRS P eq_refl) as (_ & t1 & _ & E1 & P1); [len|].
  destruct (Body ty' l0 rest t1 n LO P1) as (t' & E & G); [len|].
  unfold sim_to. cbn [read interp]. unfold read_array. rewrite A. cbn [first_tok fst]. cbv iota.
  rewrite E1, E. pose proof (interp_elems_notnull (interp ty' (dflt ty')) l l0) as NN.
  destruct (interp_elems (interp ty' (dflt ty')) l l0) as [r l2]. simpl in *.
  exists t'. split; [reflexivity|]. split; [exact G|]. intros ->. contradiction.
Qed.

Lemma object_sim strict l body : jtext strict (JObj l) ([chr 123] ++ body ++ [chr 125]) ->
  (forall ms g vs rest t n, lookup_ok (TMsg ms g) -> shapes ms vs ->
     pos t (nolf (body ++ chr 125 :: rest)) -> (2 * length (body ++ chr 125 :: rest) + 5 <= n)%nat ->
     let out := interp_members (g_write g) (map interp ms) l vs in
     exists t', (match tk_expect n T_OBJE t return rres (list val) with
        | None => None
        | Some (true, t2) => Some (PGR_OK, vs, t2)
        | Some (false, t2) => object_loop n n (read_member g (map (read n) ms)) t2 vs
        end) = Some (conv (fst out), snd out, t') /\
       (fst out = RGood -> pos t' (nolf rest))) ->
  P_text strict (JObj l) ([chr 123] ++ body ++ [chr 125]).
Proof.
  intros H Body ty v S LO rest t n D P L.
  destruct ty as [p|p| | |ty'|ms g];
    try (eapply mismatch_sim; eauto; reflexivity).
  destruct v; try discriminate.
  destruct (pos_first _ _ _ _ _ H D P) as [A _].
  rewrite <- !app_assoc in P, L. cbn [app] in P, L.
  destruct (at_punct n t (chr 123) _ T_OBJS P eq_refl) as (_ & t1 & _ & E1 & P1); [len|].
  apply shape_msg in S.
  destruct (Body ms g l0 rest t1 n LO S P1) as (t' & E & G); [len|].
  unfold sim_to. cbn [read interp]. unfold read_object. rewrite A. cbn [first_tok fst]. cbv iota.
  rewrite E1, E. pose proof (interp_members_notnull (g_write g) (map interp ms) l l0) as NN.
  destruct (interp_members (g_write g) (map interp ms) l l0) as [r l2]. simpl in *.
  exists t'. split; [reflexivity|]. split; [exact G|]. intros ->. contradiction.
Qed.

(** One member. *)
Lemma member_sim strict j x ms g : jtext strict j x -> P_text strict j x -> lookup_ok (TMsg ms g) ->
  forall name vs rest t n, shapes ms vs -> follow rest ->
  pos t (nolf (x ++ rest)) -> (2 * length (x ++ rest) + 3 <= n)%nat ->
  (exists vs' t', match read_member g (map (read n) ms) name t vs with
        | None => None
        | Some (PGR_ERROR, vs1, t3) => Some (PGR_ERROR, vs1, t3)
        | Some (r, vs1, t3) =>
            match (match r with PGR_OK => Some (PGR_OK, t3) | _ => ignore_value n t3 end) with
            | None => None
            | Some (s, t4) => Some (s, vs1, t4)
            end
      end = Some (PGR_OK, vs', t') /\ pos t' (nolf rest) /\ shapes ms vs' /\
      forall l, interp_members (g_write g) (map interp ms) ((name, j) :: l) vs
                = interp_members (g_write g) (map interp ms) l vs') \/
  (exists vs' t', read_member g (map (read n) ms) name t vs = Some (PGR_ERROR, vs', t') /\
      forall l, interp_members (g_write g) (map interp ms) ((name, j) :: l) vs = (RFail, vs')).
Proof.
  intros H IH LO name vs rest t n S F P L. apply lookup_ok_msg in LO as [LO LM].
  unfold read_member. rewrite LO. cbn [interp_members].
  destruct (ignore_sim strict) as [IG _].
  destruct (IG j x H rest t n (fun _ => F) P) as (ti & Ei & Pi); [lia|].
  destruct (member_named (g_write g) name) as [k|].
  2:{ left. exists vs, ti. rewrite Ei. eauto. }
  rewrite !nth_error_map. destruct (nth_error ms k) as [ty|] eqn:M; simpl.
  2:{ left. exists vs, ti. rewrite Ei. eauto. }
  destruct (nth_error vs k) as [v|] eqn:V.
  2:{ left. exists vs, ti. rewrite Ei. eauto. }
  assert (Sv : shape ty v = true) by (destruct (Forall2_nth_error _ _ _ _ _ S M) as (y & Ey & Sy); rewrite V in Ey; now injection Ey as <-).
  assert (LOt : lookup_ok ty).
  { rewrite Forall_forall in LM. apply LM. eapply nth_error_In; eauto. }
  pose proof (interp_shape ty v j Sv) as Sv'.
  destruct (IH ty v Sv LOt rest t n (delim_follow _ _ F) P L) as (t' & E & G & N).
  rewrite E. destruct (interp ty v j) as [[| |] v']; simpl in *.
  - left. exists (set_nth k v' vs), t'. split; [reflexivity|]. split; [auto|]. split; [|reflexivity]. eapply Forall2_set_nth; eauto.
  - left. rewrite N by reflexivity. exists (set_nth k v' vs), ti. rewrite Ei.
    split; [reflexivity|]. split; [auto|]. split; [|reflexivity]. eapply Forall2_set_nth; eauto.
  - right. eexists _, _. split; [reflexivity|]. reflexivity.
Qed.

Lemma read_sim strict :
  (forall j x, jtext strict j x -> jtext strict j x /\ P_text strict j x) /\
  (forall l u, jelems strict l u -> jelems strict l u /\ P_elems strict l u) /\
  (forall l u, jmembers strict l u -> jmembers strict l u /\ P_members strict l u).
Proof.
  apply jtext_jelems_jmembers_ind.
  - split; [constructor|]. apply scalar_sim; [constructor|reflexivity].
  - split; [constructor|]. apply scalar_sim; [constructor|reflexivity].
  - split; [constructor|]. apply scalar_sim; [constructor|reflexivity].
  - intros s H. split; [now constructor|]. apply scalar_sim; [now constructor|reflexivity].
  - intros t0 s H. split; [now constructor|]. apply scalar_sim; [now constructor|reflexivity].
  - intros w W. assert (J := jt_arr0 strict w W). split; [exact J|]. apply array_sim; [exact J|].
    intros ty acc rest t n LO P L.
    destruct (at_punct_ws n t w (chr 93) rest T_ARRE W P eq_refl) as (A1 & t2 & _ & E2 & P2); [len|].
    rewrite E2. simpl. eauto.
  - intros l u H [_ IH]. assert (J := jt_arr strict l u H). split; [exact J|]. apply array_sim; [exact J|].
    intros ty acc rest t n LO P L.
    assert (tk_id t <> T_ARRE) as NA.
    { destruct H; rewrite <- !app_assoc in P; rewrite pos_ws in P by assumption.
      - assert (F : follow (w2 ++ chr 93 :: rest)).
        { apply follow_ws; auto. apply follow_closer. unfold closer. rewrite code_chr. lia. }
        destruct (pos_first _ _ _ _ _ H1 (delim_follow j _ F) P) as [-> _].
        destruct j as [|[]| | | |]; discriminate.
      - assert (F : follow (w2 ++ [chr 44] ++ u ++ chr 93 :: rest)).
        { apply follow_ws; auto. apply (follow_closer (chr 44)). unfold closer. rewrite code_chr. lia. }
        destruct (pos_first _ _ _ _ _ H1 (delim_follow j _ F) P) as [-> _].
        destruct j as [|[]| | | |]; discriminate. }
    rewrite expect_no by exact NA. apply IH; auto; lia.
  - intros w W. assert (J := jt_obj0 strict w W). split; [exact J|]. apply object_sim; [exact J|].
    intros ms g vs rest t n LO SH P L.
    destruct (at_punct_ws n t w (chr 125) rest T_OBJE W P eq_refl) as (A1 & t2 & _ & E2 & P2); [len|].
    rewrite E2. simpl. eauto.
  - intros l u H [_ IH]. assert (J := jt_obj strict l u H). split; [exact J|]. apply object_sim; [exact J|].
    intros ms g vs rest t n LO SH P L.
    assert (tk_id t <> T_OBJE) as NA.
    { assert (exists w k kt r, u = w ++ kt ++ r /\ ws w /\ jstring strict kt k) as (w & k & kt & r & -> & W & K).
      { destruct H; (eexists _, _, _, _; split; [reflexivity|split; eassumption]). }
      rewrite <- !app_assoc in P. rewrite pos_ws in P by assumption.
      rewrite nolf_app, (jstring_nolf _ _ _ K) in P.
      destruct (pos_lex _ _ _ _ _ P (lex_jstring strict kt k _ K)) as (-> & _). discriminate. }
    rewrite expect_no by exact NA. apply IH; auto; lia.
  - (* last element *)
    intros w1 w2 j x W1 W2 H [_ IH]. split; [now constructor|].
    intros ty LO acc rest t n nf P L Lf. rewrite <- !app_assoc in P, L, Lf.
    rewrite pos_ws in P by assumption.
    assert (F : follow (w2 ++ chr 93 :: rest)).
    { apply follow_ws; auto. apply follow_closer. unfold closer. rewrite code_chr. lia. }
    destruct n as [|n]; [lia|]. simpl.
    destruct (IH ty (dflt ty) (dflt_shape ty) LO _ t nf (delim_follow j _ F) P) as (t1 & E1 & G1 & N1); [len|].
    rewrite E1. destruct (pos_first _ _ _ _ _ H (delim_follow j _ F) P) as [A _].
    destruct (interp ty (dflt ty) j) as [[| |] v]; simpl in *.
    + specialize (G1 eq_refl).
      destruct (at_punct_ws nf t1 w2 (chr 93) rest T_ARRE W2 G1 eq_refl) as (A2 & t2 & _ & E2 & P2); [len|].
      rewrite expect_no by (rewrite A2; discriminate). rewrite E2. eauto.
    + rewrite N1 by reflexivity.
      rewrite expect_no by (rewrite A; destruct j as [|[]| | | |]; discriminate).
      rewrite expect_no by (rewrite A; destruct j as [|[]| | | |]; discriminate).
      eexists. split; [reflexivity|discriminate].
    + eexists. split; [reflexivity|discriminate].
  - (* more elements *)
    intros w1 w2 j x l u W1 W2 H [_ IH] H2 [_ IH2]. split; [now constructor|].
    intros ty LO acc rest t n nf P L Lf. rewrite <- !app_assoc in P, L, Lf.
    rewrite pos_ws in P by assumption.
    assert (F : follow (w2 ++ [chr 44] ++ u ++ chr 93 :: rest)).
    { apply follow_ws; auto. apply (follow_closer (chr 44)). unfold closer. rewrite code_chr. lia. }
    destruct n as [|n]; [lia|]. simpl.
    destruct (IH ty (dflt ty) (dflt_shape ty) LO _ t nf (delim_follow j _ F) P) as (t1 & E1 & G1 & N1); [len|].
    rewrite E1. destruct (pos_first _ _ _ _ _ H (delim_follow j _ F) P) as [A _].
    destruct (interp ty (dflt ty) j) as [[| |] v]; simpl in *.
    + specialize (G1 eq_refl).
      destruct (at_punct_ws nf t1 w2 (chr 44) _ T_COMMA W2 G1 eq_refl) as (A2 & t2 & _ & E2 & P2); [len|].
      rewrite E2. apply IH2; auto; len.
    + rewrite N1 by reflexivity.
      rewrite expect_no by (rewrite A; destruct j as [|[]| | | |]; discriminate).
      rewrite expect_no by (rewrite A; destruct j as [|[]| | | |]; discriminate).
      eexists. split; [reflexivity|discriminate].
    + eexists. split; [reflexivity|discriminate].
  - (* last member *)
    intros w1 w2 w3 w4 k kt j x W1 W2 W3 W4 K H [_ IH]. split; [now constructor|].
    intros ms g LO vs SH rest t n nf P L Lf. rewrite <- !app_assoc in P, L, Lf.
    rewrite pos_ws in P by assumption.
    assert (F : follow (w4 ++ chr 125 :: rest)).
    { apply follow_ws; auto. apply follow_closer. unfold closer. rewrite code_chr. lia. }
    destruct n as [|n]; [lia|]. cbn [object_loop].
    rewrite nolf_app, (jstring_nolf _ _ _ K) in P.
    pose proof (lex_jstring strict kt k (nolf (w2 ++ [chr 58] ++ w3 ++ x ++ w4 ++ chr 125 :: rest)) K) as E0.
    destruct (pos_lex _ _ _ _ _ P E0) as (A0 & V0 & _).
    destruct (expect_yes nf t _ _ _ _ P E0) as (t1 & E1 & P1).
    { pose proof (nolf_length (w2 ++ [chr 58] ++ w3 ++ x ++ w4 ++ chr 125 :: rest)). len. }
    rewrite V0, E1.
    destruct (at_punct_ws nf t1 w2 (chr 58) _ T_COLON W2 P1 eq_refl) as (A2 & t2 & _ & E2 & P2); [len|].
    rewrite E2. rewrite pos_ws in P2 by assumption.
    destruct (member_sim strict j x ms g H IH LO k vs _ t2 nf SH F P2) as
        [(vs' & t3 & E3 & P3 & SH3 & I3)|(vs' & t3 & E3 & I3)]; [len| |].
    + rewrite I3. cbn [interp_members fst snd conv].
      destruct (read_member g (map (read nf) ms) k t2 vs) as [[[[| |] vs1] ta]|]; try discriminate.
      * injection E3 as -> ->.
        destruct (at_punct_ws nf t3 w4 (chr 125) rest T_OBJE W4 P3 eq_refl) as (A4 & t4 & _ & E4 & P4); [len|].
        rewrite expect_no by (rewrite A4; discriminate). rewrite E4. eauto.
      * destruct (ignore_value nf ta) as [[s tb]|]; [|discriminate]. injection E3 as -> -> ->.
        destruct (at_punct_ws nf t3 w4 (chr 125) rest T_OBJE W4 P3 eq_refl) as (A4 & t4 & _ & E4 & P4); [len|].
        rewrite expect_no by (rewrite A4; discriminate). rewrite E4. eauto.
    + rewrite I3, E3. simpl. eexists. split; [reflexivity|discriminate].
  - (* more members *)
    intros w1 w2 w3 w4 k kt j x l u W1 W2 W3 W4 K H [_ IH] H2 [_ IH2]. split; [now constructor|].
    intros ms g LO vs SH rest t n nf P L Lf. rewrite <- !app_assoc in P, L, Lf.
    rewrite pos_ws in P by assumption.
    assert (F : follow (w4 ++ [chr 44] ++ u ++ chr 125 :: rest)).
    { apply follow_ws; auto. apply (follow_closer (chr 44)). unfold closer. rewrite code_chr. lia. }
    destruct n as [|n]; [lia|]. cbn [object_loop].
    rewrite nolf_app, (jstring_nolf _ _ _ K) in P.
    pose proof (lex_jstring strict kt k (nolf (w2 ++ [chr 58] ++ w3 ++ x ++ w4 ++ [chr 44] ++ u ++ chr 125 :: rest)) K) as E0.
    destruct (pos_lex _ _ _ _ _ P E0) as (A0 & V0 & _).
    destruct (expect_yes nf t _ _ _ _ P E0) as (t1 & E1 & P1).
    { pose proof (nolf_length (w2 ++ [chr 58] ++ w3 ++ x ++ w4 ++ [chr 44] ++ u ++ chr 125 :: rest)). len. }
    rewrite V0, E1.
    destruct (at_punct_ws nf t1 w2 (chr 58) _ T_COLON W2 P1 eq_refl) as (A2 & t2 & _ & E2 & P2); [len|].
    rewrite E2. rewrite pos_ws in P2 by assumption.
    destruct (member_sim strict j x ms g H IH LO k vs _ t2 nf SH F P2) as
        [(vs' & t3 & E3 & P3 & SH3 & I3)|(vs' & t3 & E3 & I3)]; [len| |].
    + rewrite I3.
      destruct (read_member g (map (read nf) ms) k t2 vs) as [[[[| |] vs1] ta]|]; try discriminate.
      * injection E3 as -> ->.
        destruct (at_punct_ws nf t3 w4 (chr 44) _ T_COMMA W4 P3 eq_refl) as (A4 & t4 & _ & E4 & P4); [len|].
        rewrite E4. apply IH2; auto; len.
      * destruct (ignore_value nf ta) as [[s tb]|]; [|discriminate]. injection E3 as -> -> ->.
        destruct (at_punct_ws nf t3 w4 (chr 44) _ T_COMMA W4 P3 eq_refl) as (A4 & t4 & _ & E4 & P4); [len|].
        rewrite E4. apply IH2; auto; len.
    + rewrite I3, E3. simpl. eexists. split; [reflexivity|discriminate].
Qed.

(** ** Whole documents *)
Lemma ws_sep w : ws w -> sep w.
Proof.
  intros W. unfold sep. unfold ws in W. induction w as [|c w IH]; [split; exact I|].
  cbn [forallb] in W. apply andb_prop in W as [C W]. cbn [nolf filter].
  destruct (not_lf c); [|now apply IH]. simpl. unfold ws_char in C.
  unfold is_num_c, is_alpha_c, is_num_z, is_alpha_z, schar.
  pose proof (code_range c). destruct (Z.ltb_spec (code c) 128); lia.
Qed.

Lemma tk_make_pos n inp e : (2 * length inp + 3 <= n)%nat ->
  exists t, tk_make n (mk_istream inp) e = Some t /\ pos t (nolf inp).
Proof.
  intros L. unfold tk_make. destruct (mk_istream_spec inp) as [W V].
  set (t0' := TK (Tok T_NONE [] 0 0) (mk_istream inp) e).
  pose proof (nolf_length inp).
  assert (LL : left_len t0' = length (nolf inp)) by (unfold left_len; simpl; now rewrite V).
  destruct (tk_next_spec n t0' W) as (t & -> & P & _); [lia|].
  exists t. split; [reflexivity|]. simpl in P. now rewrite V in P.
Qed.

Definition good (r : ires) : bool := match r with RGood => true | _ => false end.

Lemma deserialize_interp strict ty v j inp po : jdoc strict j inp ->
  shape ty v = true -> lookup_ok ty ->
  exists po', deserialize ty v inp po = Some (good (fst (interp ty v j)), snd (interp ty v j), po').
Proof.
  intros (w1 & w2 & x & -> & W1 & W2 & J) S LO. unfold deserialize, deserialize_fuel.
  assert (LN : (2 * length (w1 ++ x ++ w2) + 3 <= fuel_for (w1 ++ x ++ w2))%nat) by (unfold fuel_for; lia).
  set (n := fuel_for (w1 ++ x ++ w2)) in *. clearbody n.
  destruct (tk_make_pos n (w1 ++ x ++ w2) (p_err (ctx_params po))) as (t & -> & P); [lia|].
  rewrite pos_ws in P by assumption.
  destruct (read_sim strict) as [RS _]. destruct (RS j x J) as [_ R].
  destruct (R ty v S LO w2 t n) as (t' & E & _ & _); [|exact P|len|].
  { unfold delim. destruct (composite j); auto using ws_sep. }
  rewrite E. destruct (interp ty v j) as [[| |] v']; simpl; eauto.
Qed.

(** Composite documents may be followed by anything. *)
Lemma deserialize_interp_tail strict ty v j x w1 tail po : ws w1 -> jtext strict j x ->
  composite j = true -> shape ty v = true -> lookup_ok ty ->
  exists po', deserialize ty v (w1 ++ x ++ tail) po
              = Some (good (fst (interp ty v j)), snd (interp ty v j), po').
Proof.
  intros W1 J C S LO. unfold deserialize, deserialize_fuel.
  assert (LN : (2 * length (w1 ++ x ++ tail) + 3 <= fuel_for (w1 ++ x ++ tail))%nat) by (unfold fuel_for; lia).
  set (n := fuel_for (w1 ++ x ++ tail)) in *. clearbody n.
  destruct (tk_make_pos n (w1 ++ x ++ tail) (p_err (ctx_params po))) as (t & -> & P); [lia|].
  rewrite pos_ws in P by assumption.
  destruct (read_sim strict) as [RS _]. destruct (RS j x J) as [_ R].
  destruct (R ty v S LO tail t n) as (t' & E & _ & _); [|exact P|len|].
  { unfold delim. now rewrite C. }
  rewrite E. destruct (interp ty v j) as [[| |] v']; simpl; eauto.
Qed.
