(** Reading documents that are wrong inside a known member. *)
From Verif Require Import Bytes BaseProofs Num Dbl Types Stream Tokenizer Write Read LexView LexJson Termination
  SpecJson SpecInterp SpecErr SpecRange ReadSim ApiProofs SpecBad InterpProofs.

Local Open Scope nat_scope.

(** The first token of the text does not close a bracket or brace. *)
Definition opens (x : bytes) : Prop :=
  forall id v r, lex (nolf x) = Some (id, v, r) -> id <> T_ARRE /\ id <> T_OBJE.

Lemma opens_pos x t : opens x -> pos t (nolf x) -> tk_id t <> T_ARRE /\ tk_id t <> T_OBJE.
Proof.
  intros O [_ P]. unfold opens in O. destruct (lex (nolf x)) as [[[id v] r]|].
  - destruct P as (-> & _). eapply O; reflexivity.
  - rewrite P. split; discriminate.
Qed.

Lemma opens_ws w x : ws w -> opens x -> opens (w ++ x).
Proof. intros W O id v r. rewrite lex_ws by assumption. apply O. Qed.

(** ** Reading fails on [x] *)
Definition fails (ty0 : ty) (x : bytes) : Prop :=
  opens x /\ forall v, shape ty0 v = true -> lookup_ok ty0 -> forall t n,
    pos t (nolf x) -> 2 * length x + 3 <= n -> exists v' t', read n ty0 t v = Some (PGR_ERROR, v', t').

Definition arr_fails (ty0 : ty) (x : bytes) : Prop :=
  lookup_ok ty0 -> forall acc t n nf, pos t (nolf x) -> length x + 1 <= n -> 2 * length x + 3 <= nf ->
    exists v' t', array_loop n nf (read nf ty0) (dflt ty0) t acc = Some (PGR_ERROR, v', t').

Definition obj_fails (ms : list ty) (g : gencode) (x : bytes) : Prop :=
  lookup_ok (TMsg ms g) -> forall vs, shapes ms vs -> forall t n nf,
    pos t (nolf x) -> length x + 1 <= n -> 2 * length x + 3 <= nf ->
    exists v' t', object_loop n nf (read_member g (map (read nf) ms)) t vs = Some (PGR_ERROR, v', t').

Lemma jtext_opens strict j x rest : jtext strict j x -> delim j rest -> opens (x ++ rest).
Proof.
  intros J D id v r E. destruct (jtext_first strict j x rest J D) as (r' & E' & _).
  rewrite E' in E. injection E as <- _ _. destruct j as [|[]| | | |]; simpl; split; discriminate.
Qed.

Lemma comma_follow w x : ws w -> follow (w ++ [chr 44] ++ x).
Proof.
  intros W. apply follow_ws; auto. apply (follow_closer (chr 44)). unfold closer. rewrite code_chr. lia.
Qed.

Lemma elems_opens strict u x : elems_prefix strict u -> u <> [] -> opens (u ++ x).
Proof.
  intros [|w1 w2 j t u' W1 W2 J E] N; [congruence|]. rewrite <- !app_assoc. apply opens_ws; [exact W1|].
  eapply jtext_opens; [exact J|]. apply delim_follow. apply comma_follow. exact W2.
Qed.

Lemma string_opens strict kt k x : jstring strict kt k -> opens (kt ++ x).
Proof.
  intros K id v r E. rewrite nolf_app, (jstring_nolf _ _ _ K), (lex_jstring strict kt k _ K) in E.
  injection E as <- _ _. split; discriminate.
Qed.

(** ** After a prefix of elements *)
Lemma arr_prefix strict u x ty0 : elems_prefix strict u -> arr_fails ty0 x -> arr_fails ty0 (u ++ x).
Proof.
  intros E F. induction E as [|w1 w2 j y u W1 W2 H E IH]; [exact F|].
  intros LO acc t n nf P L Lf. rewrite <- !app_assoc in P, L, Lf.
  rewrite pos_ws in P by assumption. pose proof (comma_follow w2 (u ++ x) W2) as Fo.
  destruct n as [|n]; [lia|]. simpl.
  destruct (proj1 (read_sim strict) j y H) as [_ R].
  destruct (R ty0 (dflt ty0) (dflt_shape ty0) LO _ t nf (delim_follow j _ Fo) P) as (t1 & E1 & G1 & N1); [len|].
  rewrite E1. destruct (pos_first _ _ _ _ _ H (delim_follow j _ Fo) P) as [A _].
  destruct (interp ty0 (dflt ty0) j) as [[| |] v]; simpl in *.
  - specialize (G1 eq_refl).
    destruct (at_punct_ws nf t1 w2 (chr 44) _ T_COMMA W2 G1 eq_refl) as (A2 & t2 & _ & E2 & P2); [len|].
    rewrite E2. apply IH; auto; len.
  - rewrite N1 by reflexivity.
    rewrite expect_no by (rewrite A; destruct j as [|[]| | | |]; discriminate).
    rewrite expect_no by (rewrite A; destruct j as [|[]| | | |]; discriminate).
    eexists _, _. reflexivity.
  - eexists _, _. reflexivity.
Qed.

(** ** After a prefix of members *)
Lemma obj_prefix strict ms g l u x : members_prefix strict l u -> lookup_ok (TMsg ms g) ->
  forall vs, shapes ms vs -> forall t n nf,
  pos t (nolf (u ++ x)) -> length (u ++ x) + 1 <= n -> 2 * length (u ++ x) + 3 <= nf ->
  let out := interp_members (g_write g) (map interp ms) l vs in
  let loop n t vs := object_loop n nf (read_member g (map (read nf) ms)) t vs in
  (fst out = RFail /\ exists t', loop n t vs = Some (PGR_ERROR, snd out, t')) \/
  (fst out = RGood /\ exists t' n', loop n t vs = loop n' t' (snd out) /\
     pos t' (nolf x) /\ length x + 1 <= n' /\ shapes ms (snd out)).
Proof.
  intros M LO. induction M as [|w1 w2 w3 w4 k kt j y l u W1 W2 W3 W4 K H M IH]; intros vs SH t n nf P L Lf.
  { right. simpl. eauto 10. }
  rewrite <- !app_assoc in P, L, Lf. rewrite pos_ws in P by assumption.
  pose proof (comma_follow w4 (u ++ x) W4) as F.
  destruct n as [|n]; [lia|]. cbn zeta. cbn [object_loop].
  rewrite nolf_app, (jstring_nolf _ _ _ K) in P.
  pose proof (lex_jstring strict kt k (nolf (w2 ++ [chr 58] ++ w3 ++ y ++ w4 ++ [chr 44] ++ u ++ x)) K) as E0.
  destruct (pos_lex _ _ _ _ _ P E0) as (A0 & V0 & _).
  destruct (expect_yes nf t _ _ _ _ P E0) as (t1 & E1 & P1).
  { pose proof (nolf_length (w2 ++ [chr 58] ++ w3 ++ y ++ w4 ++ [chr 44] ++ u ++ x)). len. }
  rewrite V0, E1.
  destruct (at_punct_ws nf t1 w2 (chr 58) _ T_COLON W2 P1 eq_refl) as (A2 & t2 & _ & E2 & P2); [len|].
  rewrite E2. rewrite pos_ws in P2 by assumption.
  destruct (proj1 (read_sim strict) j y H) as [_ R].
  destruct (member_sim strict j y ms g H R LO k vs _ t2 nf SH F P2) as
      [(vs' & t3 & E3 & P3 & SH3 & I3)|(vs' & t3 & E3 & I3)]; [len| |].
  - rewrite I3.
    destruct (at_punct_ws nf t3 w4 (chr 44) _ T_COMMA W4 P3 eq_refl) as (A4 & t4 & _ & E4 & P4); [len|].
    destruct (read_member g (map (read nf) ms) k t2 vs) as [[[[| |] vs1] ta]|]; try discriminate.
    + injection E3 as -> ->. rewrite E4. apply IH; auto; len.
    + destruct (ignore_value nf ta) as [[s tb]|]; [|discriminate]. injection E3 as -> -> ->.
      rewrite E4. apply IH; auto; len.
  - rewrite I3, E3. simpl. left. eauto.
Qed.

Lemma obj_prefix_fails strict ms g l u x : members_prefix strict l u -> obj_fails ms g x -> obj_fails ms g (u ++ x).
Proof.
  intros M F LO vs SH t n nf P L Lf.
  destruct (obj_prefix strict ms g l u x M LO vs SH t n nf P L Lf) as [(_ & t' & E)|(_ & t' & n' & E & P' & L' & S')];
    cbn zeta in E; rewrite E; [eauto|]. apply F; auto. rewrite app_length in Lf. lia.
Qed.

(** ** Bases *)
Lemma read_closer n ty0 t v : tk_id t = T_ARRE \/ tk_id t = T_OBJE -> shape ty0 v = true ->
  exists v' t', read n ty0 t v = Some (PGR_ERROR, v', t').
Proof.
  intros H S. destruct ty0, v; try discriminate S; cbn [read];
    unfold read_prim, read_fieldnum, read_prim, read_strfield, read_string, read_b64, read_array, read_object, tk_expect, rfail;
    destruct H as [-> | ->]; try (destruct p); simpl; eexists _, _; reflexivity.
Qed.

Lemma arr_closer ty0 w rest : ws w -> arr_fails ty0 (w ++ [chr 93] ++ rest).
Proof.
  intros W LO acc t n nf P L Lf.
  destruct (at_punct_ws nf t w (chr 93) rest T_ARRE W P eq_refl) as (A & _); [len|].
  destruct n as [|n]; [lia|]. simpl.
  destruct (read_closer nf ty0 t (dflt ty0) (or_introl A) (dflt_shape ty0)) as (v' & t' & ->). eauto.
Qed.

Lemma obj_closer ms g w rest : ws w -> obj_fails ms g (w ++ [chr 125] ++ rest).
Proof.
  intros W LO vs SH t n nf P L Lf.
  destruct (at_punct_ws nf t w (chr 125) rest T_OBJE W P eq_refl) as (A & _); [len|].
  destruct n as [|n]; [lia|]. cbn [object_loop]. rewrite expect_no by (rewrite A; discriminate). unfold rfail. eauto.
Qed.

Lemma arr_elem ty0 w x : ws w -> fails ty0 x -> arr_fails ty0 (w ++ x).
Proof.
  intros W [_ F] LO acc t n nf P L Lf. rewrite pos_ws in P by assumption.
  destruct n as [|n]; [lia|]. simpl.
  destruct (F (dflt ty0) (dflt_shape ty0) LO t nf P) as (v' & t' & ->); [len|]. eauto.
Qed.

Lemma obj_member strict ms g w1 w2 w3 name kt k ty0 x : ws w1 -> ws w2 -> ws w3 ->
  jstring strict kt name -> member_named (g_write g) name = Some k -> nth_error ms k = Some ty0 ->
  fails ty0 x -> obj_fails ms g (w1 ++ kt ++ w2 ++ [chr 58] ++ w3 ++ x).
Proof.
  intros W1 W2 W3 K M N [_ F] LO vs SH t n nf P L Lf. rewrite pos_ws in P by assumption.
  destruct n as [|n]; [lia|]. cbn [object_loop].
  rewrite nolf_app, (jstring_nolf _ _ _ K) in P.
  pose proof (lex_jstring strict kt name (nolf (w2 ++ [chr 58] ++ w3 ++ x)) K) as E0.
  destruct (pos_lex _ _ _ _ _ P E0) as (A0 & V0 & _).
  destruct (expect_yes nf t _ _ _ _ P E0) as (t1 & E1 & P1).
  { pose proof (nolf_length (w2 ++ [chr 58] ++ w3 ++ x)). len. }
  rewrite V0, E1.
  destruct (at_punct_ws nf t1 w2 (chr 58) _ T_COLON W2 P1 eq_refl) as (A2 & t2 & _ & E2 & P2); [len|].
  rewrite E2. rewrite pos_ws in P2 by assumption.
  apply lookup_ok_msg in LO as [LO LM]. unfold read_member. rewrite LO, M, nth_error_map, N. simpl.
  destruct (Forall2_nth_error _ _ _ _ _ SH N) as (v & -> & Sv).
  assert (LOt : lookup_ok ty0) by (rewrite Forall_forall in LM; apply LM; eapply nth_error_In; eauto).
  destruct (F v Sv LOt t2 nf P2) as (v' & t' & ->); [len|]. eauto.
Qed.

(** ** Enclosing *)
Lemma punct_opens c id x : punct (schar c) = Some id -> id <> T_ARRE -> id <> T_OBJE -> opens (c :: x).
Proof. intros K A B i v r E. rewrite (lex_punct c id x K) in E. injection E as <- _ _. auto. Qed.

Lemma fails_array ty0 x : opens x -> arr_fails ty0 x -> fails (TRep ty0) ([chr 91] ++ x).
Proof.
  intros O F. split; [apply (punct_opens _ T_ARRS); [reflexivity|discriminate..]|].
  intros v S LO t n P L. destruct v; try discriminate S. simpl app in P, L.
  destruct (at_punct n t (chr 91) x T_ARRS P eq_refl) as (A & t1 & _ & E1 & P1); [len|].
  cbn [read]. unfold read_array. rewrite A, E1.
  destruct (opens_pos _ _ O P1) as [NA _]. rewrite expect_no by exact NA.
  destruct (F LO l t1 n n P1) as (v' & t' & ->); [len..|]. simpl. eauto.
Qed.

Lemma fails_object ms g x : opens x -> obj_fails ms g x -> fails (TMsg ms g) ([chr 123] ++ x).
Proof.
  intros O F. split; [apply (punct_opens _ T_OBJS); [reflexivity|discriminate..]|].
  intros v S LO t n P L. destruct v; try discriminate S. simpl app in P, L.
  destruct (at_punct n t (chr 123) x T_OBJS P eq_refl) as (A & t1 & _ & E1 & P1); [len|].
  cbn [read]. unfold read_object. rewrite A, E1.
  destruct (opens_pos _ _ O P1) as [_ NA]. rewrite expect_no by exact NA.
  apply (proj1 (shape_msg _ _ _)) in S.
  destruct (F LO l S t1 n n P1) as (v' & t' & ->); [len..|]. simpl. eauto.
Qed.

Lemma prefix_opens strict l u x : members_prefix strict l u -> (l <> [] \/ opens x) -> opens (u ++ x).
Proof.
  intros [|w1 w2 w3 w4 k kt j t l' u' W1 W2 W3 W4 K J E] N; [destruct N; [congruence|assumption]|].
  rewrite <- !app_assoc. apply opens_ws; [exact W1|]. eapply string_opens. exact K.
Qed.

Lemma bad_fails strict (B : ty -> bytes -> Prop) : (forall t x, B t x -> fails t x) ->
  forall t x, bad_at strict B t x -> fails t x.
Proof.
  intros HB t x H. induction H as [t x H|t u w x E W H IH|ms g l u w1 w2 w3 name kt k t x M W1 W2 W3 K N T H IH].
  - auto.
  - apply fails_array.
    + destruct u as [|c u]; [|apply elems_opens with (strict := strict); [exact E|discriminate]].
      exact (opens_ws w x W (proj1 IH)).
    + apply arr_prefix with (strict := strict); [exact E|]. now apply arr_elem.
  - apply fails_object.
    + eapply prefix_opens; [exact M|]. right. apply opens_ws; [exact W1|]. eapply string_opens; exact K.
    + eapply obj_prefix_fails; [exact M|]. eapply obj_member; eauto.
Qed.

Lemma trailing_fails strict t x : trailing_comma strict t x -> fails t x.
Proof.
  intros [t' u w rest E N W|ms g l u w rest M N W].
  - apply fails_array; [eapply elems_opens; eauto|]. eapply arr_prefix; [exact E|]. now apply arr_closer.
  - apply fails_object; [eapply prefix_opens; eauto|]. eapply obj_prefix_fails; [exact M|]. now apply obj_closer.
Qed.

Lemma deserialize_fails ty0 v w x po : fails ty0 x -> ws w -> shape ty0 v = true -> lookup_ok ty0 ->
  exists v' po', deserialize ty0 v (w ++ x) po = Some (false, v', po').
Proof.
  intros [_ F] W S LO. unfold deserialize, deserialize_fuel.
  assert (LN : 2 * length (w ++ x) + 3 <= fuel_for (w ++ x)) by (unfold fuel_for; lia).
  set (n := fuel_for (w ++ x)) in *. clearbody n.
  destruct (tk_make_pos n (w ++ x) (p_err (ctx_params po))) as (t & -> & P); [lia|].
  rewrite pos_ws in P by assumption.
  destruct (F v S LO t n P) as (v' & t' & ->); [len|]. eauto.
Qed.

Lemma C46_lemma strict ty0 v w x po : bad_at strict (trailing_comma strict) ty0 x -> ws w ->
  has_ty ty0 v = true -> lookup_ok ty0 -> exists v' po', deserialize ty0 v (w ++ x) po = Some (false, v', po').
Proof.
  intros B W T LO. apply deserialize_fails; auto using has_ty_shape.
  eapply bad_fails; [|exact B]. apply trailing_fails.
Qed.

(** ** Ignored values *)
Lemma itext_first strict x : itext strict x -> forall rest t, follow rest -> pos t (nolf (x ++ rest)) ->
  tk_id t <> T_ARRE /\ tk_id t <> T_OBJE.
Proof.
  intros [j y J C|y E|y E] rest t F P.
  - destruct (pos_first _ _ _ _ _ J (delim_follow _ _ F) P) as [-> _].
    destruct j as [|[]| | | |]; simpl; split; discriminate.
  - rewrite <- !app_assoc in P.
    destruct (at_punct (length (chr 91 :: y ++ [chr 93] ++ rest) + 2) t (chr 91) _ T_ARRS P eq_refl) as (-> & _); [lia|].
    split; discriminate.
  - rewrite <- !app_assoc in P.
    destruct (at_punct (length (chr 123 :: y ++ [chr 125] ++ rest) + 2) t (chr 123) _ T_OBJS P eq_refl) as (-> & _); [lia|].
    split; discriminate.
Qed.

Lemma arre_follow w rest : ws w -> follow (w ++ [chr 93] ++ rest).
Proof. intros W. apply follow_ws; auto. apply (follow_closer (chr 93)). unfold closer. rewrite code_chr. lia. Qed.
Lemma obje_follow w rest : ws w -> follow (w ++ [chr 125] ++ rest).
Proof. intros W. apply follow_ws; auto. apply (follow_closer (chr 125)). unfold closer. rewrite code_chr. lia. Qed.

Lemma ignore_loose strict :
  (forall x, itext strict x -> itext strict x /\ forall rest t n, follow rest ->
     pos t (nolf (x ++ rest)) -> 2 * length (x ++ rest) + 2 <= n ->
     exists t', ignore_value n t = Some (PGR_OK, t') /\ pos t' (nolf rest)) /\
  (forall u, ielems strict u -> forall rest t n,
     pos t (nolf (u ++ [chr 93] ++ rest)) -> 2 * length (u ++ [chr 93] ++ rest) + 3 <= n ->
     exists t', ignore_array_loop n t = Some (PGR_OK, t') /\ pos t' (nolf rest)) /\
  (forall u, imembers strict u -> forall rest t n,
     pos t (nolf (u ++ [chr 125] ++ rest)) -> 2 * length (u ++ [chr 125] ++ rest) + 3 <= n ->
     exists t', ignore_object_loop n t = Some (PGR_OK, t') /\ pos t' (nolf rest)).
Proof.
  assert (Open : forall n t c id x, pos t (nolf (c :: x)) -> punct (schar c) = Some id ->
     2 * length (c :: x) + 2 <= S n ->
     tk_id t = id /\ exists t', tk_next n t = Some t' /\ pos t' (nolf x)).
  { intros n t c id x P K L. destruct (at_punct n t c x id P K) as (A & t' & N & _ & P'); [len|].
    eauto. }
  apply itext_ielems_imembers_ind.
  - intros j x J C. split; [econstructor; eauto|]. intros rest t n F P L.
    destruct (ignore_sim strict) as [IG _]. eapply IG; eauto.
  - intros u E IH. split; [now constructor|]. intros rest t n F P L. rewrite <- !app_assoc in P, L.
    destruct n as [|n]; [lia|]. simpl app in P, L.
    destruct (Open n t (chr 91) T_ARRS _ P eq_refl) as (A & t1 & N & P1); [len|].
    simpl. rewrite A, N. apply IH; [exact P1|]. len.
  - intros u E IH. split; [now constructor|]. intros rest t n F P L. rewrite <- !app_assoc in P, L.
    destruct n as [|n]; [lia|]. simpl app in P, L.
    destruct (Open n t (chr 123) T_OBJS _ P eq_refl) as (A & t1 & N & P1); [len|].
    simpl. rewrite A, N. apply IH; [exact P1|]. len.
  - intros w W rest t n P L. destruct n as [|n]; [lia|].
    destruct (at_punct_ws n t w (chr 93) rest T_ARRE W P eq_refl) as (A1 & t2 & _ & E2 & P2); [len|].
    simpl. rewrite A1. simpl. rewrite E2. eauto.
  - intros w1 w2 x W1 W2 H [_ IH] rest t n P L. rewrite <- !app_assoc in P, L.
    rewrite pos_ws in P by assumption. pose proof (arre_follow w2 rest W2) as F.
    destruct n as [|n]; [lia|]. simpl.
    destruct (itext_first _ _ H _ _ F P) as [A _]. rewrite tid_eqb_neq by exact A.
    destruct (IH _ t n F P) as (t1 & E1 & P1); [len|]. rewrite E1.
    destruct (at_punct_ws n t1 w2 (chr 93) rest T_ARRE W2 P1 eq_refl) as (A1 & t2 & _ & E2 & P2); [len|].
    rewrite (expect_no n t1 T_COMMA) by (rewrite A1; discriminate). rewrite E2. eauto.
  - intros w1 w2 x u W1 W2 H [_ IH] H2 IH2 rest t n P L. rewrite <- !app_assoc in P, L.
    rewrite pos_ws in P by assumption. pose proof (comma_follow w2 (u ++ [chr 93] ++ rest) W2) as F.
    destruct n as [|n]; [lia|]. simpl.
    destruct (itext_first _ _ H _ _ F P) as [A _]. rewrite tid_eqb_neq by exact A.
    destruct (IH _ t n F P) as (t1 & E1 & P1); [len|]. rewrite E1.
    destruct (at_punct_ws n t1 w2 (chr 44) (u ++ [chr 93] ++ rest) T_COMMA W2 P1 eq_refl)
      as (A1 & t2 & _ & E2 & P2); [len|].
    rewrite E2. apply IH2; [exact P2|]. len.
  - intros w W rest t n P L. destruct n as [|n]; [lia|].
    destruct (at_punct_ws n t w (chr 125) rest T_OBJE W P eq_refl) as (A1 & t2 & _ & E2 & P2); [len|].
    simpl. rewrite A1. simpl. rewrite E2. eauto.
  - intros w1 w2 w3 w4 k kt x W1 W2 W3 W4 K H [_ IH] rest t n P L. rewrite <- !app_assoc in P, L.
    rewrite pos_ws in P by assumption. pose proof (obje_follow w4 rest W4) as F.
    destruct n as [|n]; [lia|]. simpl.
    rewrite nolf_app, (jstring_nolf _ _ _ K) in P.
    pose proof (lex_jstring strict kt k (nolf (w2 ++ [chr 58] ++ w3 ++ x ++ w4 ++ [chr 125] ++ rest)) K) as E0.
    destruct (pos_lex _ _ _ _ _ P E0) as (A0 & _).
    destruct (expect_yes n t _ _ _ _ P E0) as (t1 & E1 & P1).
    { pose proof (nolf_length (w2 ++ [chr 58] ++ w3 ++ x ++ w4 ++ [chr 125] ++ rest)). len. }
    rewrite A0. simpl tid_eqb. cbv iota. rewrite E1.
    destruct (at_punct_ws n t1 w2 (chr 58) _ T_COLON W2 P1 eq_refl) as (A2 & t2 & _ & E2 & P2); [len|].
    rewrite E2. rewrite pos_ws in P2 by assumption.
    destruct (IH _ t2 n F P2) as (t3 & E3 & P3); [len|]. rewrite E3.
    destruct (at_punct_ws n t3 w4 (chr 125) rest T_OBJE W4 P3 eq_refl) as (A4 & t4 & _ & E4 & P4); [len|].
    rewrite (expect_no n t3 T_COMMA) by (rewrite A4; discriminate). rewrite E4. eauto.
  - intros w1 w2 w3 w4 k kt x u W1 W2 W3 W4 K H [_ IH] H2 IH2 rest t n P L. rewrite <- !app_assoc in P, L.
    rewrite pos_ws in P by assumption. pose proof (comma_follow w4 (u ++ [chr 125] ++ rest) W4) as F.
    destruct n as [|n]; [lia|]. simpl.
    rewrite nolf_app, (jstring_nolf _ _ _ K) in P.
    pose proof (lex_jstring strict kt k (nolf (w2 ++ [chr 58] ++ w3 ++ x ++ w4 ++ [chr 44] ++ u ++ [chr 125] ++ rest)) K) as E0.
    destruct (pos_lex _ _ _ _ _ P E0) as (A0 & _).
    destruct (expect_yes n t _ _ _ _ P E0) as (t1 & E1 & P1).
    { pose proof (nolf_length (w2 ++ [chr 58] ++ w3 ++ x ++ w4 ++ [chr 44] ++ u ++ [chr 125] ++ rest)). len. }
    rewrite A0. simpl tid_eqb. cbv iota. rewrite E1.
    destruct (at_punct_ws n t1 w2 (chr 58) _ T_COLON W2 P1 eq_refl) as (A2 & t2 & _ & E2 & P2); [len|].
    rewrite E2. rewrite pos_ws in P2 by assumption.
    destruct (IH _ t2 n F P2) as (t3 & E3 & P3); [len|]. rewrite E3.
    destruct (at_punct_ws n t3 w4 (chr 44) (u ++ [chr 125] ++ rest) T_COMMA W4 P3 eq_refl)
      as (A4 & t4 & _ & E4 & P4); [len|].
    rewrite E4. apply IH2; [exact P4|]. len.
Qed.

(** An unknown member with a loose value. *)
Definition more (strict : bool) (l : list (bytes * jval)) (tail : bytes) : Prop :=
  (l = [] /\ tail = []) \/ exists u, tail = [chr 44] ++ u /\ jmembers strict l u.

Lemma C46_ignored_lemma strict ms g vs l1 u1 name kt x l2 tail w0 w1 w2 w3 w4 rest po :
  members_prefix strict l1 u1 -> jstring strict kt name -> member_named (g_write g) name = None ->
  itext strict x -> more strict l2 tail ->
  ws w0 -> ws w1 -> ws w2 -> ws w3 -> ws w4 ->
  has_ty (TMsg ms g) (VMsg vs) = true -> lookup_ok (TMsg ms g) ->
  exists po', deserialize (TMsg ms g) (VMsg vs)
    (w0 ++ [chr 123] ++ u1 ++ (w1 ++ kt ++ w2 ++ [chr 58] ++ w3 ++ x ++ w4 ++ tail) ++ [chr 125] ++ rest) po
    = Some (good (fst (interp (TMsg ms g) (VMsg vs) (JObj (l1 ++ l2)))),
            snd (interp (TMsg ms g) (VMsg vs) (JObj (l1 ++ l2))), po').
Proof.
  intros M K U I T W0 W1 W2 W3 W4 HT LO. unfold deserialize, deserialize_fuel.
  rewrite <- !app_assoc.
  set (y := w1 ++ kt ++ w2 ++ [chr 58] ++ w3 ++ x ++ w4 ++ tail ++ [chr 125] ++ rest).
  assert (LN : 2 * length (w0 ++ [chr 123] ++ u1 ++ y) + 3 <= fuel_for (w0 ++ [chr 123] ++ u1 ++ y)) by (unfold fuel_for; lia).
  set (n := fuel_for (w0 ++ [chr 123] ++ u1 ++ y)) in *. clearbody n.
  destruct (tk_make_pos n (w0 ++ [chr 123] ++ u1 ++ y) (p_err (ctx_params po))) as (t & -> & P); [lia|].
  rewrite pos_ws in P by assumption.
  destruct (at_punct n t (chr 123) _ T_OBJS P eq_refl) as (A & t1 & _ & E1 & P1); [len|].
  cbn [read]. unfold read_object. rewrite A, E1.
  assert (O : opens (u1 ++ y)).
  { eapply prefix_opens; [exact M|]. right. apply opens_ws; [exact W1|]. eapply string_opens; exact K. }
  destruct (opens_pos _ _ O P1) as [_ NA]. rewrite expect_no by exact NA.
  pose proof (proj1 (shape_msg _ _ _) (has_ty_shape _ _ HT)) as SH.
  cbn [interp]. rewrite interp_members_app.
  destruct (obj_prefix strict ms g l1 u1 y M LO vs SH t1 n n P1) as
    [(F & t' & E)|(F & t' & n' & E & P' & L' & S')]; [len..| |]; cbn zeta in E; rewrite E.
  { destruct (interp_members (g_write g) (map interp ms) l1 vs) as [r vs']. simpl in *. subst r. simpl. eauto. }
  destruct (interp_members (g_write g) (map interp ms) l1 vs) as [r vs']. simpl in F. subst r. cbn [snd fst] in *.
  subst y. rewrite pos_ws in P' by assumption.
  destruct n' as [|n']; [lia|]. cbn [object_loop].
  rewrite nolf_app, (jstring_nolf _ _ _ K) in P'.
  pose proof (lex_jstring strict kt name (nolf (w2 ++ [chr 58] ++ w3 ++ x ++ w4 ++ tail ++ [chr 125] ++ rest)) K) as E0.
  destruct (pos_lex _ _ _ _ _ P' E0) as (A0 & V0 & _).
  destruct (expect_yes n t' _ _ _ _ P' E0) as (t2 & E2 & P2).
  { pose proof (nolf_length (w2 ++ [chr 58] ++ w3 ++ x ++ w4 ++ tail ++ [chr 125] ++ rest)). len. }
  rewrite V0, E2.
  destruct (at_punct_ws n t2 w2 (chr 58) _ T_COLON W2 P2 eq_refl) as (A3 & t3 & _ & E3 & P3); [len|].
  rewrite E3. rewrite pos_ws in P3 by assumption.
  pose proof LO as LO'. apply lookup_ok_msg in LO' as [SM _]. unfold read_member at 1. rewrite SM, U.
  assert (F : follow (w4 ++ tail ++ [chr 125] ++ rest)).
  { destruct T as [[_ ->]|(u & -> & _)]; [apply obje_follow; exact W4|].
    rewrite <- app_assoc. apply comma_follow. exact W4. }
  destruct (proj1 (ignore_loose strict) x I) as [_ IG].
  destruct (IG _ t3 n F P3) as (t4 & E4 & P4); [len|]. rewrite E4.
  destruct T as [[-> ->]|(u & -> & JM)].
  - destruct (at_punct_ws n t4 w4 (chr 125) rest T_OBJE W4 P4 eq_refl) as (A5 & t5 & _ & E5 & P5); [len|].
    rewrite expect_no by (rewrite A5; discriminate). rewrite E5. simpl. eauto.
  - rewrite <- app_assoc in P4.
    destruct (at_punct_ws n t4 w4 (chr 44) _ T_COMMA W4 P4 eq_refl) as (A5 & t5 & _ & E5 & P5); [len|].
    rewrite E5. destruct (proj2 (proj2 (read_sim strict)) l2 u JM) as [_ R].
    destruct (R ms g LO vs' S' rest t5 n' n) as (t6 & E6 & _); [exact P5|len..|].
    cbn zeta in E6. rewrite E6. destruct (interp_members (g_write g) (map interp ms) l2 vs') as [[| |] vs2]; simpl; eauto.
Qed.
