(** Non-finite numbers are written as texts that are not accepted. *)
From Verif Require Import Bytes BaseProofs Num Dbl Types Stream Tokenizer Write Read LexView LexJson Termination
  SpecJson SpecInterp SpecStr SpecWrite SpecErr SpecRange ReadSim ApiProofs InterpProofs WriteProofs SpecBad SpecNonFinite BadProofs
  StrProofs Samples.

(** ** Reading *)
Lemma word_none c1 c2 x : is_alpha_c c1 = true -> is_ws_c c1 = false -> punct (schar c1) = None ->
  (code c1 =? 34) = false -> is_num_start_z (schar c1) = false -> is_alpha_c c2 = true ->
  (forall r, keyword (c1 :: c2 :: r) = None) ->
  lex (c1 :: c2 :: x) = None.
Proof.
  intros A W P Q N A2 K. cbn [lex]. rewrite W, P, Q, N. cbn [span]. rewrite A, A2.
  destruct (span is_alpha_c x) as [v r]. now rewrite K.
Qed.

Lemma nan_none x : lex (chr 110 :: chr 97 :: x) = None.
Proof. apply word_none; try reflexivity. Qed.
Lemma inf_none x : lex (chr 105 :: chr 110 :: x) = None.
Proof. apply word_none; try reflexivity. Qed.

Lemma nonfinite_lex d rest : nonfinite_text d ->
  lex (nolf (d ++ rest)) = None \/
  exists x, lex (nolf (d ++ rest)) = Some (T_NUMBER, b "-", x) /\ lex x = None.
Proof.
  intros [<-|[<-|[<-|[<-|[]]]]]; rewrite nolf_app.
  - left. apply nan_none.
  - right. exists (b "nan" ++ nolf rest). split; [reflexivity|apply nan_none].
  - left. apply inf_none.
  - right. exists (b "inf" ++ nolf rest). split; [reflexivity|apply inf_none].
Qed.

Local Open Scope nat_scope.

(** Reading a number there fails or ends before a token that is none. *)
Lemma nonfinite_read d rest ty0 v t n : nonfinite_text d -> (exists p, ty0 = TPrim p \/ ty0 = TField p) ->
  shape ty0 v = true -> pos t (nolf (d ++ rest)) -> 2 * length (d ++ rest) + 3 <= n ->
  exists v' t', read n ty0 t v = Some (PGR_ERROR, v', t') \/
    (read n ty0 t v = Some (PGR_OK, v', t') /\ tk_id t' = T_NONE).
Proof.
  intros D (p & T) S P L. pose proof (nolf_length (d ++ rest)) as NL.
  assert (H : forall x, exists y t', read_prim n p t x = Some (PGR_ERROR, y, t') \/
             (read_prim n p t x = Some (PGR_OK, y, t') /\ tk_id t' = T_NONE)).
  { intros x. destruct (nonfinite_lex d rest D) as [E|(r & E & N)].
    - destruct P as [_ P]. rewrite E in P. unfold read_prim, rfail. rewrite P. destruct p; eauto.
    - destruct (pos_lex _ _ _ _ _ P E) as (A & _). unfold read_prim, rfail. rewrite A.
      destruct (pos_next n t _ _ _ _ P E) as (t' & -> & P'); [lia|].
      destruct P' as [_ P']. rewrite N in P'. destruct p; eauto. }
  destruct T as [-> | ->]; destruct v; try discriminate S; cbn [read].
  - destruct (H p0) as (y & t' & [-> |[-> A]]); simpl; eauto.
  - unfold read_fieldnum. destruct (H (pzero p)) as (y & t' & [-> |[-> A]]); simpl; eauto.
Qed.

Lemma nonfinite_opens d rest : nonfinite_text d -> opens (d ++ rest).
Proof.
  intros D id v r E. destruct (nonfinite_lex d rest D) as [E'|(x & E' & _)]; rewrite E' in E; [discriminate|].
  injection E as <- _ _. split; discriminate.
Qed.

Lemma nonfinite_fails strict ty0 x : nonfinite_inside strict ty0 x -> fails ty0 x.
Proof.
  intros [t' u w d rest T E W D|ms g l u w1 w2 w3 name kt k t' d rest T M W1 W2 W3 K N NT D].
  - apply fails_array.
    { destruct u as [|c u]; [exact (opens_ws _ _ W (nonfinite_opens _ _ D))|].
      eapply elems_opens; [exact E|discriminate]. }
    eapply arr_prefix; [exact E|]. intros LO acc t n nf P L Lf. rewrite pos_ws in P by assumption.
    destruct n as [|n]; [lia|]. simpl.
    destruct (nonfinite_read d rest t' (dflt t') t nf D T (dflt_shape t') P) as (v' & t1 & [-> |[-> A]]); [len|eauto..|].
    rewrite expect_no by (rewrite A; discriminate). rewrite expect_no by (rewrite A; discriminate).
    unfold rfail. eauto.
  - apply fails_object.
    { eapply prefix_opens; [exact M|]. right. apply opens_ws; [exact W1|]. eapply string_opens; exact K. }
    eapply obj_prefix_fails; [exact M|]. intros LO vs SH t n nf P L Lf. rewrite pos_ws in P by assumption.
    destruct n as [|n]; [lia|]. cbn [object_loop].
    rewrite nolf_app, (jstring_nolf _ _ _ K) in P.
    pose proof (lex_jstring strict kt name (nolf (w2 ++ [chr 58] ++ w3 ++ d ++ rest)) K) as E0.
    destruct (pos_lex _ _ _ _ _ P E0) as (A0 & V0 & _).
    destruct (expect_yes nf t _ _ _ _ P E0) as (t1 & E1 & P1).
    { pose proof (nolf_length (w2 ++ [chr 58] ++ w3 ++ d ++ rest)). len. }
    rewrite V0, E1.
    destruct (at_punct_ws nf t1 w2 (chr 58) _ T_COLON W2 P1 eq_refl) as (A2 & t2 & _ & E2 & P2); [len|].
    rewrite E2. rewrite pos_ws in P2 by assumption.
    apply lookup_ok_msg in LO as [LO LM]. unfold read_member. rewrite LO, N, nth_error_map, NT. simpl.
    destruct (Forall2_nth_error _ _ _ _ _ SH NT) as (v & -> & Sv).
    destruct (nonfinite_read d rest t' v t2 nf D T Sv P2) as (v' & t3 & [-> |[-> A]]); [len|eauto|].
    rewrite expect_no by (rewrite A; discriminate). rewrite expect_no by (rewrite A; discriminate).
    unfold rfail. eauto.
Qed.

(** ** Writing *)
Section Writing.
  Context (strict : bool).
  Local Notation B := (nonfinite_inside strict).

  (** Text of a value: fine, a bare non-finite number, or broken inside. *)
  Definition outcome (t : ty) (v : val) (o : bytes) : Prop :=
    ((exists j, jtext strict j o) /\ ~ nonfinite_in t v) \/
    ((exists p, t = TPrim p \/ t = TField p) /\ nonfinite_text o) \/
    (forall rest, bad_at strict B t (o ++ rest)).

  Lemma write_elems_bad t w l e :
    (forall x, In x l -> exists o, w x e = (PGR_OK, o, e) /\ outcome t x o) ->
    exists o, write_elems w l e = (o, e) /\
      ((o = [] /\ l = [] \/ (exists js, jelems strict js o) /\ forall x, In x l -> ~ nonfinite_in t x) \/
       forall pre rest, elems_prefix strict pre -> bad_at strict B (TRep t) ([chr 91] ++ pre ++ o ++ rest)).
  Proof.
    induction l as [|x l IH]; intros H; [exists []; auto|].
    destruct (H x (or_introl eq_refl)) as (o & E & O).
    destruct (IH (fun y I => H y (or_intror I))) as (o2 & E2 & O2). clear IH.
    cbn [write_elems]. rewrite E. rewrite E2.
    assert (Q : exists tail, (match l with [] => (o, e) | _ :: _ => (o ++ [chr 44] ++ o2, e) end)
                = (o ++ tail, e) /\ (l = [] /\ tail = [] \/ l <> [] /\ tail = [chr 44] ++ o2)).
    { destruct l; [exists []; rewrite app_nil_r; auto|]. exists ([chr 44] ++ o2). split; [reflexivity|].
      right. split; [discriminate|reflexivity]. }
    destruct Q as (tail & -> & Q). exists (o ++ tail). split; [reflexivity|].
    destruct O as [[(j & J) NF]|[(T & D)|D]].
    - destruct Q as [[-> ->]|[NE ->]].
      + left. right. split.
        * exists [j]. change (jelems strict [j] ([] ++ o ++ [])). now constructor.
        * intros y [<-|[]]. exact NF.
      + destruct O2 as [[[_ ?]|[(js & JE) F]]|D]; [congruence| |].
        * left. right. split.
          { exists (j :: js). change (jelems strict (j :: js) ([] ++ o ++ [] ++ [chr 44] ++ o2)). now constructor. }
          intros y [<-|I]; auto.
        * right. intros pre rest EP.
          assert (EP' : elems_prefix strict (pre ++ [] ++ o ++ [] ++ [chr 44] ++ [])).
          { clear - EP J. induction EP as [|w1 w2 j' t' u W1 W2 J' EP IH].
            - apply (ep_cons strict [] [] j o []); try reflexivity; [exact J|constructor].
            - rewrite <- !app_assoc. econstructor; eauto. }
          specialize (D _ rest EP'). rewrite <- !app_assoc in D. rewrite <- !app_assoc. exact D.
    - right. intros pre rest EP. apply bad_here. rewrite <- !app_assoc.
      apply (nf_elem strict t pre [] o (tail ++ rest)); auto. reflexivity.
    - right. intros pre rest EP. rewrite <- !app_assoc.
      apply (bad_elem strict B t pre [] (o ++ tail ++ rest)); auto. reflexivity.
  Qed.

  Lemma members_prefix_snoc l u k kt j t : members_prefix strict l u -> jstring strict kt k -> jtext strict j t ->
    members_prefix strict (l ++ [(k, j)]) (u ++ kt ++ [chr 58] ++ t ++ [chr 44]).
  Proof.
    intros M K J. induction M as [|w1 w2 w3 w4 k' kt' j' t' l u W1 W2 W3 W4 K' J' M IH].
    - apply (mp_cons strict [] [] [] [] k kt j t [] []); try reflexivity; auto. constructor.
    - rewrite <- !app_assoc. cbn [app]. constructor; auto.
  Qed.

  Context (sn : bool) (ms : list ty) (g : gencode) (ws0 : list (val -> errinfo -> wres)) (vs : list val).
  Hypothesis Hlen : length ws0 = length ms.
  Hypothesis Hnd : NoDup (map snd (g_write g)).
  Hypothesis Hprim : forall p, ~ In (TPrim p) ms.

  Lemma nonfinite_nonempty t v : nonfinite_in t v -> (forall p, t <> TPrim p) -> vempty v = false \/ exists ms g, t = TMsg ms g.
  Proof.
    intros [p x N|p x N|t' l x I N|ms' g' vs' k label t' x I M V N] NP; auto.
    - now exfalso; apply (NP p).
    - left. destruct l; [destruct I|reflexivity].
    - right. eauto.
  Qed.

  (** [pre]: members already written, each followed by a comma. *)
  Lemma write_items_bad items : forall first e,
    (forall k label, In (k, label) items -> In (k, label) (g_write g) /\ clean strict label) ->
    (forall k label w t x, In (k, label) items -> nth_error ws0 k = Some w -> nth_error ms k = Some t ->
       nth_error vs k = Some x -> exists o, w x e = (PGR_OK, o, e) /\ outcome t x o /\
         (nonfinite_in t x -> vempty x = false)) ->
    exists o, write_items sn ws0 vs items first e = (o, e) /\
      (((o = [] \/ exists l u, jmembers strict l u /\ o = (if first then [] else [chr 44]) ++ u) /\
        forall k label t x, In (k, label) items -> nth_error ms k = Some t -> nth_error vs k = Some x ->
          ~ nonfinite_in t x) \/
       forall l pre rest, members_prefix strict l pre ->
         exists o', o = (if first then [] else [chr 44]) ++ o' /\
                    bad_at strict B (TMsg ms g) ([chr 123] ++ pre ++ o' ++ rest)).
  Proof.
    induction items as [|[k label] items IH]; intros first e C H.
    { exists []. split; [reflexivity|]. left. split; [auto|]. intros ? ? ? ? []. }
    assert (IH' := fun fi => IH fi e (fun k l I => C k l (or_intror I))
                              (fun k l w t x I => H k l w t x (or_intror I))).
    clear IH. cbn [write_items].
    destruct (nth_error ws0 k) as [w|] eqn:W.
    2:{ assert (M : nth_error ms k = None) by (apply nth_error_None; rewrite <- Hlen; now apply nth_error_None).
        destruct (IH' first) as (o & E & [[A F]|D]); exists o; (split; [exact E|]); [left|right; exact D].
        split; [exact A|]. intros k' l' t' x' [[= <- <-]|I]; [rewrite M; discriminate|now apply (F k' l')]. }
    destruct (nth_error ms k) as [t|] eqn:M.
    2:{ apply nth_error_None in M. rewrite <- Hlen in M. apply nth_error_None in M. congruence. }
    destruct (nth_error vs k) as [x|] eqn:X.
    2:{ destruct (IH' first) as (o & E & [[A F]|D]); exists o; (split; [exact E|]); [left|right; exact D].
        split; [exact A|]. intros k' l' t' x' [[= <- <-]|I]; [rewrite X; discriminate|now apply (F k' l')]. }
    destruct (H k label w t x (or_introl eq_refl) W M X) as (o & E & O & NE).
    destruct (sn || negb (vempty x)) eqn:SE.
    2:{ destruct (IH' first) as (o' & E' & [[A F]|D]); exists o'; (split; [exact E'|]); [left|right; exact D].
        split; [exact A|]. intros k' l' t' x' [[= <- <-]|I]; [|now apply (F k' l')].
        rewrite M, X. intros [= <-] [= <-] NF. apply NE in NF. rewrite NF in SE. destruct sn; discriminate. }
    rewrite E. destruct (IH' false) as (o2 & -> & O2).
    destruct (C k label (or_introl eq_refl)) as [IG CL].
    pose proof (clean_jstring strict label CL) as JS.
    pose proof (member_named_in _ _ _ Hnd IG) as MN.
    eexists. split; [reflexivity|].
    destruct O as [[(j & J) NF]|[(T & D)|D]].
    - destruct O2 as [[A F]|D].
      + left. split.
        2:{ intros k' l' t' x' [[= <- <-]|I]; [|now apply (F k' l')].
            rewrite M, X. intros [= <-] [= <-]. exact NF. }
        right. destruct A as [->|(l & u & JM & ->)].
        * exists [(label, j)], ([] ++ ([chr 34] ++ label ++ [chr 34]) ++ [] ++ [chr 58] ++ [] ++ o ++ []).
          split; [constructor; try reflexivity; auto|]. destruct first; rewrite <- !app_assoc; reflexivity.
        * exists ((label, j) :: l), ([] ++ ([chr 34] ++ label ++ [chr 34]) ++ [] ++ [chr 58] ++ [] ++ o ++ [] ++ [chr 44] ++ u).
          split; [constructor; try reflexivity; auto|]. destruct first; rewrite <- !app_assoc; reflexivity.
      + right. intros l pre rest MP.
        destruct (D _ _ rest (members_prefix_snoc _ _ _ _ _ _ MP JS J)) as (o' & -> & BA).
        exists (([chr 34] ++ label ++ [chr 34]) ++ [chr 58] ++ o ++ [chr 44] ++ o').
        split; [destruct first; rewrite <- ?app_assoc; reflexivity|].
        rewrite <- !app_assoc in BA. rewrite <- !app_assoc. exact BA.
    - right. intros l pre rest MP.
      exists (([chr 34] ++ label ++ [chr 34]) ++ [chr 58] ++ o ++ o2).
      split; [destruct first; rewrite <- ?app_assoc; reflexivity|].
      apply bad_here. rewrite <- !app_assoc. rewrite (app_assoc [chr 34]), (app_assoc _ [chr 34]).
      rewrite <- (app_assoc [chr 34] label).
      apply (nf_member strict ms g l pre [] [] [] label _ k t o (o2 ++ rest)); auto; reflexivity.
    - right. intros l pre rest MP.
      exists (([chr 34] ++ label ++ [chr 34]) ++ [chr 58] ++ o ++ o2).
      split; [destruct first; rewrite <- ?app_assoc; reflexivity|].
      rewrite <- !app_assoc. rewrite (app_assoc [chr 34]), (app_assoc _ [chr 34]).
      rewrite <- (app_assoc [chr 34] label).
      apply (bad_member strict B ms g l pre [] [] [] label _ k t (o ++ o2 ++ rest)); auto; reflexivity.
  Qed.
End Writing.

Lemma prim_dec x : nonfinite x \/ prim_finite x /\ ~ nonfinite x.
Proof. destruct x as [|[]|]; simpl; auto. Qed.

Lemma nonfinite_prim_text x : nonfinite x -> nonfinite_text (prim_text x).
Proof.
  destruct x as [|d|]; try contradiction. destruct d as [s|s|s|s m e]; intros H; try contradiction;
    destruct s; vm_compute; auto.
Qed.

Lemma nonfinite_visible strict t v : tables_ok strict t -> (forall p, t <> TPrim p) -> nonfinite_in t v -> vempty v = false.
Proof.
  intros T NP N. induction N as [p x N|p x N|t' l x I N|ms g vs k label t x I M V N IH]; auto.
  - now exfalso; apply (NP p).
  - destruct l; [destruct I|reflexivity].
  - cbn [vempty]. apply tables_ok_msg in T as ((_ & _ & _ & P) & T). rewrite Forall_forall in T.
    assert (E : vempty x = false).
    { apply IH; [apply T; eapply nth_error_In; eauto|]. intros p ->. apply (P p). eapply nth_error_In; eauto. }
    apply nth_error_In in V. clear - V E. induction vs as [|y vs IH]; [destruct V|]. simpl.
    destruct V as [->|V]; [now rewrite E|]. rewrite IH by exact V. apply Bool.andb_false_r.
Qed.

Lemma write_outcome ea sn strict t : tables_ok strict t -> forall v e, nearly ea strict t v ->
  exists o, write ea sn t v e = (PGR_OK, o, e) /\ outcome strict t v o.
Proof.
  induction t using ty_ind2; intros T v e J.
  - inversion J as [p' x V| | | | | | | ]; subst. exists (prim_text x). split; [reflexivity|].
    destruct (prim_dec x) as [N|[F N]].
    + right. left. split; [eauto|now apply nonfinite_prim_text].
    + left. split; [exists (prim_json x); eapply prim_jtext; eauto|]. now inversion 1.
  - inversion J as [|p' x|p' x V| | | | | ]; subst.
    + exists (b "null"). split; [reflexivity|]. left. split; [exists JNull; constructor|now inversion 1].
    + exists (prim_text x). split; [reflexivity|]. destruct (prim_dec x) as [N|[F N]].
      * right. left. split; [eauto|now apply nonfinite_prim_text].
      * left. split; [exists (prim_json x); eapply prim_jtext; eauto|]. now inversion 1.
  - inversion J as [| | |n s E|n s W F| | |]; subst; cbn [write].
    + rewrite E. exists (b "null"). split; [reflexivity|]. left. split; [exists JNull; constructor|now inversion 1].
    + destruct (vempty (VStr n s)).
      { exists (b "null"). split; [reflexivity|]. left. split; [exists JNull; constructor|now inversion 1]. }
      destruct (write_string_jstring ea strict s e W F) as (o & -> & S & _).
      exists o. split; [reflexivity|]. left. split; [exists (JStr s); now constructor|now inversion 1].
  - inversion J; subst. cbn [write]. eexists. split; [reflexivity|].
    left. split; [eexists; constructor; apply raw_jstring|now inversion 1].
  - inversion J as [| | | | | |t' l H|]; subst. cbn [write]. cbn [tables_ok] in T.
    destruct (write_elems_bad strict t (write ea sn t) l e) as (o & -> & O).
    { intros x I. apply IHt; auto. }
    eexists. split; [reflexivity|]. destruct O as [[[-> ->]|[(js & JE) F]]|D].
    + left. split; [exists (JArr []); apply (jt_arr0 strict []); reflexivity|].
      intros N. inversion N; subst. match goal with h : In _ [] |- _ => destruct h end.
    + left. split; [exists (JArr js); apply jt_arr; exact JE|].
      intros N. inversion N; subst. eapply F; eauto.
    + right. right. intros rest. rewrite <- !app_assoc. apply (D [] ([chr 93] ++ rest)). constructor.
  - inversion J as [| | | | | | |ms' g' vs H']; subst. pose proof T as T0.
    apply tables_ok_msg in T as ((_ & ND & C & NP) & T).
    cbn [write].
    destruct (write_items_bad strict sn ms g (map (write ea sn) ms) vs) with (items := g_write g) (first := true) (e := e)
      as (o & -> & O).
    { now rewrite map_length. }
    { exact ND. }
    { intros k label I. split; [exact I|]. now apply (C k label). }
    { intros k label w t x I W M X. rewrite nth_error_map', M in W. injection W as <-.
      pose proof (nth_error_In _ _ M) as IM. rewrite Forall_forall in H, T.
      destruct (H t IM (T t IM) x e) as (o & E & O); [eapply H'; eauto|].
      exists o. split; [exact E|]. split; [exact O|].
      apply (nonfinite_visible strict); [auto|]. intros p ->. now apply (NP p). }
    eexists. split; [reflexivity|]. destruct O as [[A F]|D].
    + left. split.
      * destruct A as [->|(l & u & JM & ->)]; [exists (JObj []); apply (jt_obj0 strict []); reflexivity|].
        exists (JObj l). apply jt_obj. exact JM.
      * intros N. inversion N; subst. eapply F; eauto.
    + right. right. intros rest. rewrite <- !app_assoc.
      destruct (D [] [] ([chr 125] ++ rest) (mp_nil strict)) as (o' & -> & BA). exact BA.
Qed.

Lemma C17_lemma strict t v po : tables_ok strict t -> lookup_ok t -> toplevel t ->
  nearly (po_ea po) strict t v -> nonfinite_in t v ->
  exists text, serialize t v po = (true, text, clear_params po) /\
    forall target w rest po2, has_ty t target = true -> ws w ->
      exists v' po', deserialize t target (w ++ text ++ rest) po2 = Some (false, v', po').
Proof.
  intros T LO TL NE NF. unfold serialize.
  assert (EA : ensure_ascii (ctx_params po) = po_ea po) by (destruct po; reflexivity).
  rewrite EA. destruct (write_outcome (po_ea po) (serialize_null (ctx_params po)) strict t T v (p_err (ctx_params po)) NE)
    as (o & -> & O).
  exists o. split; [destruct po; reflexivity|].
  intros target w rest po2 HT W. destruct O as [[_ N]|[((p & [-> | ->]) & _)|D]]; try contradiction.
  apply deserialize_fails; auto using has_ty_shape.
  eapply bad_fails; [apply nonfinite_fails|]. apply D.
Qed.

Lemma C17_witness : exists t v text, has_ty t v = true /\
  serialize t v None = (true, text, None) /\ text = b "{""id"":1,""inner"":{""flag"":true,""ratio"":-inf}}" /\
  exists v', deserialize t (dflt t) text None = Some (false, v', None).
Proof.
  exists outer_ty, (VMsg [VField false (VInt 1); VMsg [VField false (VBool true); VField false (VDbl (DInf true))];
        VStr true []; VB64 []; VList []]), (b "{""id"":1,""inner"":{""flag"":true,""ratio"":-inf}}").
  split; [reflexivity|]. split; [vm_compute; reflexivity|]. split; [reflexivity|].
  eexists. vm_compute. reflexivity.
Qed.
