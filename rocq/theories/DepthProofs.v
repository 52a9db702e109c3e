(** Lemmas about the depth of the reader's recursion on JSON texts. *)
From Verif Require Import Bytes BaseProofs Num Dbl Types Stream Tokenizer Write Read Depth
  SpecJson SpecInterp SpecTok SpecDepth LexView LexMono LexJson Termination ReadSim.
Local Open Scope nat_scope.

(** ** Skipped values *)
Lemma ignore_depth_sim strict :
  (forall j x, jtext strict j x -> forall rest t n, (composite j = false -> follow rest) ->
     pos t (nolf (x ++ rest)) -> 2 * length (x ++ rest) + 2 <= n ->
     ignore_depth n t = height j) /\
  (forall l u, jelems strict l u -> forall rest t n,
     pos t (nolf (u ++ chr 93 :: rest)) -> 2 * length (u ++ chr 93 :: rest) + 3 <= n ->
     ignore_array_depth n t = list_max (map height l)) /\
  (forall l u, jmembers strict l u -> forall rest t n,
     pos t (nolf (u ++ chr 125 :: rest)) -> 2 * length (u ++ chr 125 :: rest) + 3 <= n ->
     ignore_object_depth n t = list_max (map (fun m => height (snd m)) l)).
Proof.
  destruct (ignore_sim strict) as (IV & _ & _).
  assert (Scalar : forall j x, jtext strict j x -> composite j = false -> forall rest t n, (composite j = false -> follow rest) ->
     pos t (nolf (x ++ rest)) -> 2 * length (x ++ rest) + 2 <= n ->
     ignore_depth n t = height j).
  { intros j x H C rest t n D P L. specialize (D C).
    destruct (pos_first _ _ _ _ _ H (delim_follow j _ D) P) as [A _].
    destruct n as [|n]; [lia|]. cbn [ignore_depth]. rewrite A.
    destruct j as [|[]|s|s|l|l]; try discriminate C; reflexivity. }
  assert (Open : forall n t c id x, pos t (nolf (c :: x)) -> punct (schar c) = Some id ->
     2 * length (c :: x) + 2 <= S n ->
     tk_id t = id /\ exists t', tk_next n t = Some t' /\ pos t' (nolf x)).
  { intros n t c id x P K L. destruct (at_punct n t c x id P K) as (A & t' & N & _ & P'); [len|].
    eauto. }
  apply jtext_jelems_jmembers_ind.
  - apply Scalar; [constructor|reflexivity].
  - apply Scalar; [constructor|reflexivity].
  - apply Scalar; [constructor|reflexivity].
  - intros s H. apply Scalar; [now constructor|reflexivity].
  - intros t0 s H. apply Scalar; [now constructor|reflexivity].
  - (* empty array *)
    intros w W rest t n D P L. rewrite <- !app_assoc in P, L. cbn [app] in P.
    destruct n as [|n]; [lia|].
    destruct (Open n t (chr 91) T_ARRS _ P eq_refl) as (A & t1 & N & P1); [len|].
    cbn [ignore_depth]. rewrite A, N. destruct n as [|n]; [len|].
    destruct (at_punct_ws n t1 w (chr 93) rest T_ARRE W P1 eq_refl) as (A1 & t2 & _ & E2 & P2); [len|].
    cbn [ignore_array_depth]. rewrite A1. reflexivity.
  - (* array *)
    intros l u H IH rest t n D P L. rewrite <- !app_assoc in P, L. cbn [app] in P.
    destruct n as [|n]; [lia|].
    destruct (Open n t (chr 91) T_ARRS _ P eq_refl) as (A & t1 & N & P1); [len|].
    cbn [ignore_depth height]. rewrite A, N. f_equal. eapply IH; [exact P1|]. len.
  - (* empty object *)
    intros w W rest t n D P L. rewrite <- !app_assoc in P, L. cbn [app] in P.
    destruct n as [|n]; [lia|].
    destruct (Open n t (chr 123) T_OBJS _ P eq_refl) as (A & t1 & N & P1); [len|].
    cbn [ignore_depth]. rewrite A, N. destruct n as [|n]; [len|].
    destruct (at_punct_ws n t1 w (chr 125) rest T_OBJE W P1 eq_refl) as (A1 & t2 & _ & E2 & P2); [len|].
    cbn [ignore_object_depth]. rewrite A1. reflexivity.
  - (* object *)
    intros l u H IH rest t n D P L. rewrite <- !app_assoc in P, L. cbn [app] in P.
    destruct n as [|n]; [lia|].
    destruct (Open n t (chr 123) T_OBJS _ P eq_refl) as (A & t1 & N & P1); [len|].
    cbn [ignore_depth height]. rewrite A, N. f_equal. eapply IH; [exact P1|]. len.
  - (* last element *)
    intros w1 w2 j x W1 W2 H IH rest t n P L. rewrite <- !app_assoc in P, L.
    rewrite pos_ws in P by assumption.
    assert (F : follow (w2 ++ chr 93 :: rest)).
    { apply follow_ws; auto. apply follow_closer. unfold closer. rewrite code_chr. lia. }
    destruct n as [|n]; [lia|]. cbn [ignore_array_depth].
    destruct (pos_first _ _ _ _ _ H (delim_follow j _ F) P) as [A _].
    rewrite A, (IH _ t n (fun _ => F) P) by len.
    destruct (IV _ _ H _ t n (fun _ => F) P) as (t1 & E1 & P1); [len|].
    rewrite E1.
    replace (tid_eqb (fst (first_tok j)) T_ARRE) with false by (destruct j as [|[]| | | |]; reflexivity).
    destruct (at_punct_ws n t1 w2 (chr 93) rest T_ARRE W2 P1 eq_refl) as (A1 & t2 & _ & E2 & P2); [len|].
    rewrite (expect_no n t1 T_COMMA) by (rewrite A1; discriminate). reflexivity.
  - (* more elements *)
    intros w1 w2 j x l u W1 W2 H IH H2 IH2 rest t n P L. rewrite <- !app_assoc in P, L.
    rewrite pos_ws in P by assumption.
    assert (F : follow (w2 ++ [chr 44] ++ u ++ chr 93 :: rest)).
    { apply follow_ws; auto. apply (follow_closer (chr 44)). unfold closer. rewrite code_chr. lia. }
    destruct n as [|n]; [lia|]. cbn [ignore_array_depth].
    destruct (pos_first _ _ _ _ _ H (delim_follow j _ F) P) as [A _].
    rewrite A, (IH _ t n (fun _ => F) P) by len.
    destruct (IV _ _ H _ t n (fun _ => F) P) as (t1 & E1 & P1); [len|].
    rewrite E1.
    replace (tid_eqb (fst (first_tok j)) T_ARRE) with false by (destruct j as [|[]| | | |]; reflexivity).
    destruct (at_punct_ws n t1 w2 (chr 44) (u ++ chr 93 :: rest) T_COMMA W2 P1 eq_refl)
      as (A1 & t2 & _ & E2 & P2); [len|].
    rewrite E2, (IH2 rest t2 n P2) by len. reflexivity.
  - (* last member *)
    intros w1 w2 w3 w4 k kt j x W1 W2 W3 W4 K H IH rest t n P L. rewrite <- !app_assoc in P, L.
    rewrite pos_ws in P by assumption.
    assert (F : follow (w4 ++ chr 125 :: rest)).
    { apply follow_ws; auto. apply follow_closer. unfold closer. rewrite code_chr. lia. }
    destruct n as [|n]; [lia|]. cbn [ignore_object_depth].
    rewrite nolf_app, (jstring_nolf _ _ _ K) in P.
    pose proof (lex_jstring strict kt k (nolf (w2 ++ [chr 58] ++ w3 ++ x ++ w4 ++ chr 125 :: rest)) K) as E0.
    destruct (pos_lex _ _ _ _ _ P E0) as (A0 & _).
    destruct (expect_yes n t _ _ _ _ P E0) as (t1 & E1 & P1).
    { pose proof (nolf_length (w2 ++ [chr 58] ++ w3 ++ x ++ w4 ++ chr 125 :: rest)). len. }
    rewrite A0. cbn [tid_eqb]. rewrite E1.
    destruct (at_punct_ws n t1 w2 (chr 58) _ T_COLON W2 P1 eq_refl) as (A2 & t2 & _ & E2 & P2); [len|].
    rewrite E2. rewrite pos_ws in P2 by assumption. rewrite (IH _ t2 n (fun _ => F) P2) by len.
    destruct (IV _ _ H _ t2 n (fun _ => F) P2) as (t3 & E3 & P3); [len|]. rewrite E3.
    destruct (at_punct_ws n t3 w4 (chr 125) rest T_OBJE W4 P3 eq_refl) as (A4 & t4 & _ & E4 & P4); [len|].
    rewrite (expect_no n t3 T_COMMA) by (rewrite A4; discriminate). reflexivity.
  - (* more members *)
    intros w1 w2 w3 w4 k kt j x l u W1 W2 W3 W4 K H IH H2 IH2 rest t n P L. rewrite <- !app_assoc in P, L.
    rewrite pos_ws in P by assumption.
    assert (F : follow (w4 ++ [chr 44] ++ u ++ chr 125 :: rest)).
    { apply follow_ws; auto. apply (follow_closer (chr 44)). unfold closer. rewrite code_chr. lia. }
    destruct n as [|n]; [lia|]. cbn [ignore_object_depth].
    rewrite nolf_app, (jstring_nolf _ _ _ K) in P.
    pose proof (lex_jstring strict kt k (nolf (w2 ++ [chr 58] ++ w3 ++ x ++ w4 ++ [chr 44] ++ u ++ chr 125 :: rest)) K) as E0.
    destruct (pos_lex _ _ _ _ _ P E0) as (A0 & _).
    destruct (expect_yes n t _ _ _ _ P E0) as (t1 & E1 & P1).
    { pose proof (nolf_length (w2 ++ [chr 58] ++ w3 ++ x ++ w4 ++ [chr 44] ++ u ++ chr 125 :: rest)). len. }
    rewrite A0. cbn [tid_eqb]. rewrite E1.
    destruct (at_punct_ws n t1 w2 (chr 58) _ T_COLON W2 P1 eq_refl) as (A2 & t2 & _ & E2 & P2); [len|].
    rewrite E2. rewrite pos_ws in P2 by assumption. rewrite (IH _ t2 n (fun _ => F) P2) by len.
    destruct (IV _ _ H _ t2 n (fun _ => F) P2) as (t3 & E3 & P3); [len|]. rewrite E3.
    destruct (at_punct_ws n t3 w4 (chr 44) (u ++ chr 125 :: rest) T_COMMA W4 P3 eq_refl)
      as (A4 & t4 & _ & E4 & P4); [len|].
    rewrite E4, (IH2 rest t4 n P4) by len. reflexivity.
Qed.

(** ** Reading *)

(** A depth: at most [m], and exactly [m] unless the document does not fit. *)
Definition close_to (r : ires) (d m : nat) : Prop := d <= m /\ (r <> RFail -> d = m).

Lemma close_eq r d : close_to r d d.
Proof. split; auto. Qed.

(** Scalars, and values that are no containers of the type. *)
Definition apart (ty0 : ty) (j : jval) : Prop :=
  match ty0, j with TRep _, JArr _ | TMsg _ _, JObj _ => False | _, _ => True end.

Lemma apart_depth n ty0 t v j : apart ty0 j -> tk_id t = fst (first_tok j) ->
  read_depth n ty0 t v = reach ty0 j.
Proof.
  intros M A. destruct ty0 as [p|p| | |ty'|ms g]; try reflexivity.
  - cbn [read_depth reach]. unfold read_array_depth. rewrite A.
    destruct j as [|[]|y|y|y|y]; try contradiction; cbn [first_tok fst]; try reflexivity;
      rewrite expect_no by (rewrite A; discriminate); reflexivity.
  - cbn [read_depth reach]. destruct v; try (destruct j; try contradiction; reflexivity).
    unfold read_object_depth. rewrite A.
    destruct j as [|[]|y|y|y|y]; try contradiction; cbn [first_tok fst]; try reflexivity;
      rewrite expect_no by (rewrite A; discriminate); reflexivity.
Qed.

Definition D_text (j : jval) (x : bytes) : Prop :=
  forall ty v, shape ty v = true -> lookup_ok ty -> forall rest t n, delim j rest ->
    pos t (nolf (x ++ rest)) -> 2 * length (x ++ rest) + 3 <= n ->
    close_to (fst (interp ty v j)) (read_depth n ty t v) (reach ty j).

Definition D_elems (l : list jval) (u : bytes) : Prop :=
  forall ty, lookup_ok ty -> forall acc rest t n nf,
    pos t (nolf (u ++ chr 93 :: rest)) -> length (u ++ chr 93 :: rest) + 1 <= n ->
    2 * length (u ++ chr 93 :: rest) + 3 <= nf ->
    close_to (fst (interp_elems (interp ty (dflt ty)) l acc))
      (array_loop_depth n nf (read nf ty) (read_depth nf ty) (dflt ty) t) (list_max (map (reach ty) l)).

Definition member_reach (ms : list ty) (g : gencode) (m : bytes * jval) : nat :=
  match member_named (g_write g) (fst m) with
  | Some k => match nth_error (map reach ms) k with Some f => f (snd m) | None => height (snd m) end
  | None => height (snd m)
  end.

Definition D_members (l : list (bytes * jval)) (u : bytes) : Prop :=
  forall ms g, lookup_ok (TMsg ms g) -> forall vs, shapes ms vs -> forall rest t n nf,
    pos t (nolf (u ++ chr 125 :: rest)) -> length (u ++ chr 125 :: rest) + 1 <= n ->
    2 * length (u ++ chr 125 :: rest) + 3 <= nf ->
    close_to (fst (interp_members (g_write g) (map interp ms) l vs))
      (object_loop_depth n nf (read_member g (map (read nf) ms)) (read_member_depth g (map (read_depth nf) ms)) t vs)
      (list_max (map (member_reach ms g) l)).

Lemma interp_null ty v j : fst (interp ty v j) = RNull -> j = JNull.
Proof.
  destruct ty as [p|p| | |ty'|ms g]; intros H.
  - destruct v; try discriminate H. cbn [interp] in H. destruct p, j; simpl in H; (reflexivity || discriminate H).
  - cbn [interp] in H. destruct p, j; simpl in H; (reflexivity || discriminate H).
  - destruct j; simpl in H; (reflexivity || discriminate H).
  - destruct v, j; simpl in H; (reflexivity || discriminate H).
  - destruct v, j; cbn [interp] in H; try (reflexivity || discriminate H).
    pose proof (interp_elems_notnull (interp ty' (dflt ty')) l0 l).
    destruct (interp_elems (interp ty' (dflt ty')) l0 l). simpl in *. contradiction.
  - destruct v, j; cbn [interp] in H; try (reflexivity || discriminate H).
    pose proof (interp_members_notnull (g_write g) (map interp ms) l0 l).
    destruct (interp_members (g_write g) (map interp ms) l0 l). simpl in *. contradiction.
Qed.

Lemma reach_null ty : reach ty JNull = 1.
Proof. destruct ty; reflexivity. Qed.

(** One member: reading and skipping. *)
Lemma member_depth strict j x ms g : jtext strict j x -> D_text j x -> lookup_ok (TMsg ms g) ->
  forall name vs rest t n, shapes ms vs -> follow rest ->
  pos t (nolf (x ++ rest)) -> 2 * length (x ++ rest) + 3 <= n ->
  exists r vs1 t3, read_member g (map (read n) ms) name t vs = Some (r, vs1, t3) /\
    match r with
    | PGR_OK => read_member_depth g (map (read_depth n) ms) name t vs = member_reach ms g (name, j)
    | PGR_NIL => max (read_member_depth g (map (read_depth n) ms) name t vs) (ignore_depth n t3) = member_reach ms g (name, j)
    | PGR_ERROR => read_member_depth g (map (read_depth n) ms) name t vs <= member_reach ms g (name, j)
    end.
Proof.
  intros H IH LO name vs rest t n S F P L. apply lookup_ok_msg in LO as [LO LM].
  unfold read_member, read_member_depth, member_reach. rewrite LO. cbn [fst snd].
  assert (IG : ignore_depth n t = height j).
  { apply (proj1 (ignore_depth_sim strict) j x H rest t n (fun _ => F) P). lia. }
  destruct (member_named (g_write g) name) as [k|].
  2:{ eexists _, _, _. split; [reflexivity|]. cbv beta iota. rewrite IG. reflexivity. }
  rewrite !nth_error_map. destruct (nth_error ms k) as [ty|] eqn:M; cbn [option_map].
  2:{ eexists _, _, _. split; [reflexivity|]. cbv beta iota. rewrite IG. reflexivity. }
  destruct (Forall2_nth_error _ _ _ _ _ S M) as (v & V & Sv). rewrite V.
  assert (LOt : lookup_ok ty).
  { rewrite Forall_forall in LM. apply LM. eapply nth_error_In; eauto. }
  destruct (read_sim strict) as [RS _]. destruct (RS j x H) as [_ R].
  destruct (R ty v Sv LOt rest t n (delim_follow _ _ F) P L) as (t' & E & G & N).
  destruct (IH ty v Sv LOt rest t n (delim_follow _ _ F) P L) as [D1 D2].
  rewrite E. eexists _, _, _. split; [reflexivity|].
  destruct (fst (interp ty v j)) eqn:I; cbn [conv].
  - apply D2. discriminate.
  - rewrite N by reflexivity. rewrite IG, D2 by discriminate.
    apply interp_null in I. subst j. rewrite reach_null. reflexivity.
  - exact D1.
Qed.

Lemma list_max_cons x l : list_max (x :: l) = max x (list_max l).
Proof. reflexivity. Qed.

Lemma read_depth_sim strict :
  (forall j x, jtext strict j x -> jtext strict j x /\ D_text j x) /\
  (forall l u, jelems strict l u -> jelems strict l u /\ D_elems l u) /\
  (forall l u, jmembers strict l u -> jmembers strict l u /\ D_members l u).
Proof.
  destruct (read_sim strict) as [RS _].
  assert (Scalar : forall j x, jtext strict j x -> composite j = false -> D_text j x).
  { intros j x H C ty v S LO rest t n D P L.
    destruct (pos_first _ _ _ _ _ H D P) as [A _].
    rewrite (apart_depth n ty t v j); [apply close_eq| |exact A].
    destruct ty, j; try discriminate C; exact I. }
  assert (Arr : forall l body, jtext strict (JArr l) ([chr 91] ++ body ++ [chr 93]) ->
    (forall ty acc rest t n, lookup_ok ty ->
       pos t (nolf (body ++ chr 93 :: rest)) -> 2 * length (body ++ chr 93 :: rest) + 5 <= n ->
       close_to (fst (interp_elems (interp ty (dflt ty)) l acc))
         match tk_expect n T_ARRE t with
         | Some (false, t2) => array_loop_depth n n (read n ty) (read_depth n ty) (dflt ty) t2
         | _ => 0
         end (list_max (map (reach ty) l))) ->
    D_text (JArr l) ([chr 91] ++ body ++ [chr 93])).
  { intros l body H Body ty v S LO rest t n D P L.
    destruct (pos_first _ _ _ _ _ H D P) as [A _].
    destruct ty as [p|p| | |ty'|ms g];
      try (rewrite apart_depth with (j := JArr l); [apply close_eq|exact I|exact A]).
    destruct v; try discriminate.
    rewrite <- !app_assoc in P, L. cbn [app] in P, L.
    destruct (at_punct n t (chr 91) _ T_ARRS P eq_refl) as (_ & t1 & _ & E1 & P1); [len|].
    destruct (Body ty' l0 rest t1 n LO P1) as [G1 G2]; [len|].
    cbn [read_depth reach interp]. unfold read_array_depth. rewrite A. cbn [first_tok fst]. cbv iota.
    rewrite E1. destruct (interp_elems (interp ty' (dflt ty')) l l0) as [r l2]. cbn [fst] in *.
    split; [lia|]. intros NF. now rewrite (G2 NF). }
  assert (Obj : forall l body, jtext strict (JObj l) ([chr 123] ++ body ++ [chr 125]) ->
    (forall ms g vs rest t n, lookup_ok (TMsg ms g) -> shapes ms vs ->
       pos t (nolf (body ++ chr 125 :: rest)) -> 2 * length (body ++ chr 125 :: rest) + 5 <= n ->
       close_to (fst (interp_members (g_write g) (map interp ms) l vs))
         match tk_expect n T_OBJE t with
         | Some (false, t2) => object_loop_depth n n (read_member g (map (read n) ms)) (read_member_depth g (map (read_depth n) ms)) t2 vs
         | _ => 0
         end (list_max (map (member_reach ms g) l))) ->
    D_text (JObj l) ([chr 123] ++ body ++ [chr 125])).
  { intros l body H Body ty v S LO rest t n D P L.
    destruct (pos_first _ _ _ _ _ H D P) as [A _].
    destruct ty as [p|p| | |ty'|ms g];
      try (rewrite apart_depth with (j := JObj l); [apply close_eq|exact I|exact A]).
    destruct v; try discriminate.
    rewrite <- !app_assoc in P, L. cbn [app] in P, L.
    destruct (at_punct n t (chr 123) _ T_OBJS P eq_refl) as (_ & t1 & _ & E1 & P1); [len|].
    apply shape_msg in S.
    destruct (Body ms g l0 rest t1 n LO S P1) as [G1 G2]; [len|].
    cbn [read_depth reach interp]. unfold read_object_depth. rewrite A. cbn [first_tok fst]. cbv iota.
    rewrite E1. destruct (interp_members (g_write g) (map interp ms) l l0) as [r l2]. cbn [fst] in *.
    fold (member_reach ms g). change (map (fun m => _) l) with (map (member_reach ms g) l).
    split; [lia|]. intros NF. now rewrite (G2 NF). }
  apply jtext_jelems_jmembers_ind.
  - split; [constructor|]. apply Scalar; [constructor|reflexivity].
  - split; [constructor|]. apply Scalar; [constructor|reflexivity].
  - split; [constructor|]. apply Scalar; [constructor|reflexivity].
  - intros s H. split; [now constructor|]. apply Scalar; [now constructor|reflexivity].
  - intros t0 s H. split; [now constructor|]. apply Scalar; [now constructor|reflexivity].
  - intros w W. assert (J := jt_arr0 strict w W). split; [exact J|]. apply Arr; [exact J|].
    intros ty acc rest t n LO P L.
    destruct (at_punct_ws n t w (chr 93) rest T_ARRE W P eq_refl) as (A1 & t2 & _ & E2 & P2); [len|].
    rewrite E2. apply close_eq.
  - intros l u H [_ IH]. assert (J := jt_arr strict l u H). split; [exact J|]. apply Arr; [exact J|].
    intros ty acc rest t n LO P L.
    assert (tk_id t <> T_ARRE) as NA.
    { destruct H; rewrite <- !app_assoc in P; rewrite pos_ws in P by assumption.
      - assert (F : follow (w2 ++ chr 93 :: rest)).
        { apply follow_ws; auto. apply follow_closer. unfold closer. rewrite code_chr. lia. }
        destruct (pos_first _ _ _ _ _ H1 (delim_follow j _ F) P) as [-> _].
        destruct j as [|[]| | | |]; discriminate.
      - assert (F : follow (w2 ++ [chr 44] ++ u ++ chr 93 :: rest)).
        { apply follow_ws; auto. apply (follow_closer (chr 44)). unfold closer. rewrite code_chr. lia. }
        destruct (pos_first _ _ _ _ _ H1 (delim_follow j _ F) P) as [-> _].
        destruct j as [|[]| | | |]; discriminate. }
    rewrite expect_no by exact NA. eapply IH; [exact LO|exact P|lia|lia].
  - intros w W. assert (J := jt_obj0 strict w W). split; [exact J|]. apply Obj; [exact J|].
    intros ms g vs rest t n LO SH P L.
    destruct (at_punct_ws n t w (chr 125) rest T_OBJE W P eq_refl) as (A1 & t2 & _ & E2 & P2); [len|].
    rewrite E2. apply close_eq.
  - intros l u H [_ IH]. assert (J := jt_obj strict l u H). split; [exact J|]. apply Obj; [exact J|].
    intros ms g vs rest t n LO SH P L.
    assert (tk_id t <> T_OBJE) as NA.
    { assert (exists w k kt r, u = w ++ kt ++ r /\ ws w /\ jstring strict kt k) as (w & k & kt & r & -> & W & K).
      { destruct H; (eexists _, _, _, _; split; [reflexivity|split; eassumption]). }
      rewrite <- !app_assoc in P. rewrite pos_ws in P by assumption.
      rewrite nolf_app, (jstring_nolf _ _ _ K) in P.
      destruct (pos_lex _ _ _ _ _ P (lex_jstring strict kt k _ K)) as (-> & _). discriminate. }
    rewrite expect_no by exact NA. eapply IH; [exact LO|exact SH|exact P|lia|lia].
  - (* last element *)
    intros w1 w2 j x W1 W2 H [_ IH]. split; [now constructor|].
    intros ty LO acc rest t n nf P L Lf. rewrite <- !app_assoc in P, L, Lf.
    rewrite pos_ws in P by assumption.
    assert (F : follow (w2 ++ chr 93 :: rest)).
    { apply follow_ws; auto. apply follow_closer. unfold closer. rewrite code_chr. lia. }
    destruct n as [|n]; [lia|]. cbn [array_loop_depth interp_elems map]. rewrite list_max_cons.
    destruct (RS j x H) as [_ R].
    destruct (R ty (dflt ty) (dflt_shape ty) LO _ t nf (delim_follow j _ F) P) as (t1 & E1 & G1 & N1); [len|].
    destruct (IH ty (dflt ty) (dflt_shape ty) LO _ t nf (delim_follow j _ F) P) as [D1 D2]; [len|].
    rewrite E1. destruct (pos_first _ _ _ _ _ H (delim_follow j _ F) P) as [A _].
    destruct (interp ty (dflt ty) j) as [[| |] v]; cbn [fst snd conv] in *.
    + specialize (G1 eq_refl).
      destruct (at_punct_ws nf t1 w2 (chr 93) rest T_ARRE W2 G1 eq_refl) as (A2 & t2 & _ & E2 & P2); [len|].
      rewrite expect_no by (rewrite A2; discriminate). rewrite D2 by discriminate. apply close_eq.
    + rewrite N1 by reflexivity.
      rewrite expect_no by (rewrite A; destruct j as [|[]| | | |]; discriminate).
      rewrite D2 by discriminate. apply close_eq.
    + split; [cbn [list_max fold_right]; lia|]. intros K. now elim K.
  - (* more elements *)
    intros w1 w2 j x l u W1 W2 H [_ IH] H2 [_ IH2]. split; [now constructor|].
    intros ty LO acc rest t n nf P L Lf. rewrite <- !app_assoc in P, L, Lf.
    rewrite pos_ws in P by assumption.
    assert (F : follow (w2 ++ [chr 44] ++ u ++ chr 93 :: rest)).
    { apply follow_ws; auto. apply (follow_closer (chr 44)). unfold closer. rewrite code_chr. lia. }
    destruct n as [|n]; [lia|]. cbn [array_loop_depth interp_elems map]. rewrite list_max_cons.
    destruct (RS j x H) as [_ R].
    destruct (R ty (dflt ty) (dflt_shape ty) LO _ t nf (delim_follow j _ F) P) as (t1 & E1 & G1 & N1); [len|].
    destruct (IH ty (dflt ty) (dflt_shape ty) LO _ t nf (delim_follow j _ F) P) as [D1 D2]; [len|].
    rewrite E1. destruct (pos_first _ _ _ _ _ H (delim_follow j _ F) P) as [A _].
    destruct (interp ty (dflt ty) j) as [[| |] v]; cbn [fst snd conv] in *.
    + specialize (G1 eq_refl).
      destruct (at_punct_ws nf t1 w2 (chr 44) _ T_COMMA W2 G1 eq_refl) as (A2 & t2 & _ & E2 & P2); [len|].
      rewrite E2. rewrite D2 by discriminate.
      destruct (IH2 ty LO (acc ++ [v]) rest t2 n nf P2) as [K1 K2]; [len|len|].
      split; [lia|]. intros NF. now rewrite K2.
    + rewrite N1 by reflexivity.
      rewrite expect_no by (rewrite A; destruct j as [|[]| | | |]; discriminate).
      split; [lia|]. intros K. now elim K.
    + split; [lia|]. intros K. now elim K.
  - (* last member *)
    intros w1 w2 w3 w4 k kt j x W1 W2 W3 W4 K H [_ IH]. split; [now constructor|].
    intros ms g LO vs SH rest t n nf P L Lf. rewrite <- !app_assoc in P, L, Lf.
    rewrite pos_ws in P by assumption.
    assert (F : follow (w4 ++ chr 125 :: rest)).
    { apply follow_ws; auto. apply follow_closer. unfold closer. rewrite code_chr. lia. }
    destruct n as [|n]; [lia|]. cbn [object_loop_depth map]. cbv zeta. rewrite list_max_cons.
    rewrite nolf_app, (jstring_nolf _ _ _ K) in P.
    pose proof (lex_jstring strict kt k (nolf (w2 ++ [chr 58] ++ w3 ++ x ++ w4 ++ chr 125 :: rest)) K) as E0.
    destruct (pos_lex _ _ _ _ _ P E0) as (A0 & V0 & _).
    destruct (expect_yes nf t _ _ _ _ P E0) as (t1 & E1 & P1).
    { pose proof (nolf_length (w2 ++ [chr 58] ++ w3 ++ x ++ w4 ++ chr 125 :: rest)). len. }
    rewrite V0, E1.
    destruct (at_punct_ws nf t1 w2 (chr 58) _ T_COLON W2 P1 eq_refl) as (A2 & t2 & _ & E2 & P2); [len|].
    rewrite E2. rewrite pos_ws in P2 by assumption.
    destruct (member_depth strict j x ms g H IH LO k vs _ t2 nf SH F P2) as (r & vs1 & t3 & E3 & D3); [len|].
    destruct (RS j x H) as [_ R].
    destruct (member_sim strict j x ms g H R LO k vs _ t2 nf SH F P2) as
        [(vs' & t4 & E4 & P4 & SH4 & I4)|(vs' & t4 & E4 & I4)]; [len| |].
    + rewrite I4. cbn [interp_members fst]. rewrite E3 in *. destruct r; try discriminate E4.
      * injection E4 as -> ->. rewrite D3.
        destruct (at_punct_ws nf t4 w4 (chr 125) rest T_OBJE W4 P4 eq_refl) as (A5 & t5 & _ & E5 & P5); [len|].
        rewrite expect_no by (rewrite A5; discriminate). apply close_eq.
      * rewrite Nat.max_assoc, D3.
        destruct (ignore_value nf t3) as [[s tb]|]; [|discriminate E4]. injection E4 as -> -> ->.
        destruct (at_punct_ws nf t4 w4 (chr 125) rest T_OBJE W4 P4 eq_refl) as (A5 & t5 & _ & E5 & P5); [len|].
        rewrite expect_no by (rewrite A5; discriminate). apply close_eq.
    + rewrite I4. rewrite E3 in *. injection E4 as -> -> ->. cbn [list_max fold_right map].
      split; [lia|]. intros NF. now elim NF.
  - (* more members *)
    intros w1 w2 w3 w4 k kt j x l u W1 W2 W3 W4 K H [_ IH] H2 [_ IH2]. split; [now constructor|].
    intros ms g LO vs SH rest t n nf P L Lf. rewrite <- !app_assoc in P, L, Lf.
    rewrite pos_ws in P by assumption.
    assert (F : follow (w4 ++ [chr 44] ++ u ++ chr 125 :: rest)).
    { apply follow_ws; auto. apply (follow_closer (chr 44)). unfold closer. rewrite code_chr. lia. }
    destruct n as [|n]; [lia|]. cbn [object_loop_depth map]. cbv zeta. rewrite list_max_cons.
    rewrite nolf_app, (jstring_nolf _ _ _ K) in P.
    pose proof (lex_jstring strict kt k (nolf (w2 ++ [chr 58] ++ w3 ++ x ++ w4 ++ [chr 44] ++ u ++ chr 125 :: rest)) K) as E0.
    destruct (pos_lex _ _ _ _ _ P E0) as (A0 & V0 & _).
    destruct (expect_yes nf t _ _ _ _ P E0) as (t1 & E1 & P1).
    { pose proof (nolf_length (w2 ++ [chr 58] ++ w3 ++ x ++ w4 ++ [chr 44] ++ u ++ chr 125 :: rest)). len. }
    rewrite V0, E1.
    destruct (at_punct_ws nf t1 w2 (chr 58) _ T_COLON W2 P1 eq_refl) as (A2 & t2 & _ & E2 & P2); [len|].
    rewrite E2. rewrite pos_ws in P2 by assumption.
    destruct (member_depth strict j x ms g H IH LO k vs _ t2 nf SH F P2) as (r & vs1 & t3 & E3 & D3); [len|].
    destruct (RS j x H) as [_ R].
    destruct (member_sim strict j x ms g H R LO k vs _ t2 nf SH F P2) as
        [(vs' & t4 & E4 & P4 & SH4 & I4)|(vs' & t4 & E4 & I4)]; [len| |].
    + rewrite I4. rewrite E3 in *. destruct r; try discriminate E4.
      * injection E4 as -> ->. rewrite D3.
        destruct (at_punct_ws nf t4 w4 (chr 44) _ T_COMMA W4 P4 eq_refl) as (A5 & t5 & _ & E5 & P5); [len|].
        rewrite E5. destruct (IH2 ms g LO vs' SH4 rest t5 n nf P5) as [K1 K2]; [len|len|].
        split; [lia|]. intros NF. now rewrite K2.
      * rewrite Nat.max_assoc, D3.
        destruct (ignore_value nf t3) as [[s tb]|]; [|discriminate E4]. injection E4 as -> -> ->.
        destruct (at_punct_ws nf t4 w4 (chr 44) _ T_COMMA W4 P4 eq_refl) as (A5 & t5 & _ & E5 & P5); [len|].
        rewrite E5. destruct (IH2 ms g LO vs' SH4 rest t5 n nf P5) as [K1 K2]; [len|len|].
        split; [lia|]. intros NF. now rewrite K2.
    + rewrite I4. rewrite E3 in *. injection E4 as -> -> ->.
      split; [lia|]. intros NF. now elim NF.
Qed.

(** ** Whole documents *)
Lemma doc_depth strict ty v j inp po : jdoc strict j inp -> shape ty v = true -> lookup_ok ty ->
  close_to (fst (interp ty v j)) (deserialize_depth ty v inp po) (reach ty j).
Proof.
  intros (w1 & w2 & x & -> & W1 & W2 & J) S LO. unfold deserialize_depth.
  assert (LN : 2 * length (w1 ++ x ++ w2) + 3 <= fuel_for (w1 ++ x ++ w2)) by (unfold fuel_for; lia).
  set (n := fuel_for (w1 ++ x ++ w2)) in *. clearbody n.
  destruct (tk_make_pos n (w1 ++ x ++ w2) (p_err (ctx_params po))) as (t & -> & P); [lia|].
  rewrite pos_ws in P by assumption.
  destruct (read_depth_sim strict) as [RS _]. destruct (RS j x J) as [_ R].
  apply (R ty v S LO w2 t n); [|exact P|len].
  unfold delim. destruct (composite j); auto using ws_sep.
Qed.

(** ** Bounds *)
Lemma list_max_le_map {A} (f g : A -> nat) l : Forall (fun x => f x <= g x) l ->
  list_max (map f l) <= list_max (map g l).
Proof. induction 1; [apply Nat.le_refl|]. cbn [map]. rewrite !list_max_cons. lia. Qed.

Lemma list_max_bound l m : Forall (fun x => x <= m) l -> list_max l <= m.
Proof. intros H. now apply list_max_le. Qed.

Lemma reach_msg ms g l : reach (TMsg ms g) (JObj l) = S (list_max (map (member_reach ms g) l)).
Proof. reflexivity. Qed.

Lemma height_pos j : 1 <= height j.
Proof. destruct j; simpl; lia. Qed.

Lemma reach_height ty : forall j, reach ty j <= height j.
Proof.
  induction ty as [p|p| | |ty IH|ms g IH] using ty_ind2; intros j; try apply height_pos.
  - destruct j; try (cbn [reach]; apply height_pos). cbn [reach height]. apply le_n_S.
    apply list_max_le_map. apply Forall_forall. auto.
  - destruct j; try (cbn [reach]; apply height_pos). rewrite reach_msg. cbn [height]. apply le_n_S.
    apply list_max_le_map. apply Forall_forall. intros [name j] _. unfold member_reach. cbn [fst snd].
    destruct (member_named (g_write g) name) as [k|]; [|apply Nat.le_refl].
    rewrite nth_error_map. destruct (nth_error ms k) as [t'|] eqn:M; cbn [option_map]; [|apply Nat.le_refl].
    rewrite Forall_forall in IH. apply IH. eapply nth_error_In; eauto.
Qed.

Lemma levels_pos ty : 1 <= levels ty.
Proof. destruct ty; simpl; lia. Qed.

Lemma list_max_in x l : In x l -> x <= list_max l.
Proof.
  intros H. pose proof (proj1 (list_max_le l (list_max l)) (Nat.le_refl _)) as K.
  rewrite Forall_forall in K. auto.
Qed.

Lemma known_reach ty : forall j, known ty j -> reach ty j <= levels ty.
Proof.
  induction ty as [p|p| | |ty IH|ms g IH] using ty_ind2; intros j K; try apply Nat.le_refl.
  - destruct j; try (cbn [reach levels]; lia). cbn [reach levels known] in *. apply le_n_S.
    apply list_max_bound. rewrite Forall_forall in *. intros x Hx. apply in_map_iff in Hx as (y & <- & Hy). auto.
  - destruct j; try (cbn [reach levels]; lia). rewrite reach_msg. cbn [levels known] in *. apply le_n_S.
    apply list_max_bound. rewrite Forall_forall in *. intros x Hx. apply in_map_iff in Hx as ([name j] & <- & Hy).
    specialize (K _ Hy). unfold member_reach. cbn [fst snd] in *.
    destruct (member_named (g_write g) name) as [k|]; [|contradiction].
    rewrite nth_error_map in *. destruct (nth_error ms k) as [t'|] eqn:M; cbn [option_map] in *; [|contradiction].
    apply nth_error_In in M. apply (Nat.le_trans _ (levels t')); [now apply IH|].
    apply list_max_in. now apply in_map.
Qed.

(** ** A document as deep as one likes *)
Fixpoint deep (d : nat) : jval := match d with O => JArr [] | S d' => JArr [deep d'] end.
Fixpoint deep_text (d : nat) : bytes :=
  match d with O => b "[]" | S d' => [chr 91] ++ deep_text d' ++ [chr 93] end.

Lemma deep_jtext d : jtext true (deep d) (deep_text d).
Proof.
  induction d as [|d IH]; cbn [deep deep_text]; [exact (jt_arr0 true [] eq_refl)|].
  apply jt_arr. pose proof (je_one true [] [] _ _ eq_refl eq_refl IH) as E. now rewrite app_nil_r in E.
Qed.

Lemma deep_height d : height (deep d) = S d.
Proof. induction d as [|d IH]; [reflexivity|]. cbn [deep height map]. rewrite IH, list_max_cons. cbn. lia. Qed.

Lemma deep_length d : length (deep_text d) = 2 * d + 2.
Proof. induction d as [|d IH]; [reflexivity|]. cbn [deep_text]. rewrite !app_length, IH. cbn [length]. lia. Qed.

(** A name of no member. *)
Definition stranger (g : gencode) : bytes := repeat (chr 97) (S (list_max (map (fun m => length (snd m)) (g_write g)))).

Lemma stranger_none g : member_named (g_write g) (stranger g) = None.
Proof.
  unfold stranger. assert (H : forall l m, list_max (map (fun m => length (snd m)) l) < m ->
    member_named l (repeat (chr 97) m) = None).
  { clear. induction l as [|[k n] l IH]; intros m H; [reflexivity|]. cbn [map snd] in H. rewrite list_max_cons in H.
    cbn [member_named]. destruct (bytes_eqb n (repeat (chr 97) m)) eqn:E.
    - apply bytes_eqb_true in E. rewrite E, repeat_length in H. lia.
    - apply IH. lia. }
  apply H. lia.
Qed.

Lemma jchars_as m : jchars true (repeat (chr 97) m) (repeat (chr 97) m).
Proof.
  induction m as [|m IH]; [constructor|]. cbn [repeat]. constructor; [|exact IH].
  unfold raw_char. rewrite code_chr. cbn. lia.
Qed.

Definition deep_doc (g : gencode) (d : nat) : bytes :=
  [chr 123] ++ ([] ++ ([chr 34] ++ stranger g ++ [chr 34]) ++ [] ++ [chr 58] ++ [] ++ deep_text d ++ []) ++ [chr 125].

Lemma deep_doc_jdoc g d : jdoc true (JObj [(stranger g, deep d)]) (deep_doc g d).
Proof.
  exists [], [], (deep_doc g d). rewrite app_nil_r. repeat split. unfold deep_doc. apply jt_obj.
  apply jm_one; try reflexivity; [|apply deep_jtext].
  eexists. split; [reflexivity|]. apply jchars_as.
Qed.

Lemma deep_doc_length g d : length (deep_doc g d) = 2 * d + length (stranger g) + 7.
Proof. unfold deep_doc. rewrite !app_length, deep_length. cbn [length]. lia. Qed.

Lemma too_deep ms g vs po : shape (TMsg ms g) (VMsg vs) = true -> lookup_ok (TMsg ms g) ->
  exists k, forall limit, exists inp j po', jdoc true j inp /\ length inp <= 2 * limit + k /\
    deserialize (TMsg ms g) (VMsg vs) inp po = Some (true, VMsg vs, po') /\
    deserialize_within limit (TMsg ms g) (VMsg vs) inp po = SOverflow.
Proof.
  intros S LO. exists (length (stranger g) + 7). intros limit.
  pose proof (deep_doc_jdoc g limit) as D.
  destruct (deserialize_interp true _ _ _ _ po D S LO) as (po' & E).
  pose proof (doc_depth true _ _ _ _ po D S LO) as [_ X].
  cbn [interp interp_members] in E, X. rewrite stranger_none in E, X. cbn [fst snd good] in E, X.
  exists (deep_doc g limit), (JObj [(stranger g, deep limit)]), po'.
  split; [exact D|]. split; [rewrite deep_doc_length; lia|]. split; [exact E|].
  unfold deserialize_within. rewrite X by discriminate. rewrite reach_msg. cbn [map].
  unfold member_reach. cbn [fst snd]. rewrite stranger_none, deep_height, list_max_cons.
  destruct (Nat.leb_spec (Datatypes.S (Nat.max (Datatypes.S limit) (list_max []))) limit) as [K|K]; [lia|reflexivity].
Qed.
