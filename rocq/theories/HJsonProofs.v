(** json<T>::read from the text, for every type. *)
From Coq Require Import Lia Arith.
From Verif Require Import Bytes Num Dbl Types Stream Tokenizer Read Write Template Cpp CLex CParse CExec Unit HdrText HText HParse HExec HTok BaseProofs
  SpecInterp SpecRange Termination ErrProofs SpecHTok HTokProofs HIgnProofs HJson CLexProofs CExecProofs HRunProofs HReadProofs HListProofs HB64Proofs.

(** The functions of the texts. *)
Lemma the_parts : x_consts the_texts = consts /\ x_stream the_texts = stream_funs /\ x_tok the_texts = tok_funs.
Proof. vm_compute. auto. Qed.

Section J.
Context (N d : nat) (ea sn : bool) (D0 : (2 <= d)%nat).
Notation X := the_texts.

Lemma own_call : forall own cs ext f fn args s, hfind own f = Some fn ->
  json_call N d ea X own cs ext f args s = run_fun N (cs ++ consts) ea CNone (callJ N d ea X own cs ext (d - 1)) fn args s.
Proof.
  intros own cs ext f fn args s H. unfold json_call. destruct d as [|k] eqn:E; [lia|]. cbn [callJ]. rewrite H.
  rewrite (proj1 the_parts). rewrite Nat.sub_succ, Nat.sub_0_r. reflexivity.
Qed.
Lemma tok_calls_J : forall own cs ext, tok_calls N d ea (callJ N d ea X own cs ext (d - 1)).
Proof.
  intros own cs ext ws args s. assert (exists k, (d - 1 = S k)%nat) as [k ->] by (exists (d - 2)%nat; lia). cbn [callJ].
  destruct the_parts as [-> [-> ->]]. reflexivity.
Qed.
Lemma ext_call : forall own cs ext ws args s, match ws with [f] => hfind own f | _ => None end = None ->
  callJ N d ea X own cs ext (d - 1) OName ws args s = ext ws args s.
Proof.
  intros own cs ext ws args s H. assert (exists k, (d - 1 = S k)%nat) as [k ->] by (exists (d - 2)%nat; lia). cbn [callJ].
  rewrite H. reflexivity.
Qed.
Lemma scoped_call : forall w g f args s, after_words w (w ++ [f]) = Some [f] -> scoped w g (w ++ [f]) args s = g f args s.
Proof. intros w g f args s H. unfold scoped. rewrite H. reflexivity. Qed.
Lemma reads_eq : forall A (P : A -> Prop) inj f f' rd, (forall args s, f args s = f' args s) -> reads N d P inj f rd -> reads N d P inj f' rd.
Proof.
  intros A P inj f f' rd E H n t v r v' t' R K M D. destruct (H n t v r v' t' R K M D) as [L W]. split; [exact L|].
  intros vars a x o CA G. rewrite <- E. apply W; assumption.
Qed.
(** From values of a part of the type to those of the type. *)
Lemma reads_inj : forall A (P : A -> Prop) (inj : A -> val) (Q : val -> Prop) f rd rd',
  reads N d P (fun v => HM (inj v)) f rd ->
  (forall n t v r v' t', rd' n t v = Some (r, v', t') -> Q v -> exists w w', v = inj w /\ v' = inj w' /\ P w /\ rd n t w = Some (r, w', t')) ->
  reads N d Q HM f rd'.
Proof.
  intros A P inj Q f rd rd' H E n t v r v' t' R K M D. destruct (E n t v r v' t' R K) as [w [w' [-> [-> [Pw Rw]]]]].
  exact (H n t w r w' t' Rw Pw M D).
Qed.

Lemma prim_reads : forall p, reads N d (prim_kind p) (fun v => HM (VPrim v)) (prim_call N d ea X p (b "read")) (fun n => read_prim n p).
Proof.
  intros p. destruct p.
  1,2,3: eapply reads_eq; [intros args s; symmetry; refine (own_call _ _ _ _ fn_nread _ _ _); reflexivity|];
    eapply nread; [discriminate|apply tok_calls_J|];
    intros a x s L; rewrite ext_call by reflexivity; unfold call_number; rewrite L; reflexivity.
  eapply reads_eq; [intros args s; symmetry; refine (own_call _ _ _ _ fn_bread _ _ _); reflexivity|].
  apply bread. apply tok_calls_J.
Qed.
Lemma prim_clears : forall p, clears p (prim_call N d ea X p (b "clear")).
Proof.
  intros p t vars x o w G E. destruct p; cbn [prim_call]; (erewrite own_call by reflexivity);
    first [eapply nclear; eassumption|eapply bclear; eassumption].
Qed.

Lemma pval_kind : forall p v, pval_ok p v = true -> prim_kind p v.
Proof. intros p v H ->. destruct v; try discriminate H. eauto. Qed.

Notation "'texts'" := (json_text N d ea sn X).
Definition text_reads (ty0 : ty) : Prop := reads N d (fun v => has_ty ty0 v = true) HM (texts ty0 (b "read")) (fun n => read n ty0).

Lemma reads_prim : forall p, text_reads (TPrim p).
Proof.
  intros p. eapply (reads_inj pval); [apply prim_reads|]. intros n t v r v' t' R H. destruct v; try discriminate H. cbn [read] in R.
  destruct (read_prim n p t p0) as [[[r1 x] t1]|] eqn:E; [|discriminate R]. injection R as <- <- <-.
  exists p0, x. repeat split; auto using pval_kind.
Qed.
Lemma reads_field : forall p, text_reads (TField p).
Proof.
  intros p. unfold text_reads. cbn [json_text].
  eapply reads_eq; [intros args s; symmetry; refine (own_call _ _ _ _ fn_fread _ _ _); reflexivity|].
  intros n t v r v' t' R H M D. refine (fread N d ea p _ _ _ n t v r v' t' _ _ M D).
  - intros t0 vars x o w G E. rewrite ext_call by reflexivity. rewrite scoped_call by reflexivity. apply prim_clears with (w := w); assumption.
  - eapply reads_eq; [|apply prim_reads]. intros args s. cbv beta. rewrite ext_call by reflexivity. rewrite scoped_call by reflexivity. reflexivity.
  - exact R.
  - destruct v; try discriminate H. exact I.
Qed.
Lemma as_string_other : forall s a, match load s a with Some (HM (VStr _ _)) => false | _ => true end = true -> as_string s a = a.
Proof. intros s a H. unfold as_string. destruct (load s a) as [[]|]; try reflexivity. destruct v; try reflexivity. discriminate H. Qed.
Lemma reads_string : reads N d (fun _ => True) HS (string_call N d ea X (b "read")) read_string.
Proof.
  unfold string_call. eapply reads_eq; [intros args s; symmetry; refine (own_call _ _ _ _ fn_sread _ _ _); reflexivity|].
  apply sread. apply tok_calls_J.
Qed.
Lemma reads_strfield : text_reads TStr.
Proof.
  unfold text_reads. cbn [json_text].
  eapply reads_eq; [intros args s; symmetry; refine (own_call _ _ _ _ fn_sfread _ _ _); reflexivity|].
  intros n t v r v' t' R H M D. refine (sfread N d ea _ _ n t v r v' t' _ _ M D).
  - intros n0 t0 v0 r0 v0' t0' R0 H0 M1 D1. destruct (reads_string n0 t0 v0 r0 v0' t0' R0 I M1 D1) as [L W]. split; [exact L|].
    intros vars a x o A G. rewrite ext_call by reflexivity. rewrite scoped_call by reflexivity. cbn [map].
    rewrite (as_string_other _ a) by (rewrite (ctx_load _ t0 o _ A); reflexivity).
    rewrite (as_string_other _ (HL (RVar x) [])).
    2: { cbn [load]. unfold peek_at. cbn [get_root s_vars mem]. rewrite G. reflexivity. }
    apply W; assumption.
  - exact R.
  - destruct v; try discriminate H. exact I.
Qed.
Lemma reads_b64 : text_reads TB64.
Proof.
  unfold text_reads. cbn [json_text].
  eapply reads_eq; [intros args s; symmetry; refine (own_call _ _ _ _ fn_b64read _ _ _); reflexivity|].
  eapply (reads_inj bytes (fun _ => True) VB64); [eapply bread64; [apply tok_calls_J|]|].
  - intros t a z vars o Z L. assert (exists k, (d - 1 = S k)%nat) as [k ->] by (exists (d - 2)%nat; lia). cbn [callJ].
    rewrite (proj1 the_parts). change (hfind (x_b64 X) (b "b64_int")) with (Some fn_b64int). cbv iota. apply int_run; assumption.
  - intros n t v r v' t' R H. destruct v; try discriminate H. cbn [read] in R.
    assert (exists w, v' = VB64 w) as [w ->].
    { unfold read_b64, rfail in R. destruct (tk_id t); try (injection R as <- <- <-; eauto).
      destruct (tk_next n t); [|discriminate R]. destruct (b64_decode (cstr (t_val (tk_cur t)))). injection R as <- <- <-. eauto. }
    exists s, w. repeat split. rewrite R. reflexivity.
Qed.
Lemma reads_rep : forall t', ty_wf t' -> text_reads t' -> text_reads (TRep t').
Proof.
  intros t' W IH. unfold text_reads. cbn [json_text].
  eapply reads_eq; [intros args s; symmetry; refine (own_call _ _ _ _ fn_aread _ _ _); reflexivity|].
  eapply (reads_inj (list val) (fun _ => True) VList).
  - eapply (aread N d ea (fun v => has_ty t' v = true) (fun n => read n t')); [apply tok_calls_J|apply (dflt_ty t' W)|].
    eapply reads_eq; [|exact IH]. intros args s. rewrite ext_call by reflexivity. rewrite scoped_call by reflexivity. reflexivity.
  - intros n t v r v' t1 R H. destruct v; try discriminate H. cbn [read] in R.
    destruct (read_array n (read n t') (dflt t') t l) as [[[r1 x] t2]|] eqn:E; [|discriminate R]. injection R as <- <- <-.
    exists l, x. repeat split. exact E.
Qed.

(** ** Messages *)
Lemma update_same : forall vars x (w : hvar), assoc vars x = Some w -> update vars x w = vars.
Proof.
  induction vars as [|[y u] vars IH]; intros x w H; [discriminate H|]. cbn [assoc update] in *. destruct (same y x) eqn:E; [congruence|].
  rewrite IH by exact H. reflexivity.
Qed.
Lemma reads_msg : forall ms g, ty_wf (TMsg ms g) -> Forall text_reads ms -> text_reads (TMsg ms g).
Proof.
  intros ms g W IH. assert (WS : Forall ty_wf ms) by (inversion W; assumption).
  unfold text_reads. cbn [json_text].
  eapply (reads_inj (list val) (fun vs => has_ty (TMsg ms g) (VMsg vs) = true) VMsg).
  - eapply reads_eq; [intros args s; symmetry; change (same (b "read") (b "read")) with true; cbv iota; refine (own_call _ _ _ _ fn_oread _ _ _); reflexivity|].
    eapply (oread N d ea (fun vs => has_ty (TMsg ms g) (VMsg vs) = true) (fun n => read_member g (map (read n) ms))); [apply tok_calls_J|].
    intros n name t vs r vs' t' R H M D. unfold read_member in R.
    assert (K : forall vars o, assoc vars (b "ctx") = Some (VarVal HCtx) -> assoc vars (b "name") = Some (VarVal (HS name)) -> assoc vars (b "object") = Some (VarVal (HM (VMsg vs))) ->
      field_call g (map texts ms) [HL (RVar (b "ctx")) []; HL (RVar (b "name")) []; HL (RVar (b "object")) []] (mem vars t o) =
      match select_member g name with None => Some (HV (HI IInt 2), mem vars t o) | Some k => member_call (map texts ms) k (b "object") vs (mem vars t o) end).
    { intros vars o A B C. unfold field_call. cbn [load]. unfold peek_at. cbn [get_root s_vars mem]. rewrite A, B, C. reflexivity. }
    assert (NIL : r = PGR_NIL -> vs' = vs -> t' = t -> goes N t t' /\ has_ty (TMsg ms g) (VMsg vs') = true).
    { intros _ -> ->. split; [apply goes_refl|exact H]. }
    destruct (select_member g name) as [k|] eqn:SM.
    2: { injection R as <- <- <-. destruct (NIL eq_refl eq_refl eq_refl) as [NA NB]. split; [exact NA|]. split; [exact NB|].
      intros vars o A B C. rewrite ext_call by reflexivity. etransitivity; [exact (K vars o A B C)|]. rewrite (update_same _ _ _ C). reflexivity. }
    rewrite nth_error_map in R. destruct (nth_error ms k) as [mt|] eqn:EM.
    + cbn [option_map] in R. destruct (nth_error vs k) as [v|] eqn:EV.
      * destruct (read n mt t v) as [[[r1 v1] t1]|] eqn:E; [|discriminate R]. injection R as <- <- <-.
        assert (HT := has_ty_msg_nth _ _ _ _ _ _ H EM EV).
        assert (WT : ty_wf mt) by (rewrite Forall_forall in WS; apply WS; eapply nth_error_In; exact EM).
        assert (RT : text_reads mt) by (rewrite Forall_forall in IH; apply IH; eapply nth_error_In; exact EM).
        destruct (RT n t v r1 v1 t1 E HT M D) as [L Z]. split; [exact L|]. split.
        { eapply has_ty_msg_set; [exact H|exact EM|]. eapply (read_sound n mt WT); eassumption. }
        intros vars o A B C. rewrite ext_call by reflexivity. etransitivity; [exact (K vars o A B C)|]. unfold member_call.
        rewrite nth_error_map, EM, EV. cbn [option_map]. change (put_vars (mem vars t o) ?z) with (mem z t o).
        rewrite (Z [(b "m", VarVal (HM v))] (HV HCtx) (b "m") o (or_introl eq_refl) eq_refl). reflexivity.
      * injection R as <- <- <-. destruct (NIL eq_refl eq_refl eq_refl) as [NA NB]. split; [exact NA|]. split; [exact NB|].
        intros vars o A B C. rewrite ext_call by reflexivity. etransitivity; [exact (K vars o A B C)|]. unfold member_call.
        rewrite nth_error_map, EM, EV. cbn [option_map]. rewrite (update_same _ _ _ C). reflexivity.
    + injection R as <- <- <-. destruct (NIL eq_refl eq_refl eq_refl) as [NA NB]. split; [exact NA|]. split; [exact NB|].
      intros vars o A B C. rewrite ext_call by reflexivity. etransitivity; [exact (K vars o A B C)|]. unfold member_call.
      rewrite nth_error_map, EM. cbn [option_map]. rewrite (update_same _ _ _ C). reflexivity.
  - intros n t v r v' t' R H. destruct v as [| | | | |vs]; try discriminate H. cbn [read] in R.
    destruct (read_object n (read_member g (map (read n) ms)) t vs) as [[[r1 x] t2]|] eqn:E; [|discriminate R]. injection R as <- <- <-.
    exists vs, x. repeat split; assumption.
Qed.

Theorem text_read : forall ty0, ty_wf ty0 -> text_reads ty0.
Proof.
  induction ty0 using ty_ind2; intros W.
  - apply reads_prim.
  - apply reads_field.
  - apply reads_strfield.
  - apply reads_b64.
  - assert (W' : ty_wf ty0) by (inversion W; assumption). apply reads_rep; auto.
  - apply reads_msg; [exact W|]. assert (WS : Forall ty_wf ms) by (inversion W; assumption).
    clear W. induction ms as [|m ms IHm]; [constructor|]. apply Forall_cons_iff in H as [H1 H2]. apply Forall_cons_iff in WS as [W1 W2]. constructor; auto.
Qed.
End J.
