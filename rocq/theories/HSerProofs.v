(** json<T>::write from the text, for every type. *)
From Coq Require Import Lia Arith.
From Verif Require Import Bytes Num Dbl Types Stream Tokenizer Read Write Template Cpp CLex CParse CExec Unit HdrText HText HParse HExec HTok BaseProofs
  SpecInterp SpecRange Termination ErrProofs SpecHTok HTokProofs HIgnProofs HJson CLexProofs CExecProofs HRunProofs HReadProofs HListProofs HB64Proofs HJsonProofs
  HWriteProofs HStrProofs HEncProofs SpecHJson.

Definition fn_awrite := Eval vm_compute in fn_of (x_arr the_texts) "write".
Definition arr_loop := Eval vm_compute in match nth 2 (hf_body fn_awrite) TBreak with TFor _ c p st => (c, p, st) | _ => (EBool false, [], TBreak) end.

Section A.
Context (N : nat) (dv : val) (ea : bool) (call : call_t).
Notation cs' := (arr_consts dv).
Notation run := (hexec N cs' ea CNone call).
Definition arr_wvars (rest : list val) (i : nat) (l : list val) : list (bytes * hvar) :=
  [(b "it", VarVal (HMIt rest)); (b "t", VarVal (HI ISize (Z.of_nat (length l)))); (b "i", VarVal (HI ISize (Z.of_nat i)));
   (b "ctx", VarVal HCtx); (b "value", VarVal (HM (VList l)))].

Context (P : val -> Prop) (wr : val -> errinfo -> wres).
Context (EL : writes P HM (fun args s => call OName (w_elem ++ [b "write"]) args s) wr).

Lemma arr_while : forall rest n i l t o x e, (length rest < n)%nat -> (i + length rest = length l)%nat -> Z.of_nat (length l) <= 9223372036854775807 ->
  Forall P rest -> write_elems wr rest (tk_err t) = (x, e) ->
  while_loop n (hcond cs' ea CNone call (fst (fst arr_loop))) (heffects cs' ea CNone call (snd (fst arr_loop))) (run 19 (snd arr_loop))
    (mem (arr_wvars rest i l) t o) = Some (GNext, mem (arr_wvars [] (i + length rest) l) (with_err t e) (o ++ x)).
Proof.
  induction rest as [|v rest IH]; intros n i l t o x e F L B PS W; (destruct n as [|n]; [cbn [length] in F; lia|]); rewrite while_loop_S.
  - injection W as <- <-. rewrite with_same, app_nil_r. cbn [length]. rewrite Nat.add_0_r. reflexivity.
  - cbn [write_elems] in W. destruct (wr v (tk_err t)) as [[r1 o1] e1] eqn:E1. inversion PS as [|? ? Pv Prest]; subst.
    cbn [length] in *.
    assert (C : hcond cs' ea CNone call (fst (fst arr_loop)) (mem (arr_wvars (v :: rest) i l) t o) = Some (true, mem (arr_wvars (v :: rest) i l) t o)) by reflexivity.
    rewrite C. clear C.
    set (sep := match rest with [] => [] | _ => [chr 44] end).
    assert (R : run 19 (snd arr_loop) (mem (arr_wvars (v :: rest) i l) t o) = Some (GNext, mem (arr_wvars (v :: rest) i l) (with_err t e1) ((o ++ o1) ++ sep))).
    { unfold arr_loop, snd. eapply (g_block N cs' ea call _ _ _ GNext (mem (arr_wvars (v :: rest) i l) (with_err t e1) ((o ++ o1) ++ sep))); [cbv [length]|].
      - eapply (seq_next _ _ _ _ _ (mem (arr_wvars (v :: rest) i l) (with_err t e1) (o ++ o1))).
        { eapply g_expr. etransitivity; [|eapply (EL v t r1 o1 e1 Pv E1 _ (HL (RVar (b "ctx")) []) (HV (HM v))); [right; exists (b "ctx"); split; reflexivity|reflexivity]]. reflexivity. }
        assert (C : forall t0 o0, hcond cs' ea CNone call (EBin (b "<") (EBin (b "+") (EName [b "i"]) (ENum false 1)) (EName [b "t"])) (mem (arr_wvars (v :: rest) i l) t0 o0) =
          Some (Z.of_nat i + 1 <? Z.of_nat (length l), mem (arr_wvars (v :: rest) i l) t0 o0)).
        { intros t0 o0. eapply c_cmp; [reflexivity|eapply iv_bin; [reflexivity|eapply iv_name; reflexivity|eapply iv_num; reflexivity|apply ar_size; lia]|eapply iv_name; reflexivity|reflexivity]. }
        destruct rest as [|v2 rest].
        + nx; [eapply g_none; eapply c_eq; [apply C|]; cbn [length] in L; lia|]. subst sep. cbv iota. rewrite app_nil_r. apply seq_end.
        + nx; [eapply g_if; [eapply c_eq; [apply C|]; cbn [length] in L; lia|eapply put_one; reflexivity]|]. apply seq_end.
      - reflexivity. }
    rewrite R. clear R. cbv iota.
    assert (ST : forall t0 o0, heffects cs' ea CNone call (snd (fst arr_loop)) (mem (arr_wvars (v :: rest) i l) t0 o0) = Some (mem (arr_wvars rest (i + 1) l) t0 o0)).
    { intros t0 o0. transitivity (Some (mem (update (arr_wvars rest i l) (b "i") (VarVal (HI ISize (cast_int false 64 (Z.of_nat i + 1))))) t0 o0)); [reflexivity|].
      rewrite size_id by lia. unfold arr_wvars. rewrite Nat2Z.inj_add. reflexivity. }
    rewrite ST. clear ST.
    destruct rest as [|v2 rest].
    + injection W as <- <-. rewrite (IH n (i + 1)%nat l (with_err t e1) ((o ++ o1) ++ sep) [] e1); [|cbn [length] in *; lia..|assumption|exact Prest|reflexivity].
      unfold sep. rewrite !app_nil_r. cbn [length]. rewrite Nat.add_0_r. reflexivity.
    + destruct (write_elems wr (v2 :: rest) e1) as [o2 e2] eqn:E2. injection W as <- <-.
      rewrite (IH n (i + 1)%nat l (with_err t e1) ((o ++ o1) ++ sep) o2 e2); [|cbn [length] in *; lia..|assumption|exact Prest|exact E2].
      unfold sep. rewrite <- !app_assoc. replace (i + 1 + length (v2 :: rest))%nat with (i + S (length (v2 :: rest)))%nat by lia. reflexivity.
Qed.

Lemma awrite : writes (fun l => (length l < N)%nat /\ Z.of_nat (length l) <= 9223372036854775807 /\ Forall P l) (fun l => HM (VList l))
  (run_fun N cs' ea CNone call fn_awrite) (fun l e => let '(o, e1) := write_elems wr l e in (PGR_OK, [chr 91] ++ o ++ [chr 93], e1)).
Proof.
  intros l t r x e [K [B PS]] W vars a c o A G. destruct (write_elems wr l (tk_err t)) as [y e1] eqn:E. injection W as <- <- <-.
  assert (L := arr_while l N 0 l t (o ++ [chr 91]) y e1 K eq_refl B PS E).
  match goal with |- _ = Some (_, mem _ _ ?z) => replace z with (((o ++ [chr 91]) ++ y) ++ [chr 93]) by (rewrite <- !app_assoc; reflexivity) end.
  eapply (run_val N _ ea call fn_awrite (b "value")); [reflexivity|exact A|exact G|reflexivity| |].
  { body fn_awrite. nx; [eapply put_one; reflexivity|]. nx; [reflexivity|].
    eapply (seq_next _ _ _ _ _ (mem (skipn 1 (arr_wvars [] (length l) l)) (with_err t e1) ((o ++ [chr 91]) ++ y))).
    { eapply g_for; [reflexivity|exact L|]. reflexivity. }
    nx; [eapply put_one; reflexivity|]. rt. reflexivity. }
  reflexivity.
Qed.
End A.

Section J.
Context (N d : nat) (ea sn : bool) (D0 : (3 <= d)%nat).
Notation X := the_texts.
Let D2 : (2 <= d)%nat. Proof. lia. Qed.

Lemma writes_eq : forall A (P : A -> Prop) inj f f' w, (forall args s, f args s = f' args s) -> writes P inj f w -> writes P inj f' w.
Proof. intros A P inj f f' w E H v t r x e K W vars a c o CA G. rewrite <- E. eapply H; eassumption. Qed.
(** From values of a part of the type to those of the type. *)
Lemma writes_inj : forall A (P : A -> Prop) (inj : A -> val) (Q : val -> Prop) f w w',
  writes P (fun v => HM (inj v)) f w -> (forall v e, Q v -> exists u, v = inj u /\ P u /\ w' v e = w u e) -> writes Q HM f w'.
Proof.
  intros A P inj Q f w w' H E v t r x e K W vars a c o CA G. destruct (E v (tk_err t) K) as [u [-> [Pu Wu]]]. rewrite Wu in W. eapply H; eassumption.
Qed.

Lemma prim_writes : forall p, writes (fun v => pval_ok p v = true) (fun v => HM (VPrim v)) (prim_call N d ea X p (b "write")) (fun v e => (PGR_OK, prim_text v, e)).
Proof.
  intros p. destruct p.
  1,2,3: eapply writes_eq; [intros args s; symmetry; refine (own_call N d ea D2 _ _ _ _ fn_nwrite _ _ _); reflexivity|];
    intros v t r x e _ W; refine (nwrite N ea _ _ _ _ v t r x e I W); [discriminate|];
    intros a y s L; rewrite ext_call by first [assumption|reflexivity]; unfold call_number; rewrite L; reflexivity.
  eapply writes_eq; [intros args s; symmetry; refine (own_call N d ea D2 _ _ _ _ fn_bwrite _ _ _); reflexivity|].
  intros v t r x e K W. refine (bwrite N ea _ v t r x e _ W). destruct v; try discriminate K. eauto.
Qed.

Notation "'texts'" := (json_text N d ea sn X).
Definition small (v : val) : Prop := (longest v < N)%nat /\ Z.of_nat (longest v) <= 9223372036854775807.
Definition ok_val (ty0 : ty) (v : val) : Prop := has_ty ty0 v = true /\ small v.
Definition text_w (ty0 : ty) : Prop := writes (ok_val ty0) HM (texts ty0 (b "write")) (write ea sn ty0).

Lemma w_prim : forall p, text_w (TPrim p).
Proof.
  intros p. eapply (writes_inj pval); [apply prim_writes|]. intros v e [H _]. destruct v; try discriminate H. exists p0. repeat split. exact H.
Qed.
Lemma w_field : forall p, text_w (TField p).
Proof.
  intros p. unfold text_w. cbn [json_text].
  eapply writes_eq; [intros args s; symmetry; refine (own_call N d ea D2 _ _ _ _ fn_fwrite _ _ _); reflexivity|].
  eapply (writes_inj (bool * pval) _ (fun v => VField (fst v) (snd v))).
  - eapply fwrite. eapply writes_eq; [|apply (prim_writes p)]. intros args s. cbv beta. rewrite ext_call by first [assumption|reflexivity]. rewrite scoped_call by reflexivity. reflexivity.
  - intros v e [H _]. destruct v as [|em u| | | |]; try discriminate H. exists (em, u). repeat split; [exact H|]. cbn [write fst snd]. destruct em; reflexivity.
Qed.
Lemma w_string : writes (fun s => (length s < N)%nat /\ Z.of_nat (length s) <= 9223372036854775807) HS (string_call N d ea X (b "write")) (write_string ea).
Proof.
  unfold string_call. eapply writes_eq; [intros args s; symmetry; refine (own_call N d ea D2 _ _ _ _ fn_swrite _ _ _); reflexivity|].
  assert (exists k, (d - 1 = S (S k))%nat) as [k ->] by (exists (d - 3)%nat; lia).
  apply swrite.
  - intros vars t o c z Z L. cbn [callJ]. rewrite (proj1 the_parts).
    change (hfind (x_str X ++ x_free X) (b "write_escaped_utf8")) with (Some fn_escaped). cbv iota. apply escaped; [|exact Z|exact L]. reflexivity.
  - intros vars t o. cbn [callJ]. rewrite (proj1 the_parts).
    change (hfind (x_str X ++ x_free X) (b "set_error")) with (Some fn_seterror). cbv iota. apply (seterror N ea _ PGERR_INVALID_VALUE). reflexivity.
Qed.
Lemma w_strfield : text_w TStr.
Proof.
  unfold text_w. cbn [json_text].
  eapply writes_eq; [intros args s; symmetry; refine (own_call N d ea D2 _ _ _ _ fn_sfwrite _ _ _); reflexivity|].
  eapply (writes_inj (bool * bytes) _ (fun v => VStr (fst v) (snd v))).
  - eapply (sfwrite N ea _ (write_string ea) (fun s => (length s < N)%nat /\ Z.of_nat (length s) <= 9223372036854775807)).
    intros v t r x e K W vars a c o A L. rewrite ext_call by first [assumption|reflexivity]. rewrite scoped_call by reflexivity. cbn [map].
    rewrite (as_string_other _ a) by (rewrite (ctx_load _ t o _ A); reflexivity).
    assert (S1 : as_string (mem vars t o) c = HV (HS (snd v))) by (unfold as_string; rewrite L; reflexivity). rewrite S1.
    eapply w_string; [exact K|exact W|exact A|reflexivity].
  - intros v e [H [S1 S2]]. destruct v as [| |nul s| | |]; try discriminate H. exists (nul, s). repeat split; assumption.
Qed.
Lemma w_b64 : text_w TB64.
Proof.
  unfold text_w. cbn [json_text].
  eapply writes_eq; [intros args s; symmetry; refine (own_call N d ea D2 _ _ _ _ fn_b64write _ _ _); reflexivity|].
  eapply (writes_inj bytes _ VB64); [apply b64write|]. intros v e [H [S1 S2]]. destruct v; try discriminate H. exists s. repeat split; assumption.
Qed.
Lemma small_in : forall l v, (fold_right Nat.max 0 (map longest l) < N)%nat -> Z.of_nat (fold_right Nat.max 0 (map longest l))%nat <= 9223372036854775807 -> In v l -> small v.
Proof.
  intros l v A B I. assert (longest v <= fold_right Nat.max 0 (map longest l))%nat; [|unfold small; split; lia].
  clear A B. induction l as [|u l IH]; [destruct I|]. cbn [map fold_right]. destruct I as [->|I]; [lia|specialize (IH I); lia].
Qed.
Lemma w_rep : forall t', text_w t' -> text_w (TRep t').
Proof.
  intros t' IH. unfold text_w. cbn [json_text].
  eapply writes_eq; [intros args s; symmetry; refine (own_call N d ea D2 _ _ _ _ fn_awrite _ _ _); reflexivity|].
  eapply (writes_inj (list val) _ VList).
  - eapply (awrite N (dflt t') ea _ (ok_val t') (write ea sn t')).
    eapply writes_eq; [|exact IH]. intros args s. rewrite ext_call by first [assumption|reflexivity]. rewrite scoped_call by reflexivity. reflexivity.
  - intros v e [H [S1 S2]]. destruct v; try discriminate H. cbn [longest] in S1, S2. exists l. split; [reflexivity|]. split; [|reflexivity].
    split; [lia|]. split; [lia|]. apply Forall_forall. intros u I. split.
    + cbn [has_ty] in H. rewrite forallb_forall in H. apply H, I.
    + eapply small_in; [| |exact I]; lia.
Qed.

(** ** Messages *)
Lemma w_items : forall ms vs items f t o x e, Forall text_w ms -> (forall k mt v, nth_error ms k = Some mt -> nth_error vs k = Some v -> ok_val mt v) ->
  write_items sn (map (write ea sn) ms) vs items f (tk_err t) = (x, e) ->
  forall vars, item_calls sn (map texts ms) vs items f (mem vars t o) = Some (mem vars (with_err t e) (o ++ x)).
Proof.
  intros ms vs items f t o x e WS OK. revert f t o x e. induction items as [|[k label] items IH]; intros f t o x e W vars.
  { injection W as <- <-. rewrite with_same, app_nil_r. reflexivity. }
  cbn [write_items] in W. cbn [item_calls]. rewrite nth_error_map in W |- *. destruct (nth_error ms k) as [mt|] eqn:EM; cbn [option_map] in W |- *; [|apply IH, W].
  destruct (nth_error vs k) as [v|] eqn:EV; [|apply IH, W]. destruct (sn || negb (vempty v)); [|apply IH, W].
  destruct (write ea sn mt v (tk_err t)) as [[r1 o1] e1] eqn:E1. destruct (write_items sn (map (write ea sn) ms) vs items false e1) as [o2 e2] eqn:E2. injection W as <- <-.
  assert (WT : text_w mt) by (rewrite Forall_forall in WS; apply WS; eapply nth_error_In; exact EM).
  change (put_out (mem vars t o) (cat (s_out (mem vars t o)) ?z)) with (mem vars t (o ++ z)).
  rewrite (WT v t r1 o1 e1 (OK k mt v EM EV) E1 vars (HV HCtx) (HV (HM v))); [|left; reflexivity|reflexivity].
  rewrite (IH false (with_err t e1) _ o2 e2 E2 vars). rewrite <- !app_assoc. destruct f; reflexivity.
Qed.
Lemma w_msg : forall ms g, Forall text_w ms -> text_w (TMsg ms g).
Proof.
  intros ms g WS. unfold text_w. cbn [json_text]. intros v t r x e [H [S1 S2]] W vars a c o A L.
  change (same (b "write") (b "read")) with false. change (same (b "write") (b "write")) with true. cbv iota.
  destruct v as [| | | | |vs]; try discriminate H. cbn [write] in W.
  destruct (write_items sn (map (write ea sn) ms) vs (g_write g) true (tk_err t)) as [y e1] eqn:E. injection W as <- <- <-.
  unfold message_write. rewrite (ctx_load _ t o _ A), L.
  change (put_out (mem vars t o) (cat (s_out (mem vars t o)) ?z)) with (mem vars t (o ++ z)).
  erewrite w_items; [|exact WS| |exact E].
  - change (put_out (mem vars ?t ?o) (cat (s_out (mem vars ?t ?o)) ?z)) with (mem vars t (o ++ z)). rewrite <- !app_assoc. reflexivity.
  - intros k mt v EM EV. split; [exact (has_ty_msg_nth _ _ _ _ _ _ H EM EV)|]. eapply small_in; [exact S1|exact S2|eapply nth_error_In; exact EV].
Qed.

Theorem text_write : forall ty0, text_w ty0.
Proof.
  induction ty0 using ty_ind2.
  - apply w_prim.
  - apply w_field.
  - apply w_strfield.
  - apply w_b64.
  - apply w_rep; assumption.
  - apply w_msg; assumption.
Qed.
End J.
