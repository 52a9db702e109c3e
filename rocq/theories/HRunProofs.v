(** Statements and functions of the text of json*.hh, executed step by step; their calls of the tokenizer. *)
From Coq Require Import Lia Arith.
From Verif Require Import Bytes Num Types Stream Tokenizer Read Write Template Cpp CLex CParse CExec Unit HdrText HText HParse HExec HTok BaseProofs
  SpecHTok HTokProofs HIgnProofs HJson CLexProofs.

Section G.
Context (N : nat) (cs : list (list bytes * hval)) (ea : bool).
Context (call : target -> list bytes -> list hres -> hst -> option (hres * hst)).
Notation ex := (hexec N cs ea CNone call).
Notation cond := (hcond cs ea CNone call).

Notation he := (heval cs ea CNone call).
Lemma g_bin : forall op x y s u s1 w s2 t a t' a' v,
  same op (b "&&") || same op (b "||") = false -> he x s = Some (u, s1) -> he y s1 = Some (w, s2) ->
  load s2 u = Some (HI t a) -> load s2 w = Some (HI t' a') -> arith op t t' a a' = Some v -> he (EBin op x y) s = Some (HV v, s2).
Proof.
  intros op x y s u s1 w s2 t a t' a' v O X Y L L' A. cbn [heval]. rewrite X, O, Y, L, L'. unfold operation. rewrite A. reflexivity.
Qed.
Lemma g_cast : forall T e s x s1 i u z z', he e s = Some (x, s1) -> int_type T = Some i -> load s1 x = Some (HI u z) -> conv u i z = Some z' ->
  he (ECast T e) s = Some (HV (HI i z'), s1).
Proof. intros T e s x s1 i u z z' X I L C. cbn [heval]. rewrite X, I, L, C. reflexivity. Qed.
Lemma g_method : forall o m a s r p s1 x s2 v w v' u s3,
  he o s = Some (HL r p, s1) -> he a s1 = Some (x, s2) -> load s2 (HL r p) = Some v -> match v with HIn => false | _ => true end = true ->
  load s2 x = Some w -> std_method v m [w] = Some (v', u) -> store s2 r p v' = Some s3 -> he (ECall (EDot o m) [a]) s = Some (HV u, s3).
Proof.
  intros o m a s r p s1 x s2 v w v' u s3 O A V K W M S. cbn [heval evals]. rewrite O, A, V.
  destruct v; try discriminate K; cbn [loads]; rewrite W, M, S; reflexivity.
Qed.
Lemma g_index : forall e i s r p s1 y s2 t z l, he e s = Some (HL r p, s1) -> he i s1 = Some (y, s2) -> load s2 y = Some (HI t z) ->
  peek_at s2 r p = Some (HArr l) -> inside z (length l) = true -> he (EIndex e i) s = Some (HL r (p ++ [SIdx (Z.to_nat z)]), s2).
Proof. intros e i s r p s1 y s2 t z l X Y L P I. cbn [heval]. rewrite X, Y, L, P, I. reflexivity. Qed.
Lemma g_elem : forall e i s x s1 y s2 t z v w, he e s = Some (x, s1) -> he i s1 = Some (y, s2) -> load s2 y = Some (HI t z) ->
  match x with HL r p => peek_at s2 r p | HV v => Some v end = Some v -> match v with HArr _ => false | _ => true end = true ->
  element v z = Some w -> he (EIndex e i) s = Some (HV w, s2).
Proof.
  intros e i s x s1 y s2 t z v w X Y L P K E. cbn [heval]. rewrite X, Y, L.
  destruct x; [injection P as ->|rewrite P]; destruct v; try discriminate K; rewrite E; reflexivity.
Qed.
Lemma g_set : forall x y s w s1 r p s2 v old v' s3, he y s = Some (w, s1) -> he x s1 = Some (HL r p, s2) -> load s2 w = Some v ->
  peek_at s2 r p = Some old -> fitted old v = Some v' -> store s2 r p v' = Some s3 -> he (ESet (b "=") x y) s = Some (HL r p, s3).
Proof. intros x y s w s1 r p s2 v old v' s3 Y X V O F S. cbn [heval]. rewrite Y, X, V, O. change (same (b "=") (b "=")) with true. cbv iota. rewrite F, S. reflexivity. Qed.
Lemma g_expr : forall n e s x s1, he e s = Some (x, s1) -> ex (S n) (TExpr [e]) s = Some (GNext, s1).
Proof. intros n e s x s1 H. cbn [hexec heffects]. rewrite H. reflexivity. Qed.
Lemma g_put : forall x y s s1 w s2 v o, he x s = Some (HV HOs, s1) -> he y s1 = Some (w, s2) -> load s2 w = Some v -> printed v = Some o ->
  he (EBin (b "<<") x y) s = Some (HV HOs, put_out s2 (cat (s_out s2) o)).
Proof.
  intros x y s s1 w s2 v o X Y V P. cbn [heval]. rewrite X. change (same (b "<<") (b "&&") || same (b "<<") (b "||")) with false. cbv iota.
  rewrite Y, V. cbn [load]. change (same (b "<<") (b "<<")) with true. cbv iota. rewrite P. reflexivity.
Qed.

Lemma g_block : forall n l s f s1 R,
  seq_loop (ex n) (S (length l)) l s = Some (f, s1) -> Some (f, leave_block s s1) = R -> ex (S n) (TBlock l) s = R.
Proof. intros n l s f s1 R H <-. cbn [hexec]. rewrite H. reflexivity. Qed.
Lemma g_if : forall n c s1 s2 s s' R, cond c s = Some (true, s') -> ex n s1 s' = R -> ex (S n) (TIf c s1 s2) s = R.
Proof. intros n c s1 s2 s s' R H <-. cbn [hexec]. rewrite H. reflexivity. Qed.
Lemma g_else : forall n c s1 s2 s s' R, cond c s = Some (false, s') -> ex n s2 s' = R -> ex (S n) (TIf c s1 (Some s2)) s = R.
Proof. intros n c s1 s2 s s' R H <-. cbn [hexec]. rewrite H. reflexivity. Qed.
Lemma g_none : forall n c s1 s s', cond c s = Some (false, s') -> ex (S n) (TIf c s1 None) s = Some (GNext, s').
Proof. intros n c s1 s s' H. cbn [hexec]. rewrite H. reflexivity. Qed.
Lemma g_while : forall n c st s, ex (S n) (TWhile c st) s = while_loop N (cond c) Some (ex n st) s.
Proof. reflexivity. Qed.
Lemma g_for : forall n i c p st s s1 f s2 R,
  ex n i s = Some (GNext, s1) ->
  while_loop N (cond c) (heffects cs ea CNone call p) (ex n st) s1 = Some (f, s2) ->
  Some (f, leave_block s s2) = R -> ex (S n) (TFor i c p st) s = R.
Proof. intros n i c p st s s1 f s2 R H1 H2 <-. cbn [hexec]. rewrite H1, H2. reflexivity. Qed.
Lemma g_switch : forall n e l s x s1 t z l' f s2 R,
  heval cs ea CNone call e s = Some (x, s1) -> load s1 x = Some (HI t z) -> cases_ok cs l = true ->
  match case_from cs z l with Some r => r | None => default_from l end = l' ->
  seq_loop (ex n) (S (length l)) l' s1 = Some (f, s2) ->
  Some (match f with GBreak => GNext | _ => f end, leave_block s1 s2) = R ->
  ex (S n) (TSwitch e l) s = R.
Proof.
  intros n e l s x s1 t z l' f s2 R E L C P Q <-. cbn [hexec]. rewrite E, L, C. cbv zeta. rewrite P, Q.
  destruct f; reflexivity.
Qed.
Lemma g_continue : forall e k st r s s1, e st s = Some (GContinue, s1) -> seq_loop e (S k) (st :: r) s = Some (GContinue, s1).
Proof. intros; cbn [seq_loop]; rewrite H; reflexivity. Qed.
Lemma g_or : forall x y s p q, cond x s = Some (p, s) -> (p = false -> cond y s = Some (q, s)) -> cond (EBin (b "||") x y) s = Some (p || q, s).
Proof.
  intros x y s p q. unfold hcond. cbn [heval].
  change (same (b "||") (b "&&")) with false. change (same (b "||") (b "||")) with true. cbn [orb].
  destruct (heval cs ea CNone call x s) as [[u s1]|]; [|discriminate]. cbn [option_map].
  destruct (bind (load s1 u) truth) as [p'|]; [|discriminate]. intros H; injection H as -> ->.
  destruct p; [reflexivity|]. intros H. specialize (H eq_refl). revert H. cbn [negb orb].
  destruct (heval cs ea CNone call y s) as [[w s2]|]; [|discriminate]. cbn [option_map].
  destruct (bind (load s2 w) truth) as [q'|]; [|discriminate]. intros H; injection H as -> ->. reflexivity.
Qed.
Lemma g_and : forall x y s p q, cond x s = Some (p, s) -> (p = true -> cond y s = Some (q, s)) -> cond (EBin (b "&&") x y) s = Some (p && q, s).
Proof.
  intros x y s p q. unfold hcond. cbn [heval].
  change (same (b "&&") (b "&&")) with true. cbn [orb].
  destruct (heval cs ea CNone call x s) as [[u s1]|]; [|discriminate]. cbn [option_map].
  destruct (bind (load s1 u) truth) as [p'|]; [|discriminate]. intros H; injection H as -> ->.
  destruct p; [|reflexivity]. intros H. specialize (H eq_refl). revert H. cbn [andb].
  destruct (heval cs ea CNone call y s) as [[w s2]|]; [|discriminate]. cbn [option_map].
  destruct (bind (load s2 w) truth) as [q'|]; [|discriminate]. intros H; injection H as -> ->. reflexivity.
Qed.

(** ** Functions *)

(** An argument that is the context. *)
Definition ctx_arg (vars : list (bytes * hvar)) (a : hres) : Prop :=
  a = HV HCtx \/ exists y, a = HL (RVar y) [] /\ assoc vars y = Some (VarVal HCtx).
Lemma ctx_load : forall v t o a, ctx_arg v a -> load (mem v t o) a = Some HCtx.
Proof. intros v t o a [->|[y [-> H]]]; [reflexivity|]. cbn [load]. unfold peek_at. cbn [get_root s_vars mem]. rewrite H. reflexivity. Qed.

Definition is_ctx (v : hval) : bool := match v with HCtx => true | _ => false end.
(** [json_context &ctx, T &p] *)
Definition ref_params (l : list (list bytes * bytes)) (p : bytes) : bool :=
  match l with
  | [(T1, x1); (T2, x2)] =>
      by_ref T1 && by_ref T2 && match typed T1 HCtx with Some HCtx => true | _ => false end && same x1 (b "ctx") && same x2 p
  | _ => false
  end.
(** [json_context &ctx, const T &p] *)
Definition val_params (l : list (list bytes * bytes)) (p : bytes) : bool :=
  match l with
  | [(T1, x1); (T2, x2)] =>
      by_ref T1 && negb (by_ref T2) && match typed T1 HCtx with Some HCtx => true | _ => false end && same x1 (b "ctx") && same x2 p
  | _ => false
  end.
Definition second_type (l : list (list bytes * bytes)) : list bytes := match l with [_; (t, _)] => t | _ => [] end.

Lemma same_eq : forall x y, same x y = true -> x = y.
Proof. intros x y H. apply same_true, H. Qed.

Lemma run_ref : forall f p a x vars t o v fl vs1 w t' o' rr,
  ref_params (hf_params f) p = true -> ctx_arg vars a -> assoc vars x = Some (VarVal v) -> is_ctx v = false ->
  seq_loop (ex nesting) (S (length (hf_body f))) (hf_body f) (mem [(b "ctx", VarVal HCtx); (p, VarVal v)] t o) = Some (fl, mem vs1 t' o') ->
  result_of (hf_ret f) fl (mem vs1 t' o') = Some rr -> assoc vs1 p = Some w ->
  run_fun N cs ea CNone call f [a; HL (RVar x) []] (mem vars t o) = Some (rr, mem (update vars x w) t' o').
Proof.
  intros f p a x vars t o v fl vs1 w t' o' rr P A G I E R B. unfold run_fun, ref_params in *.
  destruct (hf_params f) as [|[T1 x1] [|[T2 x2] [|]]]; try discriminate P.
  apply andb_prop in P as [P P5]. apply andb_prop in P as [P P4]. apply andb_prop in P as [P P3]. apply andb_prop in P as [P1 P2].
  apply same_eq in P4, P5. subst x1 x2.
  assert (Q : bind_params [(T1, b "ctx"); (T2, p)] [a; HL (RVar x) []] (mem vars t o) = Some ([(b "ctx", VarVal HCtx); (p, VarVal v)], [(p, x)])).
  { cbn [bind_params]. rewrite P2. cbn [get_root s_vars mem]. rewrite G.
    assert (J : match v with HCtx => match load (mem vars t o) (HL (RVar x) []) with Some w0 => option_map (fun w => ([(p, VarVal w)], [] : list (bytes * bytes))) (typed T2 w0) | None => None end
                | _ => if existsb (fun p0 : bytes * bytes => same (snd p0) x) [] then None else Some ([(p, VarVal v)], [(p, x)]) end = Some ([(p, VarVal v)], [(p, x)])).
    { destruct v; try reflexivity. discriminate I. }
    rewrite J. clear J. rewrite (ctx_load _ t o _ A). destruct (typed T1 HCtx) as [[]|]; try discriminate P3. rewrite P1. cbn [option_map].
    destruct A as [->|[y [-> H]]]; [reflexivity|]. rewrite H. reflexivity. }
  rewrite Q. change (put_vars (mem vars t o) ?z) with (mem z t o). rewrite E, R. cbn [give_back s_vars mem]. rewrite B. reflexivity.
Qed.
Lemma run_val : forall f p a c vars t o v v' fl vs1 t' o' rr,
  val_params (hf_params f) p = true -> ctx_arg vars a -> load (mem vars t o) c = Some v -> typed (second_type (hf_params f)) v = Some v' ->
  seq_loop (ex nesting) (S (length (hf_body f))) (hf_body f) (mem [(b "ctx", VarVal HCtx); (p, VarVal v')] t o) = Some (fl, mem vs1 t' o') ->
  result_of (hf_ret f) fl (mem vs1 t' o') = Some rr ->
  run_fun N cs ea CNone call f [a; c] (mem vars t o) = Some (rr, mem vars t' o').
Proof.
  intros f p a c vars t o v v' fl vs1 t' o' rr P A G T E R. unfold run_fun, val_params in *.
  destruct (hf_params f) as [|[T1 x1] [|[T2 x2] [|]]]; try discriminate P. cbn [second_type] in T.
  apply andb_prop in P as [P P5]. apply andb_prop in P as [P P4]. apply andb_prop in P as [P P3]. apply andb_prop in P as [P1 P2].
  apply same_eq in P4, P5. subst x1 x2.
  assert (Q : bind_params [(T1, b "ctx"); (T2, p)] [a; c] (mem vars t o) = Some ([(b "ctx", VarVal HCtx); (p, VarVal v')], [])).
  { cbn [bind_params]. destruct (by_ref T2); [discriminate P2|]. rewrite G, T. cbn [option_map].
    rewrite (ctx_load _ t o _ A). destruct (typed T1 HCtx) as [[]|]; try discriminate P3. rewrite P1. cbn [option_map].
    destruct A as [->|[y [-> H]]]; [reflexivity|]. cbn [get_root s_vars mem]. rewrite H. reflexivity. }
  rewrite Q. change (put_vars (mem vars t o) ?z) with (mem z t o). rewrite E, R. reflexivity.
Qed.
End G.

(** ** Where the tokenizer is: room for the rest, and for the text of the current token *)
Definition tok_fits (N : nat) (t : tokenizer) : Prop := (length (t_val (tk_cur t)) < 4 * N)%nat.
Definition goes (N : nat) (t t' : tokenizer) : Prop := later (tk_in t) (tk_in t') /\ (tok_fits N t -> tok_fits N t').
Definition place (N n : nat) (t : tokenizer) : Prop := room N n (tk_in t) /\ tok_fits N t.

Lemma goes_refl : forall N t, goes N t t.
Proof. intros N t. split; [apply later_refl|auto]. Qed.
Lemma goes_trans : forall N t u w, goes N t u -> goes N u w -> goes N t w.
Proof. intros N t u w [A B] [C D]. split; [eapply later_trans; eassumption|auto]. Qed.
Lemma goes_error : forall N t c m t', goes N t t' -> goes N t (tk_error c m t').
Proof.
  intros N t c m t' [A B]. split; [rewrite in_error; exact A|]. intros F. specialize (B F). unfold tok_fits, tk_error in *.
  destruct (e_code (tk_err t')); exact B.
Qed.
Lemma place_goes : forall N n m t t', (m <= n)%nat -> place N n t -> goes N t t' -> place N m t'.
Proof. intros N n m t t' H [A B] [C D]. split; [eapply room_later; eassumption|auto]. Qed.

Lemma string_short : forall n i lead v line col t j, parse_string_loop n i lead v line col = Some (t, j) ->
  (length (t_val t) <= length v + 4 * n)%nat.
Proof.
  induction n as [|n IH]; intros i lead v line col t j H; [discriminate H|]. cbn [parse_string_loop] in H. cbv zeta in H.
  destruct (is_eof i); [injection H as <- _; cbn [t_val length]; lia|].
  destruct (is_peek (is_next i) =? 34); [injection H as <- _; cbn [t_val]; lia|].
  destruct (is_peek (is_next i) =? 92).
  - destruct (short_escape (is_peek (is_next (is_next i)))); [apply IH in H; rewrite app_length in H; cbn [length] in H; lia|].
    destruct (is_peek (is_next (is_next i)) =? 117); [|injection H as <- _; cbn [t_val length]; lia].
    destruct (parse_escaped_utf8 (is_next (is_next i)) v lead) as [[[v' l']|] k] eqn:U; [|injection H as <- _; cbn [t_val length]; lia].
    apply IH in H. enough (length v' <= length v + 4)%nat by lia. unfold parse_escaped_utf8 in U.
    destruct (read_hex 4 (is_next (is_next i)) 0) as [[cp|] z]; [|discriminate U].
    repeat match type of U with (if ?c then _ else _) = _ => destruct c; try discriminate U end;
      injection U as <- _ _; rewrite ?app_length; cbn [length]; lia.
  - destruct (is_peek (is_next i) =? 0); [injection H as <- _; cbn [t_val length]; lia|].
    apply IH in H. rewrite app_length in H. cbn [length] in H. lia.
Qed.
Lemma number_short : forall n i v v' j, parse_number_loop n i v = Some (v', j) -> (length v' <= length v + n)%nat.
Proof.
  induction n as [|n IH]; intros i v v' j H; [discriminate H|]. cbn [parse_number_loop] in H.
  destruct (is_eof i); [injection H as <- _; lia|].
  destruct (is_num_z (is_peek i)); [apply IH in H; rewrite app_length in H; cbn [length] in H; lia|injection H as <- _; lia].
Qed.
Lemma token_short : forall n i t j, next_loop n i = Some (t, j) -> (length (t_val t) < 4 * n)%nat.
Proof.
  induction n as [|n IH]; intros i t j H; [discriminate H|]. cbn [next_loop] in H. cbv zeta in H.
  destruct (is_eof i); [injection H as <- _; cbn [t_val length]; lia|].
  destruct (is_ws_z (is_peek i)); [apply IH in H; lia|].
  destruct (punct (is_peek i)); [injection H as <- _; cbn [t_val length]; lia|].
  destruct (is_peek i =? 34).
  { unfold parse_string in H. destruct (is_peek i =? 34); [|injection H as <- _; cbn [t_val length]; lia].
    apply string_short in H. cbn [length] in H. lia. }
  destruct (is_num_start_z (is_peek i)).
  { unfold parse_number in H. destruct (parse_number_loop n i []) as [[v s]|] eqn:P; [|discriminate H]. injection H as <- _.
    apply number_short in P. cbn [length t_val] in *. lia. }
  destruct (parse_identifier n i []) as [[v s]|]; [|discriminate H].
  repeat match type of H with (if ?c then _ else _) = _ => destruct c end; injection H as <- _; cbn [t_val length]; lia.
Qed.
Lemma next_fit : forall N n t t', (n <= N)%nat -> tk_next n t = Some t' -> tok_fits N t'.
Proof.
  intros N n t t' L H. unfold tk_next in H. destruct (next_loop n (tk_in t)) as [[k j]|] eqn:P; [|discriminate]. injection H as <-.
  apply token_short in P. unfold tok_fits. cbn [tk_cur]. lia.
Qed.
Lemma expect_fit : forall N n ty t r t', (n <= N)%nat -> tk_expect n ty t = Some (r, t') -> tok_fits N t -> tok_fits N t'.
Proof.
  intros N n ty t r t' L H F. unfold tk_expect in H. destruct (tid_eqb (tk_id t) ty); [|injection H as _ <-; exact F].
  destruct (tk_next n t) as [t1|] eqn:P; [|discriminate]. injection H as _ <-. eapply next_fit; eassumption.
Qed.
Lemma error_fit : forall N c m t, tok_fits N t -> tok_fits N (tk_error c m t).
Proof. intros N c m t F. unfold tok_fits, tk_error in *. destruct (e_code (tk_err t)); exact F. Qed.
Lemma ignore_fit : forall N n, (n <= N)%nat ->
  (forall t r t', ignore_value n t = Some (r, t') -> tok_fits N t -> tok_fits N t') /\
  (forall t r t', ignore_array_loop n t = Some (r, t') -> tok_fits N t -> tok_fits N t') /\
  (forall t r t', ignore_object_loop n t = Some (r, t') -> tok_fits N t -> tok_fits N t').
Proof.
  intros N. induction n as [|n IH]; intros L; [repeat split; intros t r t' H; discriminate H|].
  destruct IH as [V [A O]]; [lia|]. assert (L' : (n <= N)%nat) by lia.
  assert (FIN : forall ty m t r t', match tk_expect n ty t with
        | None => None | Some (true, t') => Some (PGR_OK, t') | Some (false, t') => ign_fail m t' end = Some (r, t') -> tok_fits N t -> tok_fits N t').
  { intros ty m t r t' H F. destruct (tk_expect n ty t) as [[[|] t1]|] eqn:X; [| |discriminate H]; apply (expect_fit N) in X; try assumption;
      injection H as _ <-; [exact X|apply error_fit, X]. }
  repeat split; intros t r t' H F.
  - cbn [ignore_value] in H. destruct (tk_id t); unfold ign_fail in H; try (injection H as _ <-; apply error_fit, F);
      destruct (tk_next n t) as [t1|] eqn:X; try discriminate H; apply (next_fit N) in X; try assumption; eauto;
      destruct (tk_id t1); injection H as _ <-; try apply error_fit; exact X.
  - cbn [ignore_array_loop] in H. cbv zeta in H. destruct (tid_eqb (tk_id t) T_ARRE); [eapply FIN; eassumption|].
    destruct (ignore_value n t) as [[r1 t1]|] eqn:X; [|discriminate H]. specialize (V _ _ _ X F).
    destruct r1; try (injection H as _ <-; exact V).
    destruct (tk_expect n T_COMMA t1) as [[[|] t2]|] eqn:Y; [| |discriminate H]; apply (expect_fit N) in Y; try assumption; eauto.
  - cbn [ignore_object_loop] in H. cbv zeta in H. destruct (tid_eqb (tk_id t) T_OBJE); [eapply FIN; eassumption|].
    destruct (tk_expect n T_STRING t) as [[[|] t1]|] eqn:X; [| |discriminate H]; apply (expect_fit N) in X; try assumption;
      [|injection H as _ <-; apply error_fit, X].
    destruct (tk_expect n T_COLON t1) as [[[|] t2]|] eqn:Y; [| |discriminate H]; apply (expect_fit N) in Y; try assumption;
      [|injection H as _ <-; apply error_fit, Y].
    destruct (ignore_value n t2) as [[r1 t3]|] eqn:Z; [|discriminate H]. specialize (V _ _ _ Z Y).
    destruct r1; try (injection H as _ <-; exact V).
    destruct (tk_expect n T_COMMA t3) as [[[|] t4]|] eqn:W; [| |discriminate H]; apply (expect_fit N) in W; try assumption; eauto.
Qed.
Lemma goes_tnext : forall N n t0 t t', place N n t0 -> tk_next n t = Some t' -> goes N t t'.
Proof. intros N n t0 t t' [[_ [L _]] _] H. split; [eapply later_tnext; exact H|]. intros _. eapply next_fit; eassumption. Qed.
Lemma goes_expect : forall N n t0 ty t r t', place N n t0 -> tk_expect n ty t = Some (r, t') -> goes N t t'.
Proof. intros N n t0 ty t r t' [[_ [L _]] _] H. split; [eapply later_expect; exact H|]. eapply expect_fit; eassumption. Qed.
Lemma goes_ignore : forall N n t r t', place N n t -> ignore_value n t = Some (r, t') -> goes N t t'.
Proof.
  intros N n t r t' [M F] H. split; [eapply (proj1 (skips_all N true n)); eassumption|].
  destruct M as [_ [L _]]. intros _. eapply (proj1 (ignore_fit N n L)); eassumption.
Qed.

(** ** The tokenizer, called from a function of json *)
Section T.
Context (N d : nat) (ea : bool).
Context (call : target -> list bytes -> list hres -> hst -> option (hres * hst)).
Definition tok_calls : Prop := forall ws args s, call OTok ws args s = callT N ea d CNone OTok ws args s.
Context (H : tok_calls).

Lemma j_next : forall n t v o t', (7 <= d)%nat -> place N n t -> tk_next n t = Some t' ->
  call OTok [b "next"] [] (mem v t o) = Some (HL RCur [], mem v t' o).
Proof. intros n t v o t' D [M F] X. rewrite H. eapply tok_next; eassumption. Qed.
Lemma j_peek : forall t v o, (1 <= d)%nat -> call OTok [b "peek"] [] (mem v t o) = Some (HL RCur [], mem v t o).
Proof. intros. rewrite H. apply tok_peek; assumption. Qed.
Lemma j_expect : forall n t ty v o r t', (8 <= d)%nat -> place N n t -> tk_expect n ty t = Some (r, t') ->
  call OTok [b "expect"] [HV (HI ITid (tid_z ty))] (mem v t o) = Some (HV (HB r), mem v t' o).
Proof. intros n t ty v o r t' D [M F] X. rewrite H. eapply tok_expect; eassumption. Qed.
Lemma j_error : forall t c v o m msg, (1 <= d)%nat -> cstr m = msg ->
  call OTok [b "error"] [HV (HI IErr (err_z c)); HV (HPtr m)] (mem v t o) = Some (HV (HI IInt 1), mem v (tk_error c msg t) o).
Proof. intros. rewrite H. apply tok_error; assumption. Qed.
Lemma j_ignore : forall n t v o r t', (2 * n + 9 <= d)%nat -> place N n t -> ignore_value n t = Some (r, t') ->
  call OTok [b "ignore"] [] (mem v t o) = Some (HV (HI IInt (pgr_z r)), mem v t' o).
Proof. intros n t v o r t' D [M F] X. rewrite H. eapply tok_ignore; eassumption. Qed.
End T.
