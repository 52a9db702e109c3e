(** Every reader keeps values in their types, and reports every failure. *)
From Verif Require Import Bytes BaseProofs Num Dbl Types Stream Tokenizer Write Read
  LexView LexMono FuelMono Termination RelProofs SpecJson SpecErr SpecRange LexJson DblProofs InterpProofs KeptProofs SuffixProofs LayoutProofs Samples.

Lemma in_range_0 sg bits : 1 <= bits -> in_range sg bits 0 = true.
Proof.
  intros H. unfold in_range. assert (0 < 2 ^ (bits - 1)) by (apply Z.pow_pos_nonneg; lia).
  assert (0 < 2 ^ bits) by (apply Z.pow_pos_nonneg; lia).
  destruct sg; apply andb_true_intro; split; try apply Z.leb_le; try apply Z.ltb_lt; lia.
Qed.

Lemma cast_int_in_range sg bits z : 1 <= bits -> in_range sg bits (cast_int sg bits z) = true.
Proof.
  intros H. unfold in_range, cast_int.
  assert (E : 2 ^ bits = 2 * 2 ^ (bits - 1)).
  { replace bits with (1 + (bits - 1)) at 1 by lia. rewrite Z.pow_add_r by lia. reflexivity. }
  assert (0 < 2 ^ (bits - 1)) by (apply Z.pow_pos_nonneg; lia).
  destruct sg.
  - pose proof (Z.mod_pos_bound (z + 2 ^ (bits - 1)) (2 ^ bits)).
    apply andb_true_intro; split; [apply Z.leb_le|try apply Z.leb_le; try apply Z.ltb_lt]; lia.
  - pose proof (Z.mod_pos_bound z (2 ^ bits)).
    apply andb_true_intro; split; [apply Z.leb_le|try apply Z.leb_le; try apply Z.ltb_lt]; lia.
Qed.

Lemma pzero_ok p : prim_wf p -> pval_ok p (pzero p) = true.
Proof. destruct p; simpl; intros; auto. now apply in_range_0. Qed.

Lemma string_to_prim_ok p text : prim_wf p -> p <> PBool -> pval_ok p (string_to_prim p text) = true.
Proof.
  destruct p; intros W N; [..|congruence]; cbn [pval_ok string_to_prim].
  - unfold string_to_int. destruct sg; now apply cast_int_in_range.
  - apply strtod_valid.
  - apply to_float_valid.
Qed.

Lemma dflt_ty t : ty_wf t -> has_ty t (dflt t) = true.
Proof.
  induction t using ty_ind2; intros W; inversion W; subst; simpl; auto using pzero_ok.
  rename H1 into A. clear W. induction ms as [|x ms IH]; [reflexivity|]. simpl.
  apply Forall_cons_iff in H as [H H']. apply Forall_cons_iff in A as [A A'].
  rewrite H by assumption. simpl. apply IH; assumption.
Qed.

(** [reports r t]: a failure has left an error code. *)
Definition reports (r : pgr) (t : tokenizer) : Prop := r = PGR_ERROR -> e_code (tk_err t) <> PGERR_OK.

Lemma tk_error_reports c msg t : c <> PGERR_OK -> e_code (tk_err (tk_error c msg t)) <> PGERR_OK.
Proof. intros H. unfold tk_error. destruct (e_code (tk_err t)) eqn:E; simpl; congruence. Qed.

Lemma ign_fail_reports msg t r t' : ign_fail msg t = Some (r, t') -> reports r t'.
Proof. intros A. injection A as <- <-. intros _. now apply tk_error_reports. Qed.

Lemma ignore_reports n :
  (forall t r t', ignore_value n t = Some (r, t') -> reports r t') /\
  (forall t r t', ignore_array_loop n t = Some (r, t') -> reports r t') /\
  (forall t r t', ignore_object_loop n t = Some (r, t') -> reports r t').
Proof.
  induction n as [|n (IV & IA & IO)]; [split; [|split]; discriminate|].
  split; [|split]; intros t r t' A; simpl in A.
  - destruct (tk_id t); try (eapply ign_fail_reports; exact A);
      (destruct (tk_next n t) as [t1|]; [|discriminate A]); eauto;
      destruct (tk_id t1); try (eapply ign_fail_reports; exact A);
      injection A as <- <-; discriminate.
  - assert (F : forall a, match tk_expect n T_ARRE a with
        | Some (true, t') => Some (PGR_OK, t')
        | Some (false, t') => ign_fail (b "invalid array") t'
        | None => None end = Some (r, t') -> reports r t').
    { intros a B. destruct (tk_expect n T_ARRE a) as [[[] ?]|]; [..|discriminate B].
      - injection B as <- <-. discriminate.
      - eapply ign_fail_reports; exact B. }
    destruct (tid_eqb (tk_id t) T_ARRE); [now apply (F t)|].
    destruct (ignore_value n t) as [[r1 t1]|] eqn:E; [|discriminate A]. apply IV in E.
    destruct r1; try (injection A as <- <-; exact E).
    destruct (tk_expect n T_COMMA t1) as [[[] t2]|]; [..|discriminate A]; [now apply IA in A|now apply (F t2)].
  - assert (F : forall a, match tk_expect n T_OBJE a with
        | Some (true, t') => Some (PGR_OK, t')
        | Some (false, t') => ign_fail (b "invalid object") t'
        | None => None end = Some (r, t') -> reports r t').
    { intros a B. destruct (tk_expect n T_OBJE a) as [[[] ?]|]; [..|discriminate B].
      - injection B as <- <-. discriminate.
      - eapply ign_fail_reports; exact B. }
    destruct (tid_eqb (tk_id t) T_OBJE); [now apply (F t)|].
    destruct (tk_expect n T_STRING t) as [[[] t1]|]; [|eapply ign_fail_reports; exact A|discriminate A].
    destruct (tk_expect n T_COLON t1) as [[[] t2]|]; [|eapply ign_fail_reports; exact A|discriminate A].
    destruct (ignore_value n t2) as [[r1 t3]|] eqn:E; [|discriminate A]. apply IV in E.
    destruct r1; try (injection A as <- <-; exact E).
    destruct (tk_expect n T_COMMA t3) as [[[] t4]|]; [..|discriminate A]; [now apply IO in A|now apply (F t4)].
Qed.

(** ** Readers *)
Definition sound {A} (P : A -> Prop) (f : tokenizer -> A -> rres A) : Prop :=
  forall t v r v' t', P v -> f t v = Some (r, v', t') -> P v' /\ reports r t'.

Lemma rfail_sound {A} (P : A -> Prop) c msg (v : A) t r v' t' : P v -> c <> PGERR_OK ->
  rfail c msg v t = Some (r, v', t') -> P v' /\ reports r t'.
Proof. intros Pv N B. injection B as <- <- <-. split; [exact Pv|]. intros _. now apply tk_error_reports. Qed.

Lemma some_sound {A} (P : A -> Prop) s (v : A) t r v' t' : P v -> s <> PGR_ERROR ->
  Some (s, v, t) = Some (r, v', t') -> P v' /\ reports r t'.
Proof. intros Pv N B. injection B as <- <- <-. split; [exact Pv|]. intros E. contradiction. Qed.

Ltac fl B := solve [unfold rfail in B; injection B as <- <- <-;
  split; [assumption|intros _; apply tk_error_reports; discriminate]].
Ltac ok B := solve [injection B as <- <- <-; split; [assumption|discriminate]].

Lemma read_prim_sound n p : prim_wf p -> sound (fun v => pval_ok p v = true) (read_prim n p).
Proof.
  intros W t v r v' t' Pv B. unfold read_prim in B.
  destruct (tk_id t) eqn:I, p; try (fl B); try (ok B);
    (destruct (tk_next n t) as [t1|]; [|discriminate B]);
    (injection B as <- <- <-; split; [|discriminate]);
    try reflexivity;
    match goal with |- pval_ok ?p _ = true =>
      apply (string_to_prim_ok p _ W); discriminate end.
Qed.

Lemma array_loop_sound P nf rd d : sound P rd -> P d ->
  forall n, sound (Forall P) (array_loop n nf rd d).
Proof.
  intros S D. induction n as [|n IH]; intros t l r v' t' Pl B; [discriminate B|].
  simpl in B. destruct (rd t d) as [[[r1 x] t1]|] eqn:R; [|discriminate B].
  destruct (S _ _ _ _ _ D R) as [Px Q].
  assert (Pl1 : Forall P (match r1 with PGR_OK => l ++ [x] | _ => l end)).
  { destruct r1; auto. apply Forall_app; auto. }
  set (l1 := match r1 with PGR_OK => l ++ [x] | _ => l end) in *.
  destruct r1; [|injection B as <- <- <-; auto|];
    (destruct (tk_expect nf T_COMMA t1) as [[[] t2]|]; [eapply IH; eauto| |discriminate B];
     destruct (tk_expect nf T_ARRE t2) as [[[] t3]|]; [ok B|fl B|discriminate B]).
Qed.

Lemma read_array_sound P n rd d : sound P rd -> P d -> sound (Forall P) (read_array n rd d).
Proof.
  intros S D t l r v' t' Pl B. unfold read_array in B.
  assert (G : match tk_expect n T_ARRS t with
      | None => None
      | Some (false, t1) => rfail PGERR_INVALID_ARRAY (b "invalid array") l t1
      | Some (true, t1) =>
          match tk_expect n T_ARRE t1 with
          | None => None
          | Some (true, t2) => Some (PGR_OK, l, t2)
          | Some (false, t2) => array_loop n n rd d t2 l
          end
      end = Some (r, v', t') -> Forall P v' /\ reports r t').
  { clear B. intros B. destruct (tk_expect n T_ARRS t) as [[[] t1]|]; [|fl B|discriminate B].
    destruct (tk_expect n T_ARRE t1) as [[[] t2]|]; [ok B| |discriminate B].
    eapply array_loop_sound; eauto. }
  destruct (tk_id t); try exact (G B). ok B.
Qed.

Lemma object_loop_sound P nf rf : (forall name, sound P (rf name)) ->
  forall n, sound P (object_loop n nf rf).
Proof.
  intros S. induction n as [|n IH]; intros t vs r v' t' Pl B; [discriminate B|].
  cbn [object_loop] in B.
  destruct (tk_expect nf T_STRING t) as [[[] t1]|]; [|fl B|discriminate B].
  destruct (tk_expect nf T_COLON t1) as [[[] t2]|]; [|fl B|discriminate B].
  destruct (rf (t_val (tk_cur t)) t2 vs) as [[[r1 x] t3]|] eqn:R; [|discriminate B].
  destruct (S _ _ _ _ _ _ Pl R) as [Px Q].
  destruct r1; [|injection B as <- <- <-; auto|].
  - destruct (tk_expect nf T_COMMA t3) as [[[] t4]|]; [eapply IH; eauto| |discriminate B].
    destruct (tk_expect nf T_OBJE t4) as [[[] t5]|]; [ok B|fl B|discriminate B].
  - destruct (ignore_value nf t3) as [[r4 t4]|] eqn:E; [|discriminate B].
    apply (proj1 (ignore_reports nf)) in E.
    destruct r4; [|injection B as <- <- <-; auto|];
      (destruct (tk_expect nf T_COMMA t4) as [[[] t5]|]; [eapply IH; eauto| |discriminate B];
       destruct (tk_expect nf T_OBJE t5) as [[[] t6]|]; [ok B|fl B|discriminate B]).
Qed.

Lemma read_object_sound P n rf : (forall name, sound P (rf name)) -> sound P (read_object n rf).
Proof.
  intros S t vs r v' t' Pl B. unfold read_object in B.
  assert (G : match tk_expect n T_OBJS t with
      | None => None
      | Some (false, t1) => rfail PGERR_INVALID_OBJECT (b "objects must start with '{'") vs t1
      | Some (true, t1) =>
          match tk_expect n T_OBJE t1 with
          | None => None
          | Some (true, t2) => Some (PGR_OK, vs, t2)
          | Some (false, t2) => object_loop n n rf t2 vs
          end
      end = Some (r, v', t') -> P v' /\ reports r t').
  { clear B. intros B. destruct (tk_expect n T_OBJS t) as [[[] t1]|]; [|fl B|discriminate B].
    destruct (tk_expect n T_OBJE t1) as [[[] t2]|]; [ok B| |discriminate B].
    eapply object_loop_sound; eauto. }
  destruct (tk_id t); try exact (G B). ok B.
Qed.

Lemma has_ty_msg_nth ms g vs k t v : has_ty (TMsg ms g) (VMsg vs) = true ->
  nth_error ms k = Some t -> nth_error vs k = Some v -> has_ty t v = true.
Proof.
  simpl. revert vs k. induction ms as [|m ms IH]; intros [|x vs] k H A B;
    try discriminate H; try (destruct k; discriminate).
  apply andb_prop in H as [H1 H2]. destruct k as [|k]; simpl in A, B; [congruence|]. eapply IH; eauto.
Qed.

Lemma has_ty_msg_set ms g vs k t v : has_ty (TMsg ms g) (VMsg vs) = true ->
  nth_error ms k = Some t -> has_ty t v = true -> has_ty (TMsg ms g) (VMsg (set_nth k v vs)) = true.
Proof.
  simpl. revert vs k. induction ms as [|m ms IH]; intros [|x vs] k H A B;
    try discriminate H; try (destruct k; discriminate).
  apply andb_prop in H as [H1 H2]. destruct k as [|k]; simpl in A; simpl.
  - injection A as ->. now rewrite B, H2.
  - rewrite H1. simpl. now apply IH.
Qed.

Lemma read_sound n ty0 : ty_wf ty0 -> sound (fun v => has_ty ty0 v = true) (read n ty0).
Proof.
  induction ty0 using ty_ind2; intros W t v r v' t' Pv B; inversion W; subst; cbn [read] in B;
    destruct v; try discriminate Pv.
  - destruct (read_prim n p t p0) as [[[r1 x] t1]|] eqn:E; [|discriminate B].
    injection B as <- <- <-. eapply read_prim_sound in E; eauto.
  - unfold read_fieldnum in B. destruct (read_prim n p t (pzero p)) as [[[r1 x] t1]|] eqn:E; [|discriminate B].
    eapply read_prim_sound in E as [E F]; eauto using pzero_ok.
    destruct r1; injection B as <- <- <-; auto.
  - unfold read_strfield in B. destruct (read_string n t []) as [[[r1 x] t1]|] eqn:E; [|discriminate B].
    assert (G : True /\ reports r1 t1).
    { unfold read_string in E.
      destruct (tk_id t); try (apply (some_sound (fun _ => True)) in E; [exact E|exact I|discriminate]);
        (destruct (tk_expect n T_STRING t) as [[[] t2]|]; [..|discriminate E];
         [apply (some_sound (fun _ => True)) in E|apply (rfail_sound (fun _ => True)) in E];
         [exact E|exact I|discriminate|exact E|exact I|discriminate]). }
    destruct r1; cbn in B; injection B as <- <- <-; split; try reflexivity; apply G.
  - unfold read_b64 in B. destruct (tk_id t); try (fl B); try (ok B).
    destruct (tk_next n t) as [t1|]; [|discriminate B].
    destruct (b64_decode (cstr (t_val (tk_cur t)))) as [o bad]. injection B as <- <- <-.
    split; [reflexivity|discriminate].
  - destruct (read_array n (read n ty0) (dflt ty0) t l) as [[[r1 x] t1]|] eqn:E; [|discriminate B].
    injection B as <- <- <-. eapply (read_array_sound _ _ _ _ (IHty0 H0)) in E.
    + destruct E as [E F]. split; [|exact F]. simpl. apply forallb_forall. now apply Forall_forall.
    + now apply dflt_ty.
    + apply Forall_forall. now apply forallb_forall.
  - destruct (read_object n (read_member g (map (read n) ms)) t l) as [[[r1 x] t1]|] eqn:E; [|discriminate B].
    injection B as <- <- <-. rename H1 into WA.
    eapply (read_object_sound (fun vs => has_ty (TMsg ms g) (VMsg vs) = true)) in E; [exact E| |exact Pv].
    clear E Pv W. intros name t0 vs r v' t' Pv B. unfold read_member in B.
    destruct (select_member g name) as [k|]; [|ok B].
    rewrite nth_error_map in B. destruct (nth_error ms k) as [ty1|] eqn:M; [|ok B]. cbn [option_map] in B.
    destruct (nth_error vs k) as [y|] eqn:Y; [|ok B].
    destruct (read n ty1 t0 y) as [[[r2 z] t2]|] eqn:R; [|discriminate B].
    injection B as <- <- <-. rewrite Forall_forall in H, WA. pose proof (nth_error_In _ _ M) as IN.
    destruct (H _ IN (WA _ IN) _ _ _ _ _ (has_ty_msg_nth _ _ _ _ _ _ Pv M Y) R) as [T Q].
    split; [|exact Q]. eapply has_ty_msg_set; eauto.
Qed.

(** ** API *)
Lemma drop_lf_nolf l : drop_lf l = nolf l.
Proof.
  unfold drop_lf, nolf, not_lf. apply filter_ext. intros c. rewrite ascii_eqb_code. reflexivity.
Qed.

Lemma letter_alpha c : letter c = is_alpha_c c.
Proof.
  unfold letter, is_alpha_c, is_alpha_z, schar. pose proof (code_range c).
  destruct (Z.ltb_spec (code c) 128); lia.
Qed.

Lemma lex_nil_iff x v r : ~ In LF x -> (lex x = Some (T_NIL, v, r) <->
  v = [] /\ exists w, x = w ++ b "null" ++ r /\ ws w /\ stops is_alpha_c r).
Proof.
  intros L. split.
  - induction x as [|c x IH]; [discriminate|]. cbn [lex].
    destruct (is_ws_c c) eqn:W.
    { intros H. destruct IH as (-> & w & -> & Hw & S); auto.
      { intros ?; apply L; right; auto. }
      split; [reflexivity|]. exists (c :: w). split; [reflexivity|]. split; [|exact S].
      unfold ws in *. simpl. rewrite Hw. revert W. unfold is_ws_c, is_ws_z, ws_char. num_z. lia. }
    destruct (punct (schar c)) eqn:P.
    { intros H. injection H as -> _ _. exfalso. unfold punct in P.
      repeat match type of P with (if ?x then _ else _) = _ => destruct x; try discriminate P end. }
    destruct (code c =? 34). { destruct (lex_str x 0 []) as [[? ?]|]; discriminate. }
    destruct (is_num_start_z (schar c)). { destruct (span is_num_c (c :: x)) as [? ?]; discriminate. }
    destruct (span is_alpha_c (c :: x)) as [u u'] eqn:S.
    unfold keyword. destruct (bytes_eqb u (b "true")); [discriminate|].
    destruct (bytes_eqb u (b "false")); [discriminate|].
    destruct (bytes_eqb u (b "null")) eqn:E; [|discriminate]. apply bytes_eqb_true in E. subst u.
    intros H. injection H as <- <-. split; [reflexivity|]. exists []. split; [|split; [reflexivity|]].
    + pose proof (BaseProofs.span_app is_alpha_c (c :: x)) as Q. rewrite S in Q. symmetry. exact Q.
    + pose proof (span_stops is_alpha_c (c :: x)) as Q. rewrite S in Q. exact Q.
  - intros (-> & w & -> & W & S). rewrite <- (nolf_id (w ++ b "null" ++ r) L).
    rewrite lex_ws by exact W. rewrite nolf_id. apply lex_lit; auto.
    intros I; apply L. apply in_or_app; auto.
Qed.

Lemma starts_null_lex inp : starts_null inp <-> exists v r, lex (nolf inp) = Some (T_NIL, v, r).
Proof.
  unfold starts_null. rewrite drop_lf_nolf. split.
  - intros (w & rest & E & W & S). exists [], rest.
    apply lex_nil_iff; [apply nolf_not_in|]. split; [reflexivity|]. exists w.
    split; [exact E|]. split; [exact W|]. destruct rest; [exact I|]. simpl. now rewrite <- letter_alpha.
  - intros (v & r & E). apply lex_nil_iff in E as (_ & w & E & W & S); [|apply nolf_not_in].
    exists w, r. split; [exact E|]. split; [exact W|]. destruct r; [exact I|]. simpl in S. now rewrite letter_alpha.
Qed.

Lemma deserialize_typed ty0 v inp po r v' po' : ty_wf ty0 -> has_ty ty0 v = true ->
  deserialize ty0 v inp po = Some (r, v', po') -> has_ty ty0 v' = true.
Proof.
  intros W T A. unfold deserialize, deserialize_fuel in A.
  destruct (tk_make _ _ _) as [t|]; [|discriminate A].
  destruct (read _ ty0 t v) as [[[r1 x] t1]|] eqn:R; [|discriminate A].
  destruct (read_sound _ _ W _ _ _ _ _ T R) as [Q _]. destruct r1; injection A as <- <- <-; exact Q.
Qed.

Lemma success_clear ty0 v inp p v' po' :
  deserialize ty0 v inp (Some p) = Some (true, v', po') ->
  exists p', po' = Some p' /\ no_error (p_err p') /\
    ensure_ascii p' = ensure_ascii p /\ serialize_null p' = serialize_null p.
Proof.
  unfold deserialize, deserialize_fuel. intros A.
  destruct (tk_make _ _ _) as [t|]; [|discriminate A].
  destruct (read _ ty0 t v) as [[[[] x] t1]|]; [|discriminate A..].
  injection A as <- <-. eexists. split; [reflexivity|]. simpl. repeat split.
Qed.

Lemma ctx_err po : p_err (ctx_params po) = err_clear.
Proof. destruct po; reflexivity. Qed.

Lemma failure_code ty0 v inp p v' po' : toplevel ty0 -> ty_wf ty0 -> has_ty ty0 v = true ->
  deserialize ty0 v inp (Some p) = Some (false, v', po') ->
  exists p', po' = Some p' /\ (e_code (p_err p') = PGERR_OK <-> starts_null inp) /\
    (starts_null inp -> no_error (p_err p') /\ v' = v) /\
    ensure_ascii p' = ensure_ascii p /\ serialize_null p' = serialize_null p.
Proof.
  intros C W T A. unfold deserialize, deserialize_fuel in A.
  destruct (tk_make _ _ _) as [t|] eqn:M; [|discriminate A].
  destruct (read _ ty0 t v) as [[[r1 x] t1]|] eqn:R; [|discriminate A].
  pose proof (read_sound _ _ W _ _ _ _ _ T R) as [_ Q].
  unfold tk_make in M. destruct (mk_istream_spec inp) as [W1 V1].
  apply tk_next_any in M as [P1 E1]; [|exact W1]. cbn [tk_in tk_err] in P1, E1. rewrite V1 in P1.
  rewrite ctx_err in E1. destruct P1 as [_ P1].
  destruct r1; [discriminate A| |]; injection A as <- <-; eexists; (split; [reflexivity|]);
    cbn [p_err ensure_ascii serialize_null].
  - assert (NS : ~ starts_null inp).
    { rewrite starts_null_lex. intros (u & r & L). rewrite L in P1. destruct P1 as (I & _).
      destruct ty0 as [| | | |ty'|ms g]; try contradiction; cbn [read] in R; destruct v; try discriminate T;
        unfold rmap in R; [unfold read_array in R|unfold read_object in R]; rewrite I in R; discriminate R. }
    specialize (Q eq_refl). split; [tauto|]. split; [tauto|]. auto.
  - apply container_nil in R as (I & -> & ->); [|exact C]. rewrite E1. cbn.
    assert (S : starts_null inp).
    { rewrite starts_null_lex. destruct (lex (nolf inp)) as [[[id u] r]|]; [|congruence].
      destruct P1 as (I' & _). rewrite I in I'. subst id. eauto. }
    split; [tauto|]. split; [|auto]. intros _. repeat split.
Qed.

Lemma C13_lf_lemma ty0 v inp inp' po : drop_lf inp = drop_lf inp' ->
  exists r v' po1 po2, deserialize ty0 v inp po = Some (r, v', po1) /\
    deserialize ty0 v inp' po = Some (r, v', po2) /\
    option_map (fun p => (e_code (p_err p), e_msg (p_err p))) po1
    = option_map (fun p => (e_code (p_err p), e_msg (p_err p))) po2.
Proof. rewrite !drop_lf_nolf. apply same_view_result. Qed.

Lemma C13_inside_lemma : exists inp inp' v',
  inp = b "{""id"":1" ++ [LF] ++ b "2}" /\ inp' = b "{""id"":12}" /\
  deserialize outer_ty (dflt outer_ty) inp None = Some (true, v', None) /\
  deserialize outer_ty (dflt outer_ty) inp' None = Some (true, v', None).
Proof.
  eexists _, _, _. split; [reflexivity|]. split; [reflexivity|].
  split; vm_compute; reflexivity.
Qed.
