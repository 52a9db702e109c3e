(** The text of json-base64.hh, executed: reading. *)
From Coq Require Import Lia Arith.
From Verif Require Import Bytes Num Dbl Types Stream Tokenizer Read Write Template Cpp CLex CParse CExec Unit HdrText HText HParse HExec HTok BaseProofs
  SpecHTok HTokProofs HIgnProofs HJson HRunProofs HReadProofs BitProofs.

Definition fn_b64int := Eval vm_compute in fn_of (x_b64 the_texts) "b64_int".
Definition fn_b64read := Eval vm_compute in fn_of (x_b64 the_texts) "read".

Ltac evb := cbv -[callT while_loop Z.add Z.sub Z.leb Z.ltb Z.eqb Z.shiftl Z.shiftr Z.land Z.lor int_ok char_of byte_of
                 code cast_int str_eqb cat in_val is_rest is_line is_col is_eof is_peek is_next
                 t_id t_val t_line t_col tid_z err_z e_code e_msg e_line e_col tk_cur tk_in tk_err tk_error cstr pgr_z
                 string_to_prim prim_text pzero set_error b64_int schar chr wrap].

Section B.
Context (N d : nat) (ea : bool).

(** b64_int, called with an int of the range of char. *)
Lemma int_fun : forall call z t o, -128 <= z <= 127 ->
  seq_loop (hexec N consts ea CNone call nesting) (S (length (hf_body fn_b64int))) (hf_body fn_b64int) (mem [(b "ch", VarVal (HI IInt z))] t o) =
    Some (GReturn (Some (HV (HI IInt (b64_int z)))), mem [(b "ch", VarVal (HI IInt z))] t o).
Proof.
  intros call z t o Z. body fn_b64int. unfold b64_int.
  assert (IO : forall w, -1000 <= w <= 1000 -> int_ok w = true) by (intros w W; unfold int_ok; lia).
  destruct (z =? 43) eqn:E1. { rt. eapply g_if; [cnd E1|ev; reflexivity]. } nx; [eapply g_none; cnd E1|].
  destruct (z =? 47) eqn:E2. { rt. eapply g_if; [cnd E2|ev; reflexivity]. } nx; [eapply g_none; cnd E2|].
  destruct ((48 <=? z) && (z <=? 57)) eqn:E3. { rt. eapply g_if; [cnd2 E3|]. ev. rewrite IO by lia. reflexivity. } nx; [eapply g_none; cnd2 E3|].
  destruct ((65 <=? z) && (z <=? 90)) eqn:E4. { rt. eapply g_if; [cnd2 E4|]. ev. change (char_of "A"%char) with 65. rewrite IO by lia. reflexivity. } nx; [eapply g_none; cnd2 E4|].
  destruct ((97 <=? z) && (z <=? 122)) eqn:E5. { rt. eapply g_if; [cnd2 E5|]. ev. change (char_of "a"%char) with 97. rewrite IO by lia. rewrite IO by lia. reflexivity. } nx; [eapply g_none; cnd2 E5|].
  destruct (z =? 61) eqn:E6. { rt. eapply g_if; [cnd E6|ev; reflexivity]. } nx; [eapply g_none; cnd E6|].
  rt. ev. reflexivity.
Qed.
Lemma int_run : forall call a z vars t o, -128 <= z <= 127 -> load (mem vars t o) a = Some (HI IInt z) ->
  run_fun N consts ea CNone call fn_b64int [a] (mem vars t o) = Some (HV (HI IInt (b64_int z)), mem vars t o).
Proof.
  intros call a z vars t o Z G. unfold run_fun.
  assert (B : bind_params (hf_params fn_b64int) [a] (mem vars t o) = Some ([(b "ch", VarVal (HI IInt z))], [])).
  { cbn [fn_b64int hf_params bind_params]. rewrite G. reflexivity. }
  rewrite B. change (put_vars (mem vars t o) ?z) with (mem z t o). rewrite int_fun by assumption. reflexivity.
Qed.

(** ** One group (json-base64.hh:75-85) *)
Definition b64_w := Eval vm_compute in match nth 7 (hf_body fn_b64read) TBreak with TWhile c s => (c, s) | _ => (EBool false, TBreak) end.
Definition b64_for := Eval vm_compute in match snd b64_w with TBlock (f :: _) => f | _ => TBreak end.
Definition b64_fb := Eval vm_compute in match b64_for with TFor _ c p s => (c, p, s) | _ => (EBool false, [], TBreak) end.
(** An element of the array: not initialized, or a number. *)
Definition slot (z : option Z) : hval := match z with Some z => HI IInt z | None => HNone IInt end.
Definition b64_vars (l : list (option Z)) (k : Z) (text p v : bytes) : list (bytes * hvar) :=
  [(b "ptr", VarVal (HPtr p)); (b "text", VarVal (HS text)); (b "s", VarVal (HArr (map slot l))); (b "k", VarVal (HI ISize k));
   (b "ctx", VarVal HCtx); (b "value", VarVal (HM (VB64 v)))].
Definition ints (call : call_t) : Prop := forall t a z vars o, -128 <= z <= 127 -> load (mem vars t o) a = Some (HI IInt z) ->
  call OName [b "b64_int"] [a] (mem vars t o) = Some (HV (HI IInt (b64_int z)), mem vars t o).

Lemma for_one : forall call, ints call -> forall j e0 e1 e2 e3 k text c r v t o, (j < 4)%nat -> schar c <> 0 ->
  hexec N consts ea CNone call 17 (snd b64_fb) (mem ((b "j", VarVal (HI ISize (Z.of_nat j))) :: b64_vars [e0; e1; e2; e3] k text (c :: r) v) t o) =
    Some (GNext, mem ((b "j", VarVal (HI ISize (Z.of_nat j))) :: b64_vars (set_nth j (Some (b64_int (schar c))) [e0; e1; e2; e3]) k text r v) t o).
Proof.
  intros call C j e0 e1 e2 e3 k text c r v t o J NZ.
  pose proof (schar_range c) as RG.
  assert (E0 : (schar c =? 0) = false) by lia.
  destruct j as [|[|[|[|j]]]]; [destruct e0|destruct e1|destruct e2|destruct e3|lia].
  all: unfold b64_fb, snd; (eapply g_block; [cbv [length]|]).
  all: try (nx; [ev; reflexivity|]; nx; [eapply g_none; cnd E0|]; nx; [evb|apply seq_end];
    match goal with |- context [?cl OName ?w ?x ?s] =>
    let H := fresh in eassert (H : cl OName w x s = _) by (eapply (C t _ (schar c)); [lia|ev; reflexivity]); rewrite H; clear H end;
    evb; reflexivity).
  all: reflexivity.
Qed.

(** The end of the text within a group or before it. *)
Lemma for_end : forall call, tok_calls N d ea call -> (1 <= d)%nat -> forall j l k text p v t o, (j < 4)%nat ->
  match p with [] => True | c :: _ => schar c = 0 end ->
  exists w, hexec N consts ea CNone call 17 (snd b64_fb) (mem ((b "j", VarVal (HI ISize (Z.of_nat j))) :: b64_vars l k text p v) t o) =
    Some (GReturn (Some (HV (HI IPgr 0))),
      mem ((b "j", VarVal (HI ISize (Z.of_nat j))) :: (b "ptr", VarVal w) :: tl (b64_vars l k text p v))
          (match j with O => t | _ => tk_error PGERR_INVALID_OBJECT (b "invalid base64 data") t end) o).
Proof.
  intros call T D j l k text p v t o J P. exists (match p with [] => HPast | _ :: r => HPtr r end). unfold b64_fb, snd.
  assert (E0 : forall c, schar c = 0 -> (schar c =? 0) = true) by (intros; lia).
  destruct p as [|c r]; [|specialize (E0 c P)]; (destruct j as [|[|[|[|j]]]]; [| | | |lia]); (eapply g_block; [cbv [length]|]).
  all: try (nx; [ev; reflexivity|]; rt; eapply g_if; [first [cnd E0|ev; reflexivity]|]; (eapply g_block; [cbv [length]|])).
  all: try (nx; [eapply g_none; ev; reflexivity|]; rt; ev; reflexivity).
  all: try (nx; [eapply g_if; [ev; reflexivity|]; ev; use (j_error N d ea _ T t PGERR_INVALID_OBJECT); ev; reflexivity|]; rt; ev; reflexivity).
  all: reflexivity.
Qed.

Definition b64_push := Eval vm_compute in match snd b64_w with TBlock (_ :: l) => l | _ => [] end.
Lemma land_pos : forall a m, 0 <= m -> (0 <=? Z.land a m) = true.
Proof. intros a m M. apply Z.leb_le, Z.land_nonneg. auto. Qed.
Definition mask (m : Z) : bool := existsb (Z.eqb m) [3; 7; 15; 31; 63; 255].
Lemma land_le : forall a m, mask m = true -> 0 <= Z.land a m <= m.
Proof.
  intros a m M. unfold mask in M. cbn [existsb] in M. rewrite !orb_true_iff, !Z.eqb_eq in M.
  destruct M as [->|[->|[->|[->|[->|[->|M]]]]]]; [rewrite land3|rewrite land7|rewrite land15|rewrite land31|rewrite land63|rewrite land255|discriminate M];
    match goal with |- _ <= a mod ?k <= _ => pose proof (Z.mod_pos_bound a k eq_refl); lia end.
Qed.
Lemma ok_shl : forall a m k, mask m = true -> 0 <= k <= 8 -> int_ok (Z.shiftl (Z.land a m) k) = true.
Proof.
  intros a m k M K. rewrite Z.shiftl_mul_pow2 by lia. assert (A := land_le a m M).
  assert (P : 0 <= 2 ^ k <= 2 ^ 8) by (split; [apply Z.pow_nonneg; lia|apply Z.pow_le_mono_r; lia]). change (2 ^ 8) with 256 in P.
  assert (m <= 255) by (unfold mask in M; cbn [existsb] in M; lia).
  unfold int_ok. apply andb_true_intro. rewrite !Z.leb_le. nia.
Qed.
Ltac ari := evb; rewrite ?land_pos, ?ok_shl by first [reflexivity|lia]; reflexivity.
Ltac num := first [eapply g_cast; [num|reflexivity|reflexivity|reflexivity]
                  |eapply g_bin; [reflexivity|num|num|reflexivity|reflexivity|ari]
                  |ev; reflexivity].
Lemma push1 : forall call n e z l k text p v t o,
  heval consts ea CNone call e (mem (b64_vars l k text p v) t o) = Some (HV (HI IU8 (code (byte_of z))), mem (b64_vars l k text p v) t o) ->
  hexec N consts ea CNone call (S n) (TExpr [ECall (EDot (EName [b "value"]) (b "push_back")) [e]]) (mem (b64_vars l k text p v) t o) =
    Some (GNext, mem (b64_vars l k text p (v ++ [chr z])) t o).
Proof.
  intros call n e z l k text p v t o H. eapply g_expr. eapply g_method; [reflexivity|exact H|reflexivity|reflexivity|reflexivity|reflexivity|].
  unfold byte_of. rewrite chr_code. reflexivity.
Qed.
Lemma app2 : forall (v : bytes) a c r, v ++ a :: c :: r = (v ++ [a]) ++ c :: r.
Proof. intros. rewrite <- app_assoc. reflexivity. Qed.
Lemma push_group : forall call s0 s1 s2 s3 k text p v t o, exists k',
  seq_loop (hexec N consts ea CNone call 18) 3 b64_push (mem (b64_vars [Some s0; Some s1; Some s2; Some s3] k text p v) t o) =
    Some (GNext, mem (b64_vars [Some s0; Some s1; Some s2; Some s3] k' text p (v ++ b64_group s0 s1 s2 s3)) t o).
Proof.
  intros call s0 s1 s2 s3 k text p v t o. unfold b64_group.
  destruct (s2 =? 64) eqn:E2; [|destruct (s3 =? 64) eqn:E3]; rewrite ?app2; (eexists; unfold b64_push; nx; [eapply push1; num|]).
  - assert (E2' : negb (s2 =? 64) = false) by (rewrite E2; reflexivity).
    nx; [eapply g_else; [cnd E2'|ev; reflexivity]|]. apply seq_end.
  - assert (E2' : negb (s2 =? 64) = true) by (rewrite E2; reflexivity).
    assert (E3' : negb (s3 =? 64) = false) by (rewrite E3; reflexivity).
    nx; [eapply g_if; [cnd E2'|]|].
    { eapply g_block; [cbv [length]|]. { nx; [eapply push1; num|]. nx; [eapply g_else; [cnd E3'|ev; reflexivity]|]. apply seq_end. } reflexivity. }
    apply seq_end.
  - assert (E2' : negb (s2 =? 64) = true) by (rewrite E2; reflexivity).
    assert (E3' : negb (s3 =? 64) = true) by (rewrite E3; reflexivity).
    nx; [eapply g_if; [cnd E2'|]|].
    { eapply g_block; [cbv [length]|]. { nx; [eapply push1; num|]. nx; [eapply g_if; [cnd E3'|]|].
      { eapply g_block; [cbv [length]|]. { nx; [eapply push1; num|]. nx; [ev; reflexivity|]. apply seq_end. } reflexivity. }
      apply seq_end. } reflexivity. }
    apply seq_end.
Qed.

Section W.
Context (call : call_t) (T : tok_calls N d ea call) (C : ints call) (D : (1 <= d)%nat).
Notation W := (fun m => while_loop m (hcond consts ea CNone call (fst (fst b64_fb))) (heffects consts ea CNone call (snd (fst b64_fb)))
                          (hexec N consts ea CNone call 17 (snd b64_fb))).
Notation fs := (fun j l k text p v t o => mem ((b "j", VarVal (HI ISize (Z.of_nat j))) :: b64_vars l k text p v) t o).
Definition stops (p : bytes) : Prop := match p with [] => True | c :: _ => schar c = 0 end.
Definition b64_err (j : nat) (t : tokenizer) : tokenizer :=
  match j with O => t | _ => tk_error PGERR_INVALID_OBJECT (b "invalid base64 data") t end.

Lemma for_step : forall m j e0 e1 e2 e3 k text c r v t o, (j < 4)%nat -> schar c <> 0 ->
  W (S m) (fs j [e0; e1; e2; e3] k text (c :: r) v t o) = W m (fs (S j) (set_nth j (Some (b64_int (schar c))) [e0; e1; e2; e3]) k text r v t o).
Proof.
  intros m j e0 e1 e2 e3 k text c r v t o J NZ. cbv beta. rewrite while_loop_S.
  assert (E : hcond consts ea CNone call (fst (fst b64_fb)) (fs j [e0; e1; e2; e3] k text (c :: r) v t o) = Some (true, fs j [e0; e1; e2; e3] k text (c :: r) v t o))
    by (destruct j as [|[|[|[|j]]]]; [| | | |lia]; reflexivity).
  cbv beta in E. rewrite E, for_one by assumption.
  destruct j as [|[|[|[|j]]]]; [| | | |lia]; reflexivity.
Qed.
Lemma for_stop : forall m j l k text p v t o, (j < 4)%nat -> stops p -> exists w,
  W (S m) (fs j l k text p v t o) =
    Some (GReturn (Some (HV (HI IPgr 0))), mem ((b "j", VarVal (HI ISize (Z.of_nat j))) :: (b "ptr", VarVal w) :: tl (b64_vars l k text p v)) (b64_err j t) o).
Proof.
  intros m j l k text p v t o J S. destruct (for_end call T D j l k text p v t o J S) as [w H]. exists w. cbv beta. rewrite while_loop_S.
  assert (E : hcond consts ea CNone call (fst (fst b64_fb)) (fs j l k text p v t o) = Some (true, fs j l k text p v t o))
    by (destruct j as [|[|[|[|j]]]]; [| | | |lia]; reflexivity).
  cbv beta in E. rewrite E, H. reflexivity.
Qed.
Lemma for_done : forall m l k text p v t o, W (S m) (fs 4%nat l k text p v t o) = Some (GNext, fs 4%nat l k text p v t o).
Proof. intros. reflexivity. Qed.

(** The loop of a group, from a tuple of characters on. *)
Lemma stops_nul : forall c, schar c = 0 <-> Ascii.eqb c NUL = true.
Proof.
  intros c. rewrite Ascii.eqb_eq. split; intros H.
  - assert (E : code c = 0) by (apply (schar_code c 0); [lia|exact H]). rewrite <- (chr_code c), E. reflexivity.
  - subst. reflexivity.
Qed.
Lemma cut : forall p, (stops p /\ cstr p = []) \/ exists c r, p = c :: r /\ schar c <> 0 /\ cstr p = c :: cstr r.
Proof.
  intros [|c r]; [left; split; [exact I|reflexivity]|]. cbn [cstr]. destruct (Ascii.eqb c NUL) eqn:E.
  - left. split; [apply stops_nul, E|reflexivity].
  - right. exists c, r. split; [reflexivity|]. split; [|reflexivity]. intros H. apply stops_nul in H. congruence.
Qed.
Lemma four_list : forall l : list (option Z), length l = 4%nat -> exists a c e f, l = [a; c; e; f].
Proof. intros [|a [|c [|e [|f [|]]]]] H; try discriminate H. eauto 6. Qed.

Lemma group : forall l k text p v t o, length l = 4%nat -> (5 <= N)%nat ->
  (exists c0 c1 c2 c3 r l' k', p = c0 :: c1 :: c2 :: c3 :: r /\ cstr p = c0 :: c1 :: c2 :: c3 :: cstr r /\ length l' = 4%nat /\
    hexec N consts ea CNone call 19 (snd b64_w) (mem (b64_vars l k text p v) t o) =
      Some (GNext, mem (b64_vars l' k' text r (v ++ b64_group (b64_int (schar c0)) (b64_int (schar c1)) (b64_int (schar c2)) (b64_int (schar c3)))) t o)) \/
  (exists w l', b64_decode (cstr p) = ([], match cstr p with [] => false | _ => true end) /\
    hexec N consts ea CNone call 19 (snd b64_w) (mem (b64_vars l k text p v) t o) =
      Some (GReturn (Some (HV (HI IPgr 0))), mem ((b "ptr", VarVal w) :: tl (b64_vars l' k text p v))
        (match cstr p with [] => t | _ => tk_error PGERR_INVALID_OBJECT (b "invalid base64 data") t end) o)).
Proof.
  intros l k text p v t o L NN. destruct (four_list l L) as [e0 [e1 [e2 [e3 ->]]]].
  assert (exists m, N = S (S (S (S (S m))))) as [m EM] by (exists (N - 5)%nat; lia).
  assert (WN : forall s, W N s = W (S (S (S (S (S m))))) s) by (intros s0; cbv beta; rewrite <- EM; reflexivity).
  assert (STOP : forall f j l' q, W (S (S (S (S (S m))))) (fs 0%nat [e0; e1; e2; e3] k text p v t o) = W (S f) (fs j l' k text q v t o) -> (j < 4)%nat -> stops q -> 
    exists w, hexec N consts ea CNone call 19 (snd b64_w) (mem (b64_vars [e0; e1; e2; e3] k text p v) t o) =
      Some (GReturn (Some (HV (HI IPgr 0))), mem ((b "ptr", VarVal w) :: tl (b64_vars l' k text p v)) (b64_err j t) o)).
  { intros f j l' q E J S. destruct (for_stop f j l' k text q v t o J S) as [w H]. exists w. unfold b64_w, snd.
    eapply g_block; [cbv [length]; rt; eapply g_for; [ev; reflexivity| |reflexivity]|].
    { etransitivity; [apply WN|]. etransitivity; [exact E|]. exact H. }
    destruct j as [|[|[|[|j]]]]; [| | | |lia]; reflexivity. }
  destruct (cut p) as [[S0 P0]|[c0 [r0 [-> [N0 P0]]]]].
  { right. destruct (STOP (S (S (S (S m)))) 0%nat [e0; e1; e2; e3] p) as [w H]; [reflexivity|lia|exact S0|]. exists w. eexists. rewrite P0. split; [reflexivity|exact H]. }
  assert (X0 : W (S (S (S (S (S m))))) (fs 0%nat [e0; e1; e2; e3] k text (c0 :: r0) v t o) = W (S (S (S (S m)))) (fs 1%nat [Some (b64_int (schar c0)); e1; e2; e3] k text r0 v t o))
    by (apply for_step; [lia|exact N0]).
  destruct (cut r0) as [[S1 P1]|[c1 [r1 [-> [N1 P1]]]]].
  { right. destruct (STOP (S (S (S m))) 1%nat [Some (b64_int (schar c0)); e1; e2; e3] r0) as [w H]; [exact X0|lia|exact S1|]. exists w. eexists. rewrite P0, P1. split; [reflexivity|exact H]. }
  assert (X1 := for_step (S (S (S m))) 1 (Some (b64_int (schar c0))) e1 e2 e3 k text c1 r1 v t o ltac:(lia) N1). cbv beta in X0, X1; rewrite X1 in X0; clear X1; rename X0 into X1. cbn [set_nth] in X1.
  destruct (cut r1) as [[S2 P2]|[c2 [r2 [-> [N2 P2]]]]].
  { right. destruct (STOP (S (S m)) 2%nat [Some (b64_int (schar c0)); Some (b64_int (schar c1)); e2; e3] r1) as [w H]; [exact X1|lia|exact S2|]. exists w. eexists. rewrite P0, P1, P2. split; [reflexivity|exact H]. }
  assert (X2 := for_step (S (S m)) 2 (Some (b64_int (schar c0))) (Some (b64_int (schar c1))) e2 e3 k text c2 r2 v t o ltac:(lia) N2). cbv beta in X1, X2; rewrite X2 in X1; clear X2; rename X1 into X2. cbn [set_nth] in X2.
  destruct (cut r2) as [[S3 P3]|[c3 [r3 [-> [N3 P3]]]]].
  { right. destruct (STOP (S m) 3%nat [Some (b64_int (schar c0)); Some (b64_int (schar c1)); Some (b64_int (schar c2)); e3] r2) as [w H]; [exact X2|lia|exact S3|]. exists w. eexists. rewrite P0, P1, P2, P3. split; [reflexivity|exact H]. }
  assert (X3 := for_step (S m) 3 (Some (b64_int (schar c0))) (Some (b64_int (schar c1))) (Some (b64_int (schar c2))) e3 k text c3 r3 v t o ltac:(lia) N3).
  cbv beta in X2, X3; rewrite X3 in X2; clear X3; rename X2 into X3. cbn [set_nth] in X3. clear STOP.
  destruct (push_group call (b64_int (schar c0)) (b64_int (schar c1)) (b64_int (schar c2)) (b64_int (schar c3)) k text r3 v t o) as [k' H].
  left. exists c0, c1, c2, c3, r3. do 2 eexists. split; [reflexivity|]. split; [rewrite P0, P1, P2, P3; reflexivity|]. split; [|].
  2: { unfold b64_w, snd. eapply g_block; [cbv [length]; nx; [eapply g_for; [ev; reflexivity| |]|]|].
    { etransitivity; [apply WN|]. etransitivity; [exact X3|]. apply for_done. }
    { reflexivity. }
    { exact H. }
    reflexivity. }
  reflexivity.
Qed.

(** The loop of the groups. *)
Lemma b64_while : forall n p l k text v t o, length l = 4%nat -> (5 <= N)%nat -> (length p < 4 * n)%nat ->
  exists w l' k', while_loop n (hcond consts ea CNone call (fst b64_w)) Some (hexec N consts ea CNone call 19 (snd b64_w)) (mem (b64_vars l k text p v) t o) =
    Some (GReturn (Some (HV (HI IPgr 0))), mem ((b "ptr", VarVal w) :: tl (b64_vars l' k' text p (v ++ fst (b64_decode (cstr p)))))
      (if snd (b64_decode (cstr p)) then tk_error PGERR_INVALID_OBJECT (b "invalid base64 data") t else t) o).
Proof.
  induction n as [|n IH]; intros p l k text v t o L NN F; [lia|]. rewrite while_loop_S.
  change (hcond consts ea CNone call (fst b64_w) ?s) with (Some (true, s)).
  destruct (group l k text p v t o L NN) as [[c0 [c1 [c2 [c3 [r [l' [k' [-> [P [L' H]]]]]]]]]]|[w [l' [P H]]]]; rewrite H.
  - rewrite P. cbn [length] in F. destruct (IH r l' k' text (v ++ b64_group (b64_int (schar c0)) (b64_int (schar c1)) (b64_int (schar c2)) (b64_int (schar c3))) t o L' NN ltac:(lia)) as [w [l2 [k2 E]]]. exists w, l2, k2. rewrite E.
    cbn [b64_decode]. destruct (b64_decode (cstr r)) as [o2 bad]. cbn [fst snd]. rewrite app_assoc. reflexivity.
  - exists w, l', k. rewrite P. cbn [fst snd]. rewrite app_nil_r. destruct (cstr p); reflexivity.
Qed.
End W.

Lemma bread64 : forall call, tok_calls N d ea call -> ints call ->
  reads N d (fun _ => True) (fun v => HM (VB64 v)) (run_fun N consts ea CNone call fn_b64read)
    (fun n t v => match read_b64 n t v with Some (r, VB64 v', t') => Some (r, v', t') | _ => None end).
Proof.
  intros call T C n t v r v' t' R _ M D. unfold read_b64 in R. pose (z := tid_z (t_id (tk_cur t))).
  assert (Q : ((z =? 9) = true /\ r = PGR_NIL /\ v' = v /\ t' = t) \/
    ((z =? 9) = false /\ negb (z =? 6) = true /\ r = PGR_ERROR /\ v' = v /\ t' = tk_error PGERR_INVALID_OBJECT (b "invalid string") t) \/
    ((z =? 9) = false /\ negb (z =? 6) = false /\ r = PGR_OK /\ v' = v ++ fst (b64_decode (cstr (t_val (tk_cur t)))) /\ exists t1, tk_next n t = Some t1 /\
      t' = if snd (b64_decode (cstr (t_val (tk_cur t)))) then tk_error PGERR_INVALID_OBJECT (b "invalid base64 data") t1 else t1)).
  { unfold z. unfold tk_id in R. destruct (t_id (tk_cur t)); unfold rfail in R;
      try (injection R as <- <- <-; first [left; repeat split; reflexivity|right; left; repeat split; reflexivity]).
    destruct (tk_next n t) as [t1|]; [|discriminate R]. destruct (b64_decode (cstr (t_val (tk_cur t)))) as [ov bad].
    injection R as <- <- <-. right. right. split; [reflexivity|]. split; [reflexivity|]. split; [reflexivity|]. split; [reflexivity|]. exists t1. split; reflexivity. }
  clear R. unfold z in Q. clear z. destruct Q as [[E [-> [-> ->]]]|[[E1 [E2 [-> [-> ->]]]]|[E1 [E2 [-> [-> [t1 [X ->]]]]]]]].
  - split; [apply goes_refl|]. intros vars a x o A G. eapply (run_ref N _ ea call fn_b64read (b "value")); [reflexivity|exact A|exact G|reflexivity| | | ].
    { body fn_b64read. rt. eapply g_if; [ev; use (j_peek N d ea call T t); ev; rewrite E; reflexivity|ev; reflexivity]. }
    all: reflexivity.
  - split; [apply goes_error; apply goes_refl|]. intros vars a x o A G. eapply (run_ref N _ ea call fn_b64read (b "value")); [reflexivity|exact A|exact G|reflexivity| | | ].
    { body fn_b64read. nx; [eapply g_none; ev; use (j_peek N d ea call T t); ev; rewrite E1; reflexivity|]. 
      rt. eapply g_if; [ev; use (j_peek N d ea call T t); ev; change (if tid_z (t_id (tk_cur t)) =? 6 then false else true) with (negb (tid_z (t_id (tk_cur t)) =? 6)); rewrite E2; reflexivity|].
      ev; use (j_error N d ea call T t PGERR_INVALID_OBJECT); ev; reflexivity. }
    all: reflexivity.
  - assert (L : goes N t t1) by (eapply goes_tnext; [exact M|]; exact X).
    split; [destruct (snd (b64_decode (cstr (t_val (tk_cur t))))); [apply goes_error|]; exact L|]. intros vars a x o A G.
    destruct (b64_while call T C ltac:(lia) N (t_val (tk_cur t)) [None; None; None; None] 0 (t_val (tk_cur t)) v t1 o) as [w [l' [k' H]]];
      [reflexivity|apply M|apply M|].
    eapply (run_ref N _ ea call fn_b64read (b "value")); [reflexivity|exact A|exact G|reflexivity| | | ].
    { body fn_b64read. nx; [eapply g_none; ev; use (j_peek N d ea call T t); ev; rewrite E1; reflexivity|].
      nx; [eapply g_none; ev; use (j_peek N d ea call T t); ev; change (if tid_z (t_id (tk_cur t)) =? 6 then false else true) with (negb (tid_z (t_id (tk_cur t)) =? 6)); rewrite E2; reflexivity|].
      nx; [ev; reflexivity|]. nx; [ev; reflexivity|]. nx; [ev; use (j_peek N d ea call T t); ev; reflexivity|].
      nx; [ev; use (j_next N d ea call T n t); ev; reflexivity|]. nx; [ev; reflexivity|].
      rt. rewrite g_while. exact H. }
    all: reflexivity.
Qed.
End B.
