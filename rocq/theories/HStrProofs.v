(** The text of json-string.hh, executed: writing. *)
From Coq Require Import Lia Arith.
From Verif Require Import Bytes Num Dbl Types Stream Tokenizer Read Write Template Cpp CLex CParse CExec Unit HdrText HText HParse HExec HTok BaseProofs
  SpecHTok HTokProofs HIgnProofs HJson HRunProofs HReadProofs BitProofs HB64Proofs HWriteProofs.

(** ** Integers *)
Lemma size_id : forall z, 0 <= z < 18446744073709551616 -> cast_int false 64 z = z.
Proof. intros z Z. unfold cast_int. apply Z.mod_small. exact Z. Qed.
Lemma uint_id : forall z, 0 <= z < 4294967296 -> cast_int false 32 z = z.
Proof. intros z Z. unfold cast_int. apply Z.mod_small. exact Z. Qed.

Definition byte_range (a : Z) : Prop := 0 <= a <= 255.
Lemma code_range : forall c, byte_range (code c).
Proof. intros c. unfold byte_range, code. pose proof (N_ascii_bounded c). lia. Qed.
Lemma lor6 : forall a c, 0 <= c < 64 -> Z.lor (a * 64) c = a * 64 + c.
Proof. intros a c C. apply (lor_add a c 6); [lia|exact C]. Qed.
Lemma lor12 : forall a c, 0 <= c < 4096 -> Z.lor (a * 4096) c = a * 4096 + c.
Proof. intros a c C. apply (lor_add a c 12); [lia|exact C]. Qed.
Lemma lor18 : forall a c, 0 <= c < 262144 -> Z.lor (a * 262144) c = a * 262144 + c.
Proof. intros a c C. apply (lor_add a c 18); [lia|exact C]. Qed.
Lemma cp2_small : forall a c, let z := Z.lor (Z.shiftl (Z.land a 31) 6) (Z.land c 63) in 0 <= z < 65536.
Proof.
  intros a c. cbv zeta. rewrite land31, land63, shiftl6.
  pose proof (Z.mod_pos_bound a 32 eq_refl). pose proof (Z.mod_pos_bound c 64 eq_refl). rewrite lor6 by lia. lia.
Qed.
Lemma cp3_small : forall a c e, let z := Z.lor (Z.lor (Z.shiftl (Z.land a 15) 12) (Z.shiftl (Z.land c 63) 6)) (Z.land e 63) in 0 <= z < 65536.
Proof.
  intros a c e. cbv zeta. rewrite land15, !land63, shiftl6, shiftl12.
  pose proof (Z.mod_pos_bound a 16 eq_refl). pose proof (Z.mod_pos_bound c 64 eq_refl). pose proof (Z.mod_pos_bound e 64 eq_refl).
  rewrite lor12 by lia. replace (a mod 16 * 4096 + c mod 64 * 64) with ((a mod 16 * 64 + c mod 64) * 64) by lia.
  rewrite lor6 by lia. lia.
Qed.
Lemma cp4_small : forall a c e f,
  let z := Z.lor (Z.lor (Z.lor (Z.shiftl (Z.land a 7) 18) (Z.shiftl (Z.land c 63) 12)) (Z.shiftl (Z.land e 63) 6)) (Z.land f 63) in 0 <= z < 2097152.
Proof.
  intros a c e f. cbv zeta. rewrite land7, !land63, shiftl6, shiftl12, shiftl18.
  pose proof (Z.mod_pos_bound a 8 eq_refl). pose proof (Z.mod_pos_bound c 64 eq_refl). pose proof (Z.mod_pos_bound e 64 eq_refl). pose proof (Z.mod_pos_bound f 64 eq_refl).
  rewrite lor18 by lia. replace (a mod 8 * 262144 + c mod 64 * 4096) with ((a mod 8 * 64 + c mod 64) * 4096) by lia.
  rewrite lor12 by lia. replace ((a mod 8 * 64 + c mod 64) * 4096 + e mod 64 * 64) with (((a mod 8 * 64 + c mod 64) * 64 + e mod 64) * 64) by lia.
  rewrite lor6 by lia. lia.
Qed.

(** ** One code point (json-string.hh:40-45) *)
Lemma hexd_nonzero : forall x, 0 <= x < 16 -> Ascii.eqb (byte_of (char_of (hexd x))) NUL = false.
Proof.
  intros x X. unfold byte_of, char_of. rewrite chr_schar. 
  assert (C : In x (map Z.of_nat (seq 0 16))).
  { replace x with (Z.of_nat (Z.to_nat x)) by lia. apply in_map. apply in_seq. lia. }
  cbn in C. repeat (destruct C as [<-|C]; [reflexivity|]). destruct C.
Qed.
Lemma hex4_escape : forall z, 0 <= z < 65536 -> b "\u" ++ hex_digits (hex_width z) z = u_escape z.
Proof.
  intros z Z. unfold hex_width. replace (z <? 65536) with true by lia. unfold hex_digits, u_escape. cbn [seq rev app map].
  change (4 * Z.of_nat 3) with 12. change (4 * Z.of_nat 2) with 8. change (4 * Z.of_nat 1) with 4. change (4 * Z.of_nat 0) with 0.
  rewrite !land15, Z.shiftr_0_r, shiftr12, shiftr4. rewrite (Z.shiftr_div_pow2 z 8) by lia. change (2 ^ 8) with 256.
  rewrite (Z.mod_small (z / 4096) 16) by (split; [apply Z.div_pos; lia|apply Z.div_lt_upper_bound; lia]). reflexivity.
Qed.

Section S.
Context (N : nat) (ea : bool).

Definition escapes (call : call_t) : Prop := forall vars t o c z, 0 <= z < 65536 -> load (mem vars t o) c = Some (HI IUInt z) ->
  call OName [b "write_escaped_utf8"] [HV HOsP; c] (mem vars t o) = Some (HV HVoid, mem vars t (o ++ u_escape z)).

Lemma escaped : forall call vars t o c z, (forall args s, call OName [b "snprintf"] args s = call_snprintf args s) ->
  0 <= z < 65536 -> load (mem vars t o) c = Some (HI IUInt z) ->
  run_fun N consts ea CNone call fn_escaped [HV HOsP; c] (mem vars t o) = Some (HV HVoid, mem vars t (o ++ u_escape z)).
Proof.
  intros call vars t o c z C Z G. unfold run_fun.
  assert (B : bind_params (hf_params fn_escaped) [HV HOsP; c] (mem vars t o) = Some ([(b "out", VarVal HOsP); (b "codepoint", VarVal (HI IUInt z))], [])).
  { cbn [fn_escaped hf_params bind_params]. rewrite G. reflexivity. }
  rewrite B. change (put_vars (mem vars t o) ?z) with (mem z t o).
  set (bs := map (fun c => HI IChar (char_of c)) (u_escape z) ++ [HI IChar 0]).
  assert (Q : seq_loop (hexec N consts ea CNone call nesting) (S (length (hf_body fn_escaped))) (hf_body fn_escaped)
     (mem [(b "out", VarVal HOsP); (b "codepoint", VarVal (HI IUInt z))] t o) =
     Some (GNext, mem [(b "buffer", VarVal (HArr bs)); (b "out", VarVal HOsP); (b "codepoint", VarVal (HI IUInt z))] t (o ++ u_escape z))).
  { body fn_escaped. nx; [reflexivity|]. nx.
    { eapply g_expr. match goal with |- heval _ _ _ _ _ ?s0 = _ => set (s1 := s0) end.
      transitivity (call OName [b "snprintf"] [HL (RVar (b "buffer")) []; HV (HI ISize 7); HV (HPtr w_hex_format); HL (RVar (b "codepoint")) []] s1); [reflexivity|].
      rewrite C. unfold call_snprintf. change (peek_at s1 (RVar (b "buffer")) []) with (Some (HArr (repeat (HNone IChar) 7))).
      change (load s1 (HL (RVar (b "codepoint")) [])) with (Some (HI IUInt z)). cbn [load]. 
      change (str_eqb w_hex_format w_hex_format) with true. cbv iota zeta. rewrite hex4_escape by assumption.
      change (snprintf 7 (u_escape z) (repeat (HNone IChar) 7)) with (Some bs). cbv iota.
      change (store s1 (RVar (b "buffer")) [] (HArr bs)) with (Some (mem [(b "buffer", VarVal (HArr bs)); (b "out", VarVal HOsP); (b "codepoint", VarVal (HI IUInt z))] t o)).
      reflexivity. }
    nx; [|apply seq_end]. eapply g_expr. etransitivity; [eapply g_put; [reflexivity|reflexivity|reflexivity|]|reflexivity].
    assert (P : cstr (map byte_of (map char_of (u_escape z) ++ [0])) = u_escape z).
    { change (u_escape z) with ["\"%char; "u"%char; hexd (z / 4096); hexd (z / 256 mod 16); hexd (z / 16 mod 16); hexd (z mod 16)].
      cbn [map app cstr]. change (Ascii.eqb (byte_of (char_of "\"%char)) NUL) with false. change (Ascii.eqb (byte_of (char_of "u"%char)) NUL) with false.
      cbv iota. rewrite !hexd_nonzero; [|Z.div_mod_to_equations; lia..]. unfold byte_of, char_of. rewrite !chr_schar. reflexivity. }
    change (printed (HArr bs)) with (Some (cstr (map byte_of (map char_of (u_escape z) ++ [0])))). rewrite P. reflexivity. }
  rewrite Q. reflexivity.
Qed.
End S.

(** ** Expressions with integers as values and without effects *)
Section E.
Context (N : nat) (cs : list (list bytes * hval)) (ea : bool) (call : call_t).
Notation he := (heval cs ea CNone call).
Notation cond := (hcond cs ea CNone call).
Definition iv (e : hexpr) (s : hst) (t : ity) (z : Z) : Prop := exists x, he e s = Some (x, s) /\ load s x = Some (HI t z).

Lemma iv_name : forall w vars t o i z, assoc vars w = Some (VarVal (HI i z)) -> iv (EName [w]) (mem vars t o) i z.
Proof. intros w vars t o i z H. exists (HL (RVar w) []). cbn [heval named s_vars mem]. rewrite H. split; [reflexivity|]. cbn [load]. unfold peek_at. cbn [get_root s_vars mem]. rewrite H. reflexivity. Qed.
Lemma iv_num : forall z s, num_val false z = Some (HI IInt z) -> iv (ENum false z) s IInt z.
Proof. intros z s H. exists (HV (HI IInt z)). cbn [heval]. rewrite H. split; reflexivity. Qed.
Lemma iv_bin : forall op x y s t a t' a' c v, same op (b "&&") || same op (b "||") = false -> iv x s t a -> iv y s t' a' ->
  arith op t t' a a' = Some (HI c v) -> iv (EBin op x y) s c v.
Proof.
  intros op x y s t a t' a' c v O [u [X LX]] [w [Y LY]] A. exists (HV (HI c v)). split; [|reflexivity].
  eapply g_bin; eassumption.
Qed.
Lemma c_cmp : forall op x y s t a t' a' r, same op (b "&&") || same op (b "||") = false -> iv x s t a -> iv y s t' a' ->
  arith op t t' a a' = Some (HB r) -> cond (EBin op x y) s = Some (r, s).
Proof.
  intros op x y s t a t' a' r O [u [X LX]] [w [Y LY]] A. unfold hcond. erewrite g_bin by eassumption. reflexivity.
Qed.
Lemma c_eq : forall c s p q, cond c s = Some (p, s) -> p = q -> cond c s = Some (q, s).
Proof. intros c s p q H <-. exact H. Qed.
Lemma iv_elem : forall x i vars t o str z c, assoc vars x = Some (VarVal (HS str)) -> iv i (mem vars t o) ISize z -> 0 <= z ->
  nth_error str (Z.to_nat z) = Some c -> iv (EIndex (EName [x]) i) (mem vars t o) IChar (char_of c).
Proof.
  intros x i vars t o str z c H [w [I L]] Z E. exists (HV (HI IChar (char_of c))). split; [|reflexivity].
  eapply g_elem; [cbn [heval named s_vars mem]; rewrite H; reflexivity|exact I|exact L| | |].
  - unfold peek_at. cbn [get_root s_vars mem]. rewrite H. reflexivity.
  - reflexivity.
  - unfold element. assert (J : (Z.to_nat z < length str)%nat) by (apply nth_error_Some; congruence).
    replace (z <? 0) with false by lia. replace (z =? Z.of_nat (length str)) with false by lia.
    rewrite E. reflexivity.
Qed.
Lemma put_one : forall n y vars t o w v x, assoc vars (b "ctx") = Some (VarVal HCtx) -> he y (mem vars t o) = Some (w, mem vars t o) ->
  load (mem vars t o) w = Some v -> printed v = Some x ->
  hexec N cs ea CNone call (S n) (TExpr [EBin (b "<<") (EPre (b "*") (EDot (EName [b "ctx"]) (b "os"))) y]) (mem vars t o) = Some (GNext, mem vars t (o ++ x)).
Proof.
  intros n y vars t o w v x C Y L P. eapply g_expr. etransitivity; [eapply g_put; [|exact Y|exact L|exact P]|reflexivity].
  cbn [heval]. change (EName [b "ctx"]) with (EName [b "ctx"]). cbn [named s_vars mem]. rewrite C. cbn [option_map].
  unfold member_of. cbn [load]. unfold peek_at. cbn [get_root s_vars mem]. rewrite C. reflexivity.
Qed.
Lemma inc_one : forall n x vars t o z, assoc vars x = Some (VarVal (HI ISize z)) -> 0 <= z < 9223372036854775808 ->
  hexec N cs ea CNone call (S n) (TExpr [EPost (b "++") (EName [x])]) (mem vars t o) = Some (GNext, mem (update vars x (VarVal (HI ISize (z + 1)))) t o).
Proof.
  intros n x vars t o z H Z. eapply g_expr. cbn [heval named s_vars mem]. rewrite H. cbn [option_map load]. unfold peek_at. cbn [get_root s_vars mem]. rewrite H.
  cbn [get_path]. change (same (b "++") (b "++")) with true. cbv iota. cbn [advanced fit wrap option_map]. rewrite size_id by lia.
  unfold store. cbn [get_root s_vars mem]. rewrite H. reflexivity.
Qed.
Lemma add_one : forall n x k vars t o z, assoc vars x = Some (VarVal (HI ISize z)) -> 0 <= z < 9223372036854775808 -> 0 <= k <= 4 ->
  hexec N cs ea CNone call (S n) (TExpr [ESet (b "+=") (EName [x]) (ENum false k)]) (mem vars t o) = Some (GNext, mem (update vars x (VarVal (HI ISize (z + k)))) t o).
Proof.
  intros n x k vars t o z H Z K. eapply g_expr. cbn [heval]. assert (V : num_val false k = Some (HI IInt k)) by (unfold num_val; destruct (Z.compare_spec k 2147483647); try lia; reflexivity).
  rewrite V. cbn [option_map]. cbn [named s_vars mem]. rewrite H. cbn [option_map load]. unfold peek_at. cbn [get_root s_vars mem]. rewrite H.
  cbn [get_path]. change (same (b "+=") (b "=")) with false. change (same (b "+=") (b "+=")) with true. cbv iota. cbn [added].
  change (arith (b "+") ISize IInt z k) with (Some (HI ISize (cast_int false 64 (z + cast_int false 64 k)))). cbn [option_map conv].
  rewrite (size_id k) by lia. rewrite size_id by lia. cbn [conv within ity_eqb orb option_map].
  unfold store. cbn [get_root s_vars mem]. rewrite H. reflexivity.
Qed.
Lemma iv_var : forall n T x e s t z w, words_eqb T w_auto_ref = false -> iv e s t z -> typed T (HI t z) = Some w ->
  hexec N cs ea CNone call (S n) (TVar T x None (Some e)) s = Some (GNext, put_vars s ((x, VarVal w) :: s_vars s)).
Proof. intros n T x e s t z w A [u [E L]] W. cbn [hexec declare]. rewrite E, A, L, W. reflexivity. Qed.
End E.

Lemma ok_shl : forall a m k, 0 <= m <= 255 -> 0 <= a <= m -> 0 <= k <= 18 -> (0 <=? a) && int_ok (Z.shiftl a k) = true.
Proof.
  intros a m k M A K. rewrite Z.shiftl_mul_pow2 by lia.
  assert (P : 0 <= 2 ^ k <= 2 ^ 18) by (split; [apply Z.pow_nonneg; lia|apply Z.pow_le_mono_r; lia]). change (2 ^ 18) with 262144 in P.
  unfold int_ok. rewrite !andb_true_iff, !Z.leb_le. nia.
Qed.
(** Arithmetic on the types that occur. *)
Lemma ar_size : forall i k, 0 <= i -> 0 <= k <= 4 -> i < 9223372036854775808 -> arith (b "+") ISize IInt i k = Some (HI ISize (i + k)).
Proof.
  intros i k I K B. change (arith (b "+") ISize IInt i k) with (Some (HI ISize (cast_int false 64 (i + cast_int false 64 k)))).
  rewrite (size_id k) by lia. rewrite size_id by lia. reflexivity.
Qed.
Lemma ar_shl : forall a m k, 0 <= m <= 255 -> 0 <= a <= m -> 0 <= k <= 18 -> arith (b "<<") IInt IInt a k = Some (HI IInt (Z.shiftl a k)).
Proof.
  intros a m k M A K. unfold arith. change (same (b "<<") (b "<<") || same (b "<<") (b ">>")) with true. cbv iota. cbn [promoted].
  assert (S : shift_ok k = true) by (unfold shift_ok; destruct (Z.compare_spec 0 k); try lia; destruct (Z.compare_spec k 32); lia).
  rewrite S. change (same (b "<<") (b ">>")) with false. cbv iota. rewrite (ok_shl a m) by assumption. reflexivity.
Qed.

Lemma ar_uint : forall i k, 0 <= i + k < 4294967296 -> arith (b "+") IUInt IUInt i k = Some (HI IUInt (i + k)).
Proof.
  intros i k B. change (arith (b "+") IUInt IUInt i k) with (Some (HI IUInt (cast_int false 32 (i + k)))). rewrite uint_id by lia. reflexivity.
Qed.
Lemma ar_int_uint : forall k, 0 <= k < 65536 -> arith (b "+") IInt IUInt 56320 k = Some (HI IUInt (56320 + k)).
Proof.
  intros k B. change (arith (b "+") IInt IUInt 56320 k) with (Some (HI IUInt (cast_int false 32 (56320 + k)))). rewrite uint_id by lia. reflexivity.
Qed.

(** ** One step of the loop (json-string.hh:63-144) *)
Definition esc_step (ea : bool) (l : bytes) : option (bytes * nat) :=
  match l with
  | [] => None
  | c1 :: r1 =>
      if code c1 <=? 127 then Some (esc1 c1, 1%nat)
      else if negb ea then Some ([c1], 1%nat)
      else match r1 with
           | [] => None
           | c2 :: r2 =>
               if (192 <=? code c1) && (code c1 <=? 223) && is_cont c2 then Some (u_escape (Z.lor (Z.shiftl (Z.land (code c1) 31) 6) (Z.land (code c2) 63)), 2%nat)
               else match r2 with
                    | [] => None
                    | c3 :: r3 =>
                        if (224 <=? code c1) && (code c1 <=? 239) && is_cont c2 && is_cont c3 then
                          Some (u_escape (Z.lor (Z.lor (Z.shiftl (Z.land (code c1) 15) 12) (Z.shiftl (Z.land (code c2) 63) 6)) (Z.land (code c3) 63)), 3%nat)
                        else match r3 with
                             | [] => None
                             | c4 :: r4 =>
                                 if (240 <=? code c1) && (code c1 <=? 244) && is_cont c2 && is_cont c3 && is_cont c4 then
                                   let cp := Z.lor (Z.lor (Z.lor (Z.shiftl (Z.land (code c1) 7) 18) (Z.shiftl (Z.land (code c2) 63) 12))
                                                          (Z.shiftl (Z.land (code c3) 63) 6)) (Z.land (code c4) 63) in
                                   Some (u_escape (LEAD_OFFSET + Z.shiftr cp 10) ++ u_escape (56320 + Z.land cp 1023), 4%nat)
                                 else None
                             end
                    end
           end
  end.
Lemma esc_one : forall ea c r, esc_loop ea (c :: r) =
  match esc_step ea (c :: r) with
  | Some (x, k) => let '(o, q) := esc_loop ea (skipn k (c :: r)) in (x ++ o, q)
  | None => ([], false)
  end.
Proof.
  intros ea c1 r1. cbn [esc_loop esc_step]. cbv zeta. destruct (code c1 <=? 127); [cbn [skipn]; destruct (esc_loop ea r1); reflexivity|].
  destruct (negb ea); [cbn [skipn]; destruct (esc_loop ea r1); reflexivity|]. destruct r1 as [|c2 r2]; [reflexivity|].
  destruct ((192 <=? code c1) && (code c1 <=? 223) && is_cont c2); [reflexivity|]. destruct r2 as [|c3 r3]; [reflexivity|].
  destruct ((224 <=? code c1) && (code c1 <=? 239) && is_cont c2 && is_cont c3); [reflexivity|]. destruct r3 as [|c4 r4]; [reflexivity|].
  destruct ((240 <=? code c1) && (code c1 <=? 244) && is_cont c2 && is_cont c3 && is_cont c4); [|reflexivity].
  cbn [skipn]. destruct (esc_loop ea r4). rewrite <- app_assoc. reflexivity.
Qed.
Lemma esc_step_k : forall ea l x k, esc_step ea l = Some (x, k) -> (1 <= k <= length l)%nat.
Proof.
  intros ea l x k H. destruct l as [|c1 r1]; [discriminate H|]. cbn [esc_step] in H.
  destruct (code c1 <=? 127); [injection H as _ <-; cbn [length]; lia|]. destruct (negb ea); [injection H as _ <-; cbn [length]; lia|].
  destruct r1 as [|c2 r2]; [discriminate H|]. destruct (_ && _) in H; [injection H as _ <-; cbn [length]; lia|].
  destruct r2 as [|c3 r3]; [discriminate H|]. destruct (_ && _) in H; [injection H as _ <-; cbn [length]; lia|].
  destruct r3 as [|c4 r4]; [discriminate H|]. destruct (_ && _) in H; [|discriminate H]. injection H as _ <-; cbn [length]; lia.
Qed.

Lemma typed_u8 : forall c, typed [b "uint8_t"] (HI IChar (char_of c)) = Some (HI IU8 (code c)).
Proof.
  intros c. change (typed [b "uint8_t"] (HI IChar (char_of c))) with (Some (HI IU8 (code (byte_of (char_of c))))).
  unfold byte_of, char_of. rewrite chr_schar. reflexivity.
Qed.
Lemma typed_u32 : forall z, 0 <= z < 4294967296 -> typed [b "uint32_t"] (HI IInt z) = Some (HI IUInt z).
Proof.
  intros z Z. change (typed [b "uint32_t"] (HI IInt z)) with (Some (HI IUInt (cast_int false 32 z))). rewrite uint_id by assumption. reflexivity.
Qed.
Lemma small_u32 : forall z, 0 <= z < 65536 -> 0 <= z < 4294967296.
Proof. intros; lia. Qed.

Definition str_loop := Eval vm_compute in match nth 2 (hf_body fn_swrite) TBreak with TFor _ c p st => (c, st) | _ => (EBool false, TBreak) end.
Definition str_body := Eval vm_compute in match snd str_loop with TBlock l => l | _ => [] end.
Definition str_one := Eval vm_compute in match nth 1 str_body TBreak with TIf _ (TBlock l) _ => l | _ => [] end.
Definition str_cases := Eval vm_compute in match str_one with TSwitch _ l :: _ => l | _ => [] end.
Definition str_more := Eval vm_compute in match nth 1 str_body TBreak with TIf _ _ (Some (TBlock l)) => l | _ => [] end.

Lemma skipn_add : forall {A} i k (l : list A), skipn k (skipn i l) = skipn (i + k) l.
Proof. intros A. induction i as [|i IH]; intros k [|x l]; [reflexivity|reflexivity|destruct k; reflexivity|]. cbn [skipn Nat.add]. apply IH. Qed.
Lemma nth_skipn : forall {A} i k (l : list A), nth_error (skipn i l) k = nth_error l (i + k).
Proof. intros A. induction i as [|i IH]; intros k [|x l]; [reflexivity|reflexivity|destruct k; reflexivity|]. cbn [skipn Nat.add nth_error]. apply IH. Qed.

Section L.
Context (N : nat) (ea : bool) (call : call_t).
Notation run := (hexec N consts ea CNone call).
Definition str_vars (s : bytes) (i : nat) : list (bytes * hvar) :=
  [(b "i", VarVal (HI ISize (Z.of_nat i))); (b "size", VarVal (HI ISize (Z.of_nat (length s)))); (b "ctx", VarVal HCtx); (b "value", VarVal (HS s))].
Definition u8 (x : bytes) (c : ascii) : bytes * hvar := (x, VarVal (HI IU8 (code c))).

Lemma seq_break : forall e k st r s s1, e st s = Some (GBreak, s1) -> seq_loop e (S k) (st :: r) s = Some (GBreak, s1).
Proof. intros; cbn [seq_loop]; rewrite H; reflexivity. Qed.

Lemma put_char : forall n vars t o c, assoc vars (b "ctx") = Some (VarVal HCtx) -> assoc vars (b "byte1") = Some (VarVal (HI IU8 (code c))) ->
  run (S n) (TExpr [EBin (b "<<") (EPre (b "*") (EDot (EName [b "ctx"]) (b "os"))) (ECast [b "char"] (EName [b "byte1"]))]) (mem vars t o) = Some (GNext, mem vars t (o ++ [c])).
Proof.
  intros n vars t o c C B. eapply (put_one N consts ea call n _ vars t o (HV (HI IChar (char_of c)))); [exact C| |reflexivity|].
  - destruct (iv_name consts ea call (b "byte1") vars t o IU8 (code c) B) as [x [X L]]. eapply g_cast; [exact X|reflexivity|exact L|].
    change (conv IU8 IChar (code c)) with (Some (char_of (byte_of (code c)))). unfold byte_of. rewrite chr_code. reflexivity.
  - cbn [printed]. unfold byte_of, char_of. rewrite chr_schar. reflexivity.
Qed.
Lemma put_text : forall n vars t o y x, assoc vars (b "ctx") = Some (VarVal HCtx) -> lit_go LText y = Some x -> cstr x = x ->
  run (S n) (TExpr [EBin (b "<<") (EPre (b "*") (EDot (EName [b "ctx"]) (b "os"))) (EStr y)]) (mem vars t o) = Some (GNext, mem vars t (o ++ x)).
Proof.
  intros n vars t o y x C L K. eapply (put_one N consts ea call n _ vars t o (HV (HPtr x))); [exact C| |reflexivity|cbn [printed]; rewrite K; reflexivity].
  cbn [heval]. rewrite L. reflexivity.
Qed.

Lemma cases_val : forall z, match case_from consts z str_cases with Some r => r | None => default_from str_cases end =
  if z =? 34 then skipn 1 str_cases else if z =? 92 then skipn 4 str_cases else if z =? 47 then skipn 7 str_cases
  else if z =? 8 then skipn 10 str_cases else if z =? 12 then skipn 13 str_cases else if z =? 13 then skipn 16 str_cases
  else if z =? 10 then skipn 19 str_cases else if z =? 9 then skipn 22 str_cases else skipn 25 str_cases.
Proof.
  intros z. cbv -[Z.eqb].
  repeat (match goal with |- context [if z =? ?k then _ else _] => destruct (z =? k) end; [reflexivity|]). reflexivity.
Qed.

Lemma sw_one : forall n s i t o c, let st := mem (u8 (b "byte1") c :: str_vars s i) t o in
  run (S (S n)) (nth 0 str_one TBreak) st = Some (GNext, mem (u8 (b "byte1") c :: str_vars s i) t (o ++ esc1 c)).
Proof.
  intros n s i t o c st.
  assert (Q : exists fl, (fl = GBreak \/ fl = GNext) /\
    seq_loop (run (S n)) (S (length str_cases)) (match case_from consts (code c) str_cases with Some r => r | None => default_from str_cases end) st
      = Some (fl, mem (u8 (b "byte1") c :: str_vars s i) t (o ++ esc1 c))).
  { rewrite cases_val. unfold esc1. cbv zeta.
    repeat (match goal with |- context [if code c =? ?k then _ else _] => destruct (code c =? k) end;
      [exists GBreak; split; [auto|]; nx; [apply put_text; reflexivity|]; apply seq_break; reflexivity|]).
    exists GNext. split; [auto|]. nx; [apply put_char; reflexivity|]. apply seq_end. }
  destruct Q as [fl [F Q]]. unfold str_one, nth.
  eapply g_switch; [reflexivity|reflexivity|reflexivity|reflexivity|exact Q|]. destruct F as [-> | ->]; reflexivity.
Qed.

Definition bad_utf8 (e : errinfo) : errinfo := set_error PGERR_INVALID_VALUE (b "invalid UTF-8 code point") e.
Definition errs : Prop := forall vars t o,
  call OName [b "set_error"] [HL RErr []; HV (HI IErr 4); HV (HPtr (b "invalid UTF-8 code point"))] (mem vars t o) =
    Some (HV (HI IInt 1), mem vars (with_err t (bad_utf8 (tk_err t))) o).
Context (ESC : escapes call) (ERR : errs).

Ltac art := lazymatch goal with
  | |- arith _ ISize IInt _ _ = _ => apply ar_size; lia
  | |- arith ["<"%char; "<"%char] _ _ _ _ = _ => eapply ar_shl; [|apply land_le; reflexivity|]; lia
  | _ => reflexivity
  end.
Ltac ivt := lazymatch goal with
  | |- iv _ _ _ (EIndex _ _) _ _ _ => eapply iv_elem; [reflexivity|ivt|lia|eassumption]
  | |- iv _ _ _ (EName _) _ _ _ => eapply iv_name; reflexivity
  | |- iv _ _ _ (ENum _ _) _ _ _ => eapply iv_num; reflexivity
  | |- iv _ _ _ (EBin _ _ _) _ _ _ => eapply iv_bin; [reflexivity|ivt|ivt|art]
  end.
Ltac cmp := eapply c_cmp; [reflexivity|ivt|ivt|art].
Ltac conds := lazymatch goal with
  | |- hcond _ _ _ _ (EBin ["&"%char; "&"%char] _ _) _ = _ => eapply g_and; [conds|intros _; conds]
  | _ => cmp
  end.

Definition str_out (s : bytes) (i : nat) (t : tokenizer) (o : bytes) (R : option (hflow * hst)) : Prop :=
  match esc_step ea (skipn i s) with
  | Some (x, k) => exists fl, (fl = GNext \/ fl = GContinue) /\ R = Some (fl, mem (str_vars s (i + k)) t (o ++ x))
  | None => R = Some (GReturn (Some (HV (HI IInt 1))), mem (str_vars s i) (with_err t (bad_utf8 (tk_err t))) o)
  end.
Lemma vars_next : forall s i k, str_vars s (i + k) = update (str_vars s i) (b "i") (VarVal (HI ISize (Z.of_nat i + Z.of_nat k))).
Proof. intros s i k. unfold str_vars. rewrite Nat2Z.inj_add. reflexivity. Qed.

Lemma leave_extra : forall extra v v' t o t' o', length v' = length v -> leave_block (mem v t o) (mem (extra ++ v') t' o') = mem v' t' o'.
Proof.
  intros extra v v' t o t' o' L. unfold leave_block. cbn [s_vars mem]. rewrite app_length, L.
  replace (length extra + length v - length v)%nat with (length extra) by lia. rewrite skipn_app, skipn_all, Nat.sub_diag. reflexivity.
Qed.
Lemma more : forall s i t o c1 f extra i' t' o', (i < length s)%nat -> Z.of_nat (length s) <= 9223372036854775807 ->
  nth_error s (Z.to_nat (Z.of_nat i)) = Some c1 -> (code c1 <=? 127) = false -> f = GContinue \/ f = GReturn (Some (HV (HI IInt 1))) ->
  seq_loop (run 16) (S (length str_more)) str_more (mem (u8 (b "byte1") c1 :: str_vars s i) t o) = Some (f, mem (extra ++ u8 (b "byte1") c1 :: str_vars s i') t' o') ->
  run 19 (snd str_loop) (mem (str_vars s i) t o) = Some (f, mem (str_vars s i') t' o').
Proof.
  intros s i t o c1 f extra i' t' o' I B X1 H1 F Q.
  assert (V1 : run 18 (nth 0 str_body TBreak) (mem (str_vars s i) t o) = Some (GNext, mem (u8 (b "byte1") c1 :: str_vars s i) t o)).
  { unfold str_body, nth. etransitivity; [eapply iv_var; [reflexivity|ivt|exact (typed_u8 c1)]|reflexivity]. }
  assert (M : run 18 (nth 1 str_body TBreak) (mem (u8 (b "byte1") c1 :: str_vars s i) t o) = Some (f, mem (u8 (b "byte1") c1 :: str_vars s i') t' o')).
  { unfold str_body, nth. eapply g_else; [eapply c_eq; [conds|exact H1]|]. eapply g_block; [exact Q|]. rewrite leave_extra by reflexivity. reflexivity. }
  unfold str_loop, snd. eapply g_block.
  - cbv [length]. nx; [exact V1|]. destruct F as [-> | ->]; [apply g_continue|apply seq_return]; exact M.
  - change (u8 (b "byte1") c1 :: str_vars s i') with ([u8 (b "byte1") c1] ++ str_vars s i'). rewrite leave_extra by reflexivity. reflexivity.
Qed.
Lemma ret_err : forall n e vars t o,
  heval consts ea CNone call e (mem vars t o) = call OName [b "set_error"] [HL RErr []; HV (HI IErr 4); HV (HPtr (b "invalid UTF-8 code point"))] (mem vars t o) ->
  run (S n) (TReturn (Some e)) (mem vars t o) = Some (GReturn (Some (HV (HI IInt 1))), mem vars (with_err t (bad_utf8 (tk_err t))) o).
Proof. intros n e vars t o H. cbn [hexec]. rewrite H, ERR. reflexivity. Qed.
Lemma esc_stmt : forall n e x z vars t o, 0 <= z < 65536 -> assoc vars x = Some (VarVal (HI IUInt z)) ->
  heval consts ea CNone call e (mem vars t o) = call OName [b "write_escaped_utf8"] [HV HOsP; HL (RVar x) []] (mem vars t o) ->
  run (S n) (TExpr [e]) (mem vars t o) = Some (GNext, mem vars t (o ++ u_escape z)).
Proof.
  intros n e x z vars t o Z A H. eapply g_expr. rewrite H. apply ESC; [exact Z|]. cbn [load]. unfold peek_at. cbn [get_root s_vars mem]. rewrite A. reflexivity.
Qed.
Lemma round : forall s i t o, (i < length s)%nat -> Z.of_nat (length s) <= 9223372036854775807 ->
  str_out s i t o (run 19 (snd str_loop) (mem (str_vars s i) t o)).
Proof.
  intros s i t o I B. unfold str_out. assert (SK := skipn_length i s).
  destruct (skipn i s) as [|c1 r1] eqn:E1; [cbn [length] in SK; lia|].
  assert (NT : forall k, nth_error (c1 :: r1) k = nth_error s (i + k)) by (intros k; rewrite <- E1; apply nth_skipn).
  assert (X1 : nth_error s (Z.to_nat (Z.of_nat i)) = Some c1) by (rewrite Nat2Z.id; specialize (NT 0%nat); rewrite Nat.add_0_r in NT; symmetry; exact NT).
  cbn [esc_step]. pose proof (code_range c1) as RG1. unfold byte_range in RG1.
  assert (V1 : run 18 (nth 0 str_body TBreak) (mem (str_vars s i) t o) = Some (GNext, mem (u8 (b "byte1") c1 :: str_vars s i) t o)).
  { unfold str_body, nth. etransitivity; [eapply iv_var; [reflexivity|ivt|exact (typed_u8 c1)]|reflexivity]. }
  destruct (code c1 <=? 127) eqn:H1.
  - exists GNext. split; [auto|]. unfold str_loop, snd. eapply g_block; [cbv [length]; nx; [exact V1|]; nx; [eapply g_if|apply seq_end]|].
    + eapply c_eq; [conds|exact H1].
    + eapply g_block; [cbv [length]; nx; [apply (sw_one 14 s i t o c1)|]; nx; [eapply inc_one; [reflexivity|lia]|]; apply seq_end|reflexivity].
    + rewrite vars_next. reflexivity.
  - destruct (negb ea) eqn:EA.
    { exists GContinue. split; [auto|].
      eapply (more s i t o c1 GContinue []); [exact I|exact B|exact X1|exact H1|auto|]. rewrite vars_next. cbn [app].
      unfold str_more. cbv [length]. apply g_continue. eapply g_if; [eapply (c_eq consts ea call _ _ (negb ea)); [reflexivity|exact EA]|].
      eapply g_block; [cbv [length]; nx; [apply put_char; reflexivity|]; nx; [eapply inc_one; [reflexivity|lia]|]; apply g_continue; reflexivity|reflexivity]. }
    assert (N1 : forall R, str_more = nth 0 str_more TBreak :: R -> forall k f S, seq_loop (run 16) k R (mem (u8 (b "byte1") c1 :: str_vars s i) t o) = Some (f, S) ->
       seq_loop (run 16) (Datatypes.S k) str_more (mem (u8 (b "byte1") c1 :: str_vars s i) t o) = Some (f, S)).
    { intros R ER k f S Q. rewrite ER. nx; [|exact Q]. unfold str_more, nth. eapply g_none. eapply (c_eq consts ea call _ _ (negb ea)); [reflexivity|exact EA]. }
    destruct r1 as [|c2 r2].
    { cbn [length] in SK. eapply (more s i t o c1 _ []); [exact I|exact B|exact X1|exact H1|auto|].
      eapply N1; [reflexivity|]. rt. eapply g_if; [eapply c_eq; [conds|]; lia|]. apply ret_err. reflexivity. }
    assert (L2 : (S (S (length r2)) = length s - i)%nat) by exact SK.
    assert (X2 : nth_error s (Z.to_nat (Z.of_nat i + 1)) = Some c2) by (replace (Z.to_nat (Z.of_nat i + 1)) with (i + 1)%nat by lia; rewrite <- NT; reflexivity).
    assert (M2 : forall f S, seq_loop (run 16) 9 (skipn 3 str_more) (mem (u8 (b "byte2") c2 :: u8 (b "byte1") c1 :: str_vars s i) t o) = Some (f, S) ->
      seq_loop (run 16) (Datatypes.S (length str_more)) str_more (mem (u8 (b "byte1") c1 :: str_vars s i) t o) = Some (f, S)).
    { intros f S Q. eapply N1; [reflexivity|]. nx; [eapply g_none; eapply c_eq; [conds|]; lia|].
      nx; [eapply iv_var; [reflexivity|ivt|exact (typed_u8 c2)]|]. exact Q. }
    destruct ((192 <=? code c1) && (code c1 <=? 223) && is_cont c2) eqn:H2.
    { exists GContinue. split; [auto|].
      eapply (more s i t o c1 GContinue [u8 (b "byte2") c2]); [exact I|exact B|exact X1|exact H1|auto|]. rewrite vars_next.
      apply M2. unfold str_more, skipn. apply g_continue. eapply g_if; [eapply c_eq; [conds|exact H2]|].
      eapply g_block; [cbv [length]; nx; [eapply iv_var; [reflexivity|ivt|apply typed_u32, small_u32, cp2_small]|]|].
      { nx; [eapply (esc_stmt _ _ (b "codepoint")); [apply cp2_small|reflexivity|reflexivity]|].
        nx; [eapply (add_one N consts ea call _ (b "i") 2); [reflexivity|lia|lia]|]. apply g_continue. reflexivity. }
      reflexivity. }
    destruct r2 as [|c3 r3].
    { cbn [length] in L2. eapply (more s i t o c1 _ [u8 (b "byte2") c2]); [exact I|exact B|exact X1|exact H1|auto|].
      apply M2. unfold str_more, skipn. nx; [eapply g_none; eapply c_eq; [conds|exact H2]|].
      rt. eapply g_if; [eapply c_eq; [conds|]; lia|]. apply ret_err. reflexivity. }
    cbn [length] in L2.
    assert (X3 : nth_error s (Z.to_nat (Z.of_nat i + 2)) = Some c3) by (replace (Z.to_nat (Z.of_nat i + 2)) with (i + 2)%nat by lia; rewrite <- NT; reflexivity).
    assert (M3 : forall f S, seq_loop (run 16) 6 (skipn 6 str_more) (mem (u8 (b "byte3") c3 :: u8 (b "byte2") c2 :: u8 (b "byte1") c1 :: str_vars s i) t o) = Some (f, S) ->
      seq_loop (run 16) (Datatypes.S (length str_more)) str_more (mem (u8 (b "byte1") c1 :: str_vars s i) t o) = Some (f, S)).
    { intros f S Q. apply M2. unfold str_more, skipn. nx; [eapply g_none; eapply c_eq; [conds|exact H2]|].
      nx; [eapply g_none; eapply c_eq; [conds|]; lia|].
      nx; [eapply iv_var; [reflexivity|ivt|exact (typed_u8 c3)]|]. exact Q. }
    clear M2 N1.
    destruct ((224 <=? code c1) && (code c1 <=? 239) && is_cont c2 && is_cont c3) eqn:H3.
    { exists GContinue. split; [auto|].
      eapply (more s i t o c1 GContinue [u8 (b "byte3") c3; u8 (b "byte2") c2]); [exact I|exact B|exact X1|exact H1|auto|]. rewrite vars_next.
      apply M3. unfold str_more, skipn. apply g_continue. eapply g_if; [eapply c_eq; [conds|]|].
      { replace (Z.of_nat i + 2 <? Z.of_nat (length s)) with true by lia. rewrite andb_true_r. exact H3. }
      eapply g_block; [cbv [length]; nx; [eapply iv_var; [reflexivity|ivt|apply typed_u32, small_u32, cp3_small]|]|].
      { nx; [eapply (esc_stmt _ _ (b "codepoint")); [apply cp3_small|reflexivity|reflexivity]|].
        nx; [eapply (add_one N consts ea call _ (b "i") 3); [reflexivity|lia|lia]|]. apply g_continue. reflexivity. }
      reflexivity. }
    assert (C3 : forall S, (224 <=? code c1) && (code c1 <=? 239) && (Z.of_nat i + 2 <? Z.of_nat (length s)) && is_cont c2 && is_cont c3 = S -> S = false).
    { intros S <-. replace (Z.of_nat i + 2 <? Z.of_nat (length s)) with true by lia. rewrite andb_true_r. exact H3. }
    destruct r3 as [|c4 r4].
    { cbn [length] in L2. eapply (more s i t o c1 _ [u8 (b "byte3") c3; u8 (b "byte2") c2]); [exact I|exact B|exact X1|exact H1|auto|].
      apply M3. unfold str_more, skipn. nx; [eapply g_none; eapply c_eq; [conds|exact (C3 _ eq_refl)]|].
      rt. eapply g_if; [eapply c_eq; [conds|]; lia|]. apply ret_err. reflexivity. }
    cbn [length] in L2.
    assert (X4 : nth_error s (Z.to_nat (Z.of_nat i + 3)) = Some c4) by (replace (Z.to_nat (Z.of_nat i + 3)) with (i + 3)%nat by lia; rewrite <- NT; reflexivity).
    assert (M4 : forall f S, seq_loop (run 16) 3 (skipn 9 str_more) (mem (u8 (b "byte4") c4 :: u8 (b "byte3") c3 :: u8 (b "byte2") c2 :: u8 (b "byte1") c1 :: str_vars s i) t o) = Some (f, S) ->
      seq_loop (run 16) (Datatypes.S (length str_more)) str_more (mem (u8 (b "byte1") c1 :: str_vars s i) t o) = Some (f, S)).
    { intros f S Q. apply M3. unfold str_more, skipn. nx; [eapply g_none; eapply c_eq; [conds|exact (C3 _ eq_refl)]|].
      nx; [eapply g_none; eapply c_eq; [conds|]; lia|].
      nx; [eapply iv_var; [reflexivity|ivt|exact (typed_u8 c4)]|]. exact Q. }
    clear M3.
    destruct ((240 <=? code c1) && (code c1 <=? 244) && is_cont c2 && is_cont c3 && is_cont c4) eqn:H4.
    { exists GContinue. split; [auto|]. cbv zeta.
      eapply (more s i t o c1 GContinue [u8 (b "byte4") c4; u8 (b "byte3") c3; u8 (b "byte2") c2]); [exact I|exact B|exact X1|exact H1|auto|]. rewrite vars_next.
      apply M4. unfold str_more, skipn. apply g_continue. eapply g_if; [eapply c_eq; [conds|]|].
      { replace (Z.of_nat i + 3 <? Z.of_nat (length s)) with true by lia. rewrite andb_true_r. exact H4. }
      pose proof (cp4_small (code c1) (code c2) (code c3) (code c4)) as SM. cbv zeta in SM.
      set (cp := Z.lor (Z.lor (Z.lor (Z.shiftl (Z.land (code c1) 7) 18) (Z.shiftl (Z.land (code c2) 63) 12)) (Z.shiftl (Z.land (code c3) 63) 6)) (Z.land (code c4) 63)) in *.
      assert (SR : 0 <= Z.shiftr cp 10 < 2048) by (rewrite shiftr10; Z.div_mod_to_equations; lia).
      assert (SL : 0 <= Z.land cp 1023 < 1024) by (rewrite land1023; apply Z.mod_pos_bound; lia).
      assert (LO : LEAD_OFFSET = 55232) by reflexivity.
      eapply g_block; [cbv [length]; nx; [eapply iv_var; [reflexivity|ivt|apply (typed_u32 cp); lia]|]|].
      { nx; [eapply iv_var; [reflexivity|ivt|reflexivity]|].
        nx; [eapply (iv_var N consts ea call _ _ (b "lead") _ _ IUInt (LEAD_OFFSET + Z.shiftr cp 10)); [reflexivity| |reflexivity]|].
        { eapply iv_bin; [reflexivity|ivt|ivt|apply ar_uint; lia]. }
        nx; [eapply (iv_var N consts ea call _ _ (b "trail") _ _ IUInt (56320 + Z.land cp 1023)); [reflexivity| |reflexivity]|].
        { eapply iv_bin; [reflexivity|ivt|ivt|apply ar_int_uint; lia]. }
        nx; [eapply (esc_stmt _ _ (b "lead")); [|reflexivity|reflexivity]; lia|].
        nx; [eapply (esc_stmt _ _ (b "trail")); [|reflexivity|reflexivity]; lia|].
        nx; [eapply (add_one N consts ea call _ (b "i") 4); [reflexivity|lia|lia]|]. apply g_continue. reflexivity. }
      rewrite <- app_assoc. reflexivity. }
    eapply (more s i t o c1 _ [u8 (b "byte4") c4; u8 (b "byte3") c3; u8 (b "byte2") c2]); [exact I|exact B|exact X1|exact H1|auto|].
    apply M4. unfold str_more, skipn. nx; [eapply g_none; eapply c_eq; [conds|]|rt; apply ret_err; reflexivity].
    replace (Z.of_nat i + 3 <? Z.of_nat (length s)) with true by lia. rewrite andb_true_r. exact H4.
Qed.

(** ** The whole function (json-string.hh:59-147) *)
Lemma str_while : forall n s i t o, (i <= length s)%nat -> (length s - i < n)%nat -> Z.of_nat (length s) <= 9223372036854775807 ->
  exists j, while_loop n (hcond consts ea CNone call (fst str_loop)) (heffects consts ea CNone call []) (run 19 (snd str_loop)) (mem (str_vars s i) t o) =
    let (x, k) := esc_loop ea (skipn i s) in
    if k then Some (GNext, mem (str_vars s j) t (o ++ x))
    else Some (GReturn (Some (HV (HI IInt 1))), mem (str_vars s j) (with_err t (bad_utf8 (tk_err t))) (o ++ x)).
Proof.
  induction n as [|n IH]; intros s i t o I F B; [lia|]. rewrite while_loop_S.
  assert (C : hcond consts ea CNone call (fst str_loop) (mem (str_vars s i) t o) = Some (Z.of_nat i <? Z.of_nat (length s), mem (str_vars s i) t o)) by (unfold str_loop, fst; cmp).
  rewrite C. clear C. destruct (Z.of_nat i <? Z.of_nat (length s)) eqn:E.
  - assert (I' : (i < length s)%nat) by lia. assert (R := round s i t o I' B). unfold str_out in R.
    assert (SK := skipn_length i s). destruct (skipn i s) as [|c r] eqn:S1; [cbn [length] in SK; lia|].
    rewrite esc_one. destruct (esc_step ea (c :: r)) as [[x k]|] eqn:ST.
    + apply esc_step_k in ST. rewrite SK in ST. destruct R as [fl [FL R]]. rewrite R.
      destruct (IH s (i + k)%nat t (o ++ x)) as [j W]; [lia|lia|exact B|]. exists j.
      assert (Q : skipn k (c :: r) = skipn (i + k) s) by (rewrite <- S1; apply skipn_add).
      rewrite Q. destruct FL as [-> | ->]; change (heffects consts ea CNone call [] ?z) with (Some z); cbv iota; rewrite W; destruct (esc_loop ea (skipn (i + k) s)) as [y []]; rewrite <- app_assoc; reflexivity.
    + rewrite R. exists i. rewrite app_nil_r. reflexivity.
  - assert (i = length s) as -> by lia. rewrite skipn_all. exists (length s). cbn [esc_loop]. rewrite app_nil_r. reflexivity.
Qed.

Lemma swrite : writes (fun s => (length s < N)%nat /\ Z.of_nat (length s) <= 9223372036854775807) HS (run_fun N consts ea CNone call fn_swrite) (write_string ea).
Proof.
  intros s t r x e [K B] W vars a c o A G. unfold write_string in W.
  destruct (str_while N s 0 t (o ++ [chr 34]) (Nat.le_0_l _)) as [j H]; [lia|exact B|]. cbn [skipn] in H.
  destruct (esc_loop ea s) as [y k].
  set (t' := if k then t else with_err t (bad_utf8 (tk_err t))).
  eapply (run_val N _ ea call fn_swrite (b "value") a c vars t o (HS s) (HS s) (GReturn (Some (HV (HI (if k then IPgr else IInt) (pgr_z r))))) 
     [(b "size", VarVal (HI ISize (Z.of_nat (length s)))); (b "ctx", VarVal HCtx); (b "value", VarVal (HS s))]); [reflexivity|exact A|exact G|reflexivity| |].
  { body fn_swrite. nx; [eapply put_one; reflexivity|]. nx; [reflexivity|].
    destruct k; injection W as <- <- <-.
    - eapply (seq_next _ _ _ _ _ (mem (skipn 1 (str_vars s j)) t ((o ++ [chr 34]) ++ y))); [eapply g_for; [reflexivity|exact H|reflexivity]|].
      nx; [eapply put_one; reflexivity|]. rt. rewrite with_same, <- !app_assoc. reflexivity.
    - rt. eapply g_for; [reflexivity|exact H|]. rewrite <- app_assoc. reflexivity. }
  destruct k; reflexivity.
Qed.
End L.
