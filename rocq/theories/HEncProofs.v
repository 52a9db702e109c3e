(** The text of json-base64.hh, executed: writing. *)
From Coq Require Import Lia Arith.
From Verif Require Import Bytes Num Dbl Types Stream Tokenizer Read Write Template Cpp CLex CParse CExec Unit HdrText HText HParse HExec HTok BaseProofs
  SpecHTok HTokProofs HIgnProofs HJson HRunProofs HReadProofs BitProofs SpecB64 B64Proofs HB64Proofs HWriteProofs HStrProofs.

Definition fn_b64write := Eval vm_compute in fn_of (x_b64 the_texts) "write".

Lemma sym_elem : forall z, 0 <= z < 64 -> element (HPtr B64_SYMBOLS) z = Some (HI IChar (char_of (b64_sym z))).
Proof.
  intros z Z. unfold element. replace (z <? 0) with false by lia. change (Z.of_nat (length B64_SYMBOLS)) with 64. replace (z =? 64) with false by lia.
  rewrite (nth_error_nth' B64_SYMBOLS NUL) by (change (length B64_SYMBOLS) with 64%nat; lia). reflexivity.
Qed.
Lemma sym_nonzero : forall z, 0 <= z < 64 -> Ascii.eqb (b64_sym z) NUL = false.
Proof.
  intros z Z. enough (negb (Ascii.eqb (b64_sym z) NUL) = true) as H by (destruct (Ascii.eqb (b64_sym z) NUL); [discriminate H|reflexivity]).
  apply (range_check (fun z => negb (Ascii.eqb (b64_sym z) NUL)) 64); [vm_compute; reflexivity|lia].
Qed.

(** The positions. *)
Definition s1 (x : ascii) : Z := Z.shiftr (Z.land (code x) 255) 2.
Definition s2 (x y : ascii) : Z := Z.lor (Z.shiftl (Z.land (code x) 3) 4) (Z.shiftr (Z.land (code y) 240) 4).
Definition s3 (y z : ascii) : Z := Z.lor (Z.shiftl (Z.land (code y) 15) 2) (Z.shiftr (Z.land (code z) 192) 6).
Definition s4 (z : ascii) : Z := Z.land (code z) 63.
Definition s2' (x : ascii) : Z := Z.shiftl (Z.land (code x) 3) 4.
Definition s3' (y : ascii) : Z := Z.shiftl (Z.land (code y) 15) 2.
Lemma s1_in : forall x, 0 <= s1 x < 64.
Proof. intros x. unfold s1. pose proof (BaseProofs.code_range x). rewrite land255, shiftr2. Z.div_mod_to_equations; lia. Qed.
Lemma s2_in : forall x y, 0 <= s2 x y < 64.
Proof. intros x y. unfold s2. pose proof (BaseProofs.code_range x). pose proof (BaseProofs.code_range y). rewrite land3, shiftl4, land240, lor_16 by (Z.div_mod_to_equations; lia). Z.div_mod_to_equations; lia. Qed.
Lemma s3_in : forall y z, 0 <= s3 y z < 64.
Proof. intros x y. unfold s3. pose proof (BaseProofs.code_range x). pose proof (BaseProofs.code_range y). rewrite land15, shiftl2, land192, lor_4 by (Z.div_mod_to_equations; lia). Z.div_mod_to_equations; lia. Qed.
Lemma s4_in : forall x, 0 <= s4 x < 64.
Proof. intros x. unfold s4. rewrite land63. Z.div_mod_to_equations; lia. Qed.
Lemma s2_in' : forall x, 0 <= s2' x < 64.
Proof. intros x. unfold s2'. rewrite land3, shiftl4. Z.div_mod_to_equations; lia. Qed.
Lemma s3_in' : forall x, 0 <= s3' x < 64.
Proof. intros x. unfold s3'. rewrite land15, shiftl2. Z.div_mod_to_equations; lia. Qed.

Definition enc_loop := Eval vm_compute in match nth 5 (hf_body fn_b64write) TBreak with TFor _ c p st => (c, p, st) | _ => (EBool false, [], TBreak) end.
Definition enc_tail := Eval vm_compute in nth 6 (hf_body fn_b64write) TBreak.

Section B.
Context (N : nat) (ea : bool) (call : call_t).
Notation run := (hexec N consts ea CNone call).
Notation ivc := (iv consts ea call).

(** The array of five characters; the last is null. *)
Definition enc_arr (a c e f : Z) : hval := HArr [HI IChar a; HI IChar c; HI IChar e; HI IChar f; HI IChar 0].
Definition enc_vars (a c e f : Z) (i : nat) (s : bytes) : list (bytes * hvar) :=
  [(b "size", VarVal (HI ISize (Z.of_nat (length s)))); (b "i", VarVal (HI ISize (Z.of_nat i))); (b "o", VarVal (enc_arr a c e f));
   (b "B64_SYMBOLS", VarVal (HPtr B64_SYMBOLS)); (b "ctx", VarVal HCtx); (b "value", VarVal (HM (VB64 s)))].

Lemma iv_byte : forall i a c e f j s t o z x, ivc i (mem (enc_vars a c e f j s) t o) ISize z -> 0 <= z ->
  nth_error s (Z.to_nat z) = Some x -> ivc (EIndex (EName [b "value"]) i) (mem (enc_vars a c e f j s) t o) IU8 (code x).
Proof.
  intros i a c e f j s t o z x [w [I L]] Z E. exists (HV (HI IU8 (code x))). split; [|reflexivity].
  eapply g_elem; [reflexivity|exact I|exact L|reflexivity|reflexivity|].
  unfold element. replace (z <? 0) with false by lia. rewrite E. reflexivity.
Qed.
Definition set4 (k : nat) (z : Z) (l : Z * Z * Z * Z) : Z * Z * Z * Z :=
  let '(a, c, e, f) := l in match k with 0%nat => (z, c, e, f) | 1%nat => (a, z, e, f) | 2%nat => (a, c, z, f) | _ => (a, c, e, z) end.
Definition evars (l : Z * Z * Z * Z) (i : nat) (s : bytes) := let '(a, c, e, f) := l in enc_vars a c e f i s.

Lemma set_one : forall n k y v l i s t o, (k < 4)%nat -> heval consts ea CNone call y (mem (evars l i s) t o) = Some (HV (HI IChar v), mem (evars l i s) t o) ->
  run (S n) (TExpr [ESet (b "=") (EIndex (EName [b "o"]) (ENum false (Z.of_nat k))) y]) (mem (evars l i s) t o) = Some (GNext, mem (evars (set4 k v l) i s) t o).
Proof.
  intros n k y v [[[a c] e] f] i s t o K Y. eapply g_expr.
  assert (XI : heval consts ea CNone call (EIndex (EName [b "o"]) (ENum false (Z.of_nat k))) (mem (evars (a, c, e, f) i s) t o) =
    Some (HL (RVar (b "o")) [SIdx k], mem (evars (a, c, e, f) i s) t o)) by (destruct k as [|[|[|[|k]]]]; [reflexivity..|lia]).
  destruct k as [|[|[|[|k]]]]; [| | | |lia]; (eapply g_set; [exact Y|exact XI|reflexivity|reflexivity|reflexivity|reflexivity]).
Qed.
Lemma sym_one : forall n k e z l i s t o, (k < 4)%nat -> ivc e (mem (evars l i s) t o) IInt z -> 0 <= z < 64 ->
  run (S n) (TExpr [ESet (b "=") (EIndex (EName [b "o"]) (ENum false (Z.of_nat k))) (EIndex (EName [b "B64_SYMBOLS"]) e)]) (mem (evars l i s) t o)
  = Some (GNext, mem (evars (set4 k (char_of (b64_sym z)) l) i s) t o).
Proof.
  intros n k e z l i s t o K [w [E L]] Z. apply set_one; [exact K|]. destruct l as [[[a c] e'] f].
  eapply g_elem; [reflexivity|exact E|exact L|reflexivity|reflexivity|apply sym_elem; exact Z].
Qed.
Lemma put_arr : forall n x y z w i s t o, Ascii.eqb x NUL = false -> Ascii.eqb y NUL = false -> Ascii.eqb z NUL = false -> Ascii.eqb w NUL = false ->
  run (S n) (TExpr [EBin (b "<<") (EPre (b "*") (EDot (EName [b "ctx"]) (b "os"))) (EName [b "o"])]) (mem (evars (char_of x, char_of y, char_of z, char_of w) i s) t o)
  = Some (GNext, mem (evars (char_of x, char_of y, char_of z, char_of w) i s) t (o ++ [x; y; z; w])).
Proof.
  intros n x y z w i s t o X Y Z W. eapply put_one; [reflexivity|reflexivity|reflexivity|].
  transitivity (Some (cstr [byte_of (char_of x); byte_of (char_of y); byte_of (char_of z); byte_of (char_of w); NUL])); [reflexivity|].
  unfold byte_of, char_of. rewrite !chr_schar. cbn [cstr]. rewrite X, Y, Z, W. reflexivity.
Qed.

Ltac art := lazymatch goal with
  | |- arith _ ISize IInt _ _ = _ => apply ar_size; lia
  | |- arith ["<"%char; "<"%char] _ _ _ _ = _ => eapply ar_shl; [|apply land_le; reflexivity|]; lia
  | _ => reflexivity
  end.
Ltac ivt := lazymatch goal with
  | |- iv _ _ _ (EIndex _ _) _ _ _ => eapply iv_byte; [ivt|lia|eassumption]
  | |- iv _ _ _ (EName _) _ _ _ => eapply iv_name; reflexivity
  | |- iv _ _ _ (ENum _ _) _ _ _ => eapply iv_num; reflexivity
  | |- iv _ _ _ (EBin _ _ _) _ _ _ => eapply iv_bin; [reflexivity|ivt|ivt|art]
  end.
Ltac cmp := eapply c_cmp; [reflexivity|ivt|ivt|art].

Lemma group : forall l i s t o x y z, Z.of_nat (length s) <= 9223372036854775807 -> (i < length s)%nat ->
  nth_error s (Z.to_nat (Z.of_nat i)) = Some x -> nth_error s (Z.to_nat (Z.of_nat i + 1)) = Some y -> nth_error s (Z.to_nat (Z.of_nat i + 2)) = Some z ->
  exists l', run 19 (snd enc_loop) (mem (evars l i s) t o) = Some (GNext, mem (evars l' i s) t (o ++ [b64_sym (s1 x); b64_sym (s2 x y); b64_sym (s3 y z); b64_sym (s4 z)])).
Proof.
  intros l i s t o x y z B I X Y Z. exists (char_of (b64_sym (s1 x)), char_of (b64_sym (s2 x y)), char_of (b64_sym (s3 y z)), char_of (b64_sym (s4 z))).
  destruct l as [[[a c] e] f]. unfold enc_loop, snd. eapply g_block.
  - cbv [length].
    nx; [eapply (sym_one 17 0 _ (s1 x)); [lia|cbn [evars]; ivt|apply s1_in]|]. cbn [set4].
    nx; [eapply (sym_one 17 1 _ (s2 x y)); [lia|cbn [evars]; ivt|apply s2_in]|]. cbn [set4].
    nx; [eapply (sym_one 17 2 _ (s3 y z)); [lia|cbn [evars]; ivt|apply s3_in]|]. cbn [set4].
    nx; [eapply (sym_one 17 3 _ (s4 z)); [lia|cbn [evars]; ivt|apply s4_in]|]. cbn [set4].
    nx; [apply put_arr; apply sym_nonzero; auto using s1_in, s2_in, s3_in, s4_in|]. apply seq_end.
  - reflexivity.
Qed.

Lemma enc_while : forall n l i s t o, Z.of_nat (length s) <= 9223372036854775807 -> (i <= length s)%nat -> (length s - i < n)%nat ->
  exists l' j x, while_loop n (hcond consts ea CNone call (fst (fst enc_loop))) (heffects consts ea CNone call (snd (fst enc_loop))) (run 19 (snd enc_loop))
      (mem (evars l i s) t o) = Some (GNext, mem (evars l' j s) t (o ++ x)) /\
    (j <= length s < j + 3)%nat /\ b64_encode (skipn i s) = x ++ b64_encode (skipn j s).
Proof.
  induction n as [|n IH]; intros l i s t o B I F; [lia|]. rewrite while_loop_S.
  assert (C : hcond consts ea CNone call (fst (fst enc_loop)) (mem (evars l i s) t o) = Some (Z.of_nat i + 2 <? Z.of_nat (length s), mem (evars l i s) t o)).
  { destruct l as [[[a c] e] f]. unfold enc_loop, fst. cbn [evars]. cmp. }
  rewrite C. clear C. destruct (Z.of_nat i + 2 <? Z.of_nat (length s)) eqn:E.
  - assert (SK := skipn_length i s). destruct (skipn i s) as [|x [|y [|z r]]] eqn:S1; cbn [length] in SK; try lia.
    assert (NT : forall k, nth_error (x :: y :: z :: r) k = nth_error s (i + k)) by (intros k; rewrite <- S1; apply nth_skipn).
    destruct (group l i s t o x y z B) as [l1 G]; [lia| | | |].
    { replace (Z.to_nat (Z.of_nat i)) with (i + 0)%nat by lia. rewrite <- NT. reflexivity. }
    { replace (Z.to_nat (Z.of_nat i + 1)) with (i + 1)%nat by lia. rewrite <- NT. reflexivity. }
    { replace (Z.to_nat (Z.of_nat i + 2)) with (i + 2)%nat by lia. rewrite <- NT. reflexivity. }
    rewrite G. clear G. cbv iota.
    assert (ST : forall o', heffects consts ea CNone call (snd (fst enc_loop)) (mem (evars l1 i s) t o') = Some (mem (evars l1 (i + 3) s) t o')).
    { intros o'. assert (Q : assoc (evars l1 i s) (b "i") = Some (VarVal (HI ISize (Z.of_nat i)))) by (destruct l1 as [[[a c] e] f]; reflexivity).
      assert (U : hexec N consts ea CNone call 1 (TExpr (snd (fst enc_loop))) (mem (evars l1 i s) t o') = Some (GNext, mem (evars l1 (i + 3) s) t o')).
      { unfold enc_loop, fst, snd. etransitivity; [eapply (add_one N consts ea call 0 (b "i") 3); [exact Q|lia|lia]|].
        destruct l1 as [[[a c] e] f]. unfold evars, enc_vars. rewrite Nat2Z.inj_add. reflexivity. }
      cbn [hexec] in U. destruct (heffects _ _ _ _ _ _) as [m|]; [|discriminate U]. cbn [option_map] in U. congruence. }
    rewrite ST. clear ST.
    destruct (IH l1 (i + 3)%nat s t (o ++ [b64_sym (s1 x); b64_sym (s2 x y); b64_sym (s3 y z); b64_sym (s4 z)]) B) as [l' [j [x' [W [J X]]]]]; [lia|lia|].
    exists l', j, ([b64_sym (s1 x); b64_sym (s2 x y); b64_sym (s3 y z); b64_sym (s4 z)] ++ x'). split; [|split; [exact J|]].
    + rewrite W, <- app_assoc. reflexivity.
    + rewrite <- app_assoc, <- X. assert (Q : r = skipn (i + 3) s) by (rewrite <- skipn_add, S1; reflexivity). rewrite <- Q. reflexivity.
  - exists l, i, []. rewrite app_nil_r. split; [reflexivity|]. split; [lia|reflexivity].
Qed.

Lemma ar_sub : forall i k, 0 <= k <= i -> i < 18446744073709551616 -> arith (b "-") ISize ISize i k = Some (HI ISize (i - k)).
Proof.
  intros i k K B. change (arith (b "-") ISize ISize i k) with (Some (HI ISize (cast_int false 64 (i - k)))). rewrite size_id by lia. reflexivity.
Qed.
Lemma iv_rest : forall a c e f j s t o, (j <= length s)%nat -> Z.of_nat (length s) <= 9223372036854775807 ->
  ivc (EBin (b "-") (EName [b "size"]) (EName [b "i"])) (mem (enc_vars a c e f j s) t o) ISize (Z.of_nat (length s) - Z.of_nat j).
Proof. intros a c e f j s t o J B. eapply iv_bin; [reflexivity|ivt|ivt|apply ar_sub; lia]. Qed.
Lemma c_size : forall e s z, ivc e s ISize z -> hcond consts ea CNone call e s = Some (negb (z =? 0), s).
Proof. intros e s z [x [E L]]. unfold hcond. rewrite E, L. reflexivity. Qed.

Lemma enc_rest : forall l j s t o, Z.of_nat (length s) <= 9223372036854775807 -> (j <= length s < j + 3)%nat ->
  exists l', run 20 enc_tail (mem (evars l j s) t o) = Some (GNext, mem (evars l' j s) t (o ++ b64_encode (skipn j s))).
Proof.
  intros l j s t o B J. assert (SK := skipn_length j s). destruct l as [[[a c] e] f].
  assert (NT : forall k, nth_error (skipn j s) k = nth_error s (j + k)) by (intros k; apply nth_skipn).
  destruct (skipn j s) as [|x [|y [|z r]]] eqn:S1; cbn [length] in SK; [| | |lia].
  - exists (a, c, e, f). rewrite app_nil_r. unfold enc_tail. eapply g_none. eapply c_eq; [apply c_size, iv_rest; [lia|exact B]|].
    replace (Z.of_nat (length s) - Z.of_nat j) with 0 by lia. reflexivity.
  - assert (X : nth_error s (Z.to_nat (Z.of_nat j)) = Some x) by (replace (Z.to_nat (Z.of_nat j)) with (j + 0)%nat by lia; rewrite <- NT; reflexivity).
    exists (char_of (b64_sym (s1 x)), char_of (b64_sym (s2' x)), char_of (chr 61), char_of (chr 61)).
    unfold enc_tail. eapply g_if; [eapply c_eq; [apply c_size, iv_rest; [lia|exact B]|]; replace (Z.of_nat (length s) - Z.of_nat j) with 1 by lia; reflexivity|].
    eapply g_block.
    + cbv [length].
      nx; [eapply (sym_one 17 0 _ (s1 x) (a, c, e, f)); [lia|cbn [evars]; ivt|apply s1_in]|]. cbn [set4].
      nx; [eapply (sym_one 17 1 _ (s2' x)); [lia|cbn [evars]; ivt|apply s2_in']|]. cbn [set4].
      nx; [eapply (set_one 17 2); [lia|reflexivity]|]. cbn [set4].
      nx; [eapply (set_one 17 3); [lia|reflexivity]|]. cbn [set4].
      nx; [eapply g_none; eapply c_eq; [eapply c_cmp; [reflexivity|cbn [evars]; apply iv_rest; [lia|exact B]|ivt|reflexivity]|]; change (cast_int false 64 2) with 2; lia|].
      nx; [apply (put_arr _ (b64_sym (s1 x)) (b64_sym (s2' x)) (chr 61) (chr 61)); [apply sym_nonzero, s1_in|apply sym_nonzero, s2_in'|reflexivity|reflexivity]|].
      apply seq_end.
    + reflexivity.
  - assert (X : nth_error s (Z.to_nat (Z.of_nat j)) = Some x) by (replace (Z.to_nat (Z.of_nat j)) with (j + 0)%nat by lia; rewrite <- NT; reflexivity).
    assert (Y : nth_error s (Z.to_nat (Z.of_nat j + 1)) = Some y) by (replace (Z.to_nat (Z.of_nat j + 1)) with (j + 1)%nat by lia; rewrite <- NT; reflexivity).
    exists (char_of (b64_sym (s1 x)), char_of (b64_sym (s2 x y)), char_of (b64_sym (s3' y)), char_of (chr 61)).
    unfold enc_tail. eapply g_if; [eapply c_eq; [apply c_size, iv_rest; [lia|exact B]|]; replace (Z.of_nat (length s) - Z.of_nat j) with 2 by lia; reflexivity|].
    eapply g_block.
    + cbv [length].
      nx; [eapply (sym_one 17 0 _ (s1 x) (a, c, e, f)); [lia|cbn [evars]; ivt|apply s1_in]|]. cbn [set4].
      nx; [eapply (sym_one 17 1 _ (s2' x)); [lia|cbn [evars]; ivt|apply s2_in']|]. cbn [set4].
      nx; [eapply (set_one 17 2); [lia|reflexivity]|]. cbn [set4].
      nx; [eapply (set_one 17 3); [lia|reflexivity]|]. cbn [set4].
      nx; [eapply g_if; [eapply c_eq; [eapply c_cmp; [reflexivity|cbn [evars]; apply iv_rest; [lia|exact B]|ivt|reflexivity]|]; change (cast_int false 64 2) with 2; lia|]|].
      { eapply g_block; [cbv [length]|].
        { nx; [eapply (sym_one 15 1 _ (s2 x y) (_, _, _, _)); [lia|cbn [evars]; ivt|apply s2_in]|]. cbn [set4].
          nx; [eapply (sym_one 15 2 _ (s3' y) (_, _, _, _)); [lia|cbn [evars]; ivt|apply s3_in']|]. cbn [set4]. apply seq_end. }
        reflexivity. }
      nx; [apply (put_arr _ (b64_sym (s1 x)) (b64_sym (s2 x y)) (b64_sym (s3' y)) (chr 61)); [apply sym_nonzero, s1_in|apply sym_nonzero, s2_in|apply sym_nonzero, s3_in'|reflexivity]|].
      apply seq_end.
    + reflexivity.
Qed.

(** json-base64.hh:24-59. *)
Lemma b64write : writes (fun s => (length s < N)%nat /\ Z.of_nat (length s) <= 9223372036854775807) (fun s => HM (VB64 s))
  (run_fun N consts ea CNone call fn_b64write) (fun s e => (PGR_OK, [chr 34] ++ b64_encode s ++ [chr 34], e)).
Proof.
  intros s t r x e [K B] W vars a c o A G. injection W as <- <- <-. rewrite with_same.
  destruct (enc_while N (0, 0, 0, 0) 0 s t (o ++ [chr 34]) B (Nat.le_0_l _)) as [l [j [y [W [J X]]]]]; [lia|]. cbn [skipn] in X.
  destruct (enc_rest l j s t ((o ++ [chr 34]) ++ y) B J) as [[[[p q] u] v] T]. 
  match goal with |- _ = Some (_, mem _ _ ?z) => replace z with ((((o ++ [chr 34]) ++ y) ++ b64_encode (skipn j s)) ++ [chr 34]) by (rewrite X, <- !app_assoc; reflexivity) end.
  eapply (run_val N _ ea call fn_b64write (b "value")); [reflexivity|exact A|exact G|reflexivity| |].
  { body fn_b64write. nx; [reflexivity|]. nx; [reflexivity|]. nx; [reflexivity|]. eapply (seq_next _ _ _ _ _ (mem (evars (0, 0, 0, 0) 0 s) t o)); [reflexivity|].
    eapply (seq_next _ _ _ _ _ (mem (evars (0, 0, 0, 0) 0 s) t (o ++ [chr 34]))); [eapply (put_one N consts ea call 19 (EChr (b """")) (evars (0, 0, 0, 0) 0 s) t o (HV (HI IChar 34))); reflexivity|].
    eapply (seq_next _ _ _ _ _ (mem (evars l j s) t ((o ++ [chr 34]) ++ y))).
    { eapply g_for; [reflexivity|exact W|]. destruct l as [[[? ?] ?] ?]. reflexivity. }
    nx; [exact T|]. nx; [eapply put_one; reflexivity|]. rt. reflexivity. }
  reflexivity.
Qed.
End B.
