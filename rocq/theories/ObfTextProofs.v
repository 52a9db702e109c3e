From Verif Require Import Bytes Num Types Read BaseProofs Cpp CLex CParse CExec HText HParse HExec HNum SpecHNum HNumProofs HNameText CLexProofs HStrProofs Gen SpecGen SpecCpp GenText SpecProgram ProgramProofs ObfText SpecObfText.

Definition the_obfs : list hfun := Eval vm_compute in obf_funs obfuscate_cc.
Lemma the_obfs_are : obf_funs obfuscate_cc = the_obfs.
Proof. vm_cast_no_check (eq_refl the_obfs). Qed.

Definition f_obf : hfun := Eval vm_compute in match hfind the_obfs (b "obfuscate") with Some h => h | None => HFun [] [] [] [] end.
Definition ofor (l : list hstmt) : hexpr * hexpr * list hstmt :=
  match nth_error l 2 with Some (TFor _ c [p] (TBlock a)) => (c, p, a) | _ => (ENull, ENull, []) end.
Definition c_obf : hexpr := Eval vm_compute in fst (fst (ofor (hf_body f_obf))).
Definition p_obf : hexpr := Eval vm_compute in snd (fst (ofor (hf_body f_obf))).
Definition a_obf : list hstmt := Eval vm_compute in snd (ofor (hf_body f_obf)).
Definition at_char (s : bytes) (m : Z) (i : nat) : nst :=
  NSt [(b "t", NI ISize (Z.of_nat (length s))); (b "i", NI ISize (Z.of_nat i)); (b "mask", NI IU8 m); (b "value", NS s)] LOwn.

Lemma rol_of_obf : forall k, 0 <= k < 8 -> forall n loops, ncall the_obfs (S n) loops false true true LOwn (b "rol") [NI IUInt 147; NI ISize k] = Some (NI IU8 (rol8 147 k), LOwn).
Proof.
  intros k K n loops. assert (k = 0 \/ k = 1 \/ k = 2 \/ k = 3 \/ k = 4 \/ k = 5 \/ k = 6 \/ k = 7) as D by lia.
  destruct D as [ -> | [ -> | [ -> | [ -> | [ -> | [ -> | [ -> | -> ]]]]]]]; vm_compute; reflexivity.
Qed.

(** A byte in hexadecimal. *)
Fixpoint all_to (n : nat) (f : Z -> bool) : bool := match n with O => true | S k => f (Z.of_nat k) && all_to k f end.
Lemma all_to_true : forall f n, all_to n f = true -> forall z, 0 <= z < Z.of_nat n -> f z = true.
Proof.
  intros f. induction n as [|n IH]; intros A z L; [lia|]. cbn [all_to] in A. apply andb_true_iff in A. destruct A as [A B].
  destruct (Z.eq_dec z (Z.of_nat n)) as [ -> |N]; [exact A|]. apply IH; [exact B|lia].
Qed.
Lemma same_bytes : forall x y : bytes, same x y = true -> x = y.
Proof. intros x y E. now apply same_true. Qed.
Lemma hex_text_byte : forall z, 0 <= z < 256 -> hex_text z = hex_byte z.
Proof.
  intros z L. apply same_bytes. revert z L. change 256 with (Z.of_nat 256). apply (all_to_true (fun z => same (hex_text z) (hex_byte z))). vm_compute. reflexivity.
Qed.

Section Loop.
  Context (call : list bytes -> list nval -> option nval) (s : bytes) (m : Z).
  Context (Len : Z.of_nat (length s) < 2 ^ 64) (Mask : 0 <= m < 256).
  Notation ev := (neval false true true call).
  Definition shown (c : ascii) : bytes := b "\x" ++ hex_byte (Z.lxor (code c) m).
  Definition ostream (h : bool) (o : bytes) : option sstream := Some (SS (b "result") h o).

  Lemma o_c : forall i, ev c_obf (at_char s m i) = Some (NB (Z.of_nat i <? Z.of_nat (length s)), at_char s m i).
  Proof. intros i. cbv -[Z.of_nat Z.ltb length]. reflexivity. Qed.
  Lemma o_p : forall i, (i < length s)%nat -> exists v, ev p_obf (at_char s m i) = Some (v, at_char s m (S i)).
  Proof.
    intros i I. eexists. transitivity (Some (NI ISize (cast_int false 64 (Z.of_nat i + 1)), NSt [(b "t", NI ISize (Z.of_nat (length s))); (b "i", NI ISize (cast_int false 64 (Z.of_nat i + 1))); (b "mask", NI IU8 m); (b "value", NS s)] LOwn)).
    - cbv -[Z.of_nat cast_int Z.add length]. reflexivity.
    - unfold at_char. rewrite size_id by lia. replace (Z.of_nat i + 1) with (Z.of_nat (S i)) by lia. reflexivity.
  Qed.
  Lemma lxor_byte : forall x y, 0 <= x < 256 -> 0 <= y < 256 -> 0 <= Z.lxor x y < 256.
  Proof.
    intros x y X Y. assert (N : 0 <= Z.lxor x y) by (apply Z.lxor_nonneg; lia). split; [exact N|]. destruct (Z.eq_dec (Z.lxor x y) 0) as [E|E]; [lia|].
    change 256 with (2 ^ 8). apply Z.log2_lt_pow2; [lia|]. eapply Z.le_lt_trans; [apply Z.log2_lxor; lia|].
    apply Z.max_lub_lt; [destruct (Z.eq_dec x 0) as [ -> |]; [reflexivity|]|destruct (Z.eq_dec y 0) as [ -> |]; [reflexivity|]]; apply Z.log2_lt_pow2; lia.
  Qed.
  Lemma o_value : forall i c, nth_error s i = Some c ->
    ev (EBin (b "^") (ECast [b "uint8_t"] (EIndex (EName [b "value"]) (EName [b "i"]))) (EName [b "mask"])) (at_char s m i) = Some (NI IInt (Z.lxor (code c) m), at_char s m i).
  Proof.
    intros i c N. assert (E : element (HS s) (Z.of_nat i) = Some (HI IChar (char_of c))).
    { unfold element. destruct (Z.of_nat i <? 0) eqn:L; [lia|]. rewrite Nat2Z.id, N. assert (i < length s)%nat by (apply nth_error_Some; rewrite N; discriminate).
      destruct (Z.of_nat i =? Z.of_nat (length s)) eqn:Q; [lia|reflexivity]. }
    pose proof (ev_index call (b "value") (b "i") (at_char s m i) _ _ _ _ eq_refl eq_refl E) as E1.
    pose proof (ev_cast call [b "uint8_t"] _ _ _ _ E1 eq_refl) as E2.
    assert (Em : ev (EName [b "mask"]) (at_char s m i) = Some (NI IU8 m, at_char s m i)) by reflexivity.
    pose proof (ev_bin call (b "^") _ _ _ _ _ _ E2 Em eq_refl eq_refl) as E3.
    refine (eq_trans E3 _).
    unfold byte_of, char_of. rewrite (schar_back s). reflexivity.
  Qed.
  Lemma o_body : forall i c h o, nth_error s i = Some c -> inserts call a_obf (at_char s m i, ostream h o) = Some (at_char s m i, ostream true (o ++ shown c)).
  Proof.
    intros i c h o N. pose proof (o_value i c N) as E.
    assert (R : 0 <= Z.lxor (code c) m < 256).
    { apply lxor_byte; [|exact Mask]. pose proof (code_range c) as Q. unfold byte_range in Q. lia. }
    transitivity (match (match ev (EBin (b "^") (ECast [b "uint8_t"] (EIndex (EName [b "value"]) (EName [b "i"]))) (EName [b "mask"])) (at_char s m i) with
                         | Some (v, n1) => option_map (fun t => (n1, ostream true ((o ++ b "\x") ++ t))) (inserted true v)
                         | None => None
                         end) with Some s1 => Some s1 | None => None end); [reflexivity|].
    rewrite E. cbn [inserted option_map]. rewrite hex_text_byte by exact R. rewrite <- app_assoc. reflexivity.
  Qed.
  Lemma o_loop : forall u v k, s = u ++ v -> (length v < k)%nat -> forall h o,
    exists h', oloop call k c_obf p_obf a_obf (at_char s m (length u), ostream h o) = Some (at_char s m (length s), ostream h' (o ++ concat (map shown v))).
  Proof.
    intros u v k. revert u v. induction k as [|k IH]; intros u v Es K h o; [lia|]. cbn [oloop fst snd]. rewrite o_c.
    destruct v as [|c v].
    - rewrite app_nil_r in Es. subst u. rewrite Z.ltb_irrefl. exists h. cbn [map concat]. rewrite app_nil_r. reflexivity.
    - assert (LS : length s = (length u + S (length v))%nat) by (rewrite Es, app_length; reflexivity).
      replace (Z.of_nat (length u) <? Z.of_nat (length s)) with true by (symmetry; apply Z.ltb_lt; lia).
      rewrite (o_body (length u) c h o) by (rewrite Es, nth_error_app2, Nat.sub_diag by lia; reflexivity).
      destruct (o_p (length u)) as [w E]; [lia|]. rewrite E.
      replace (S (length u)) with (length (u ++ [c])) by (rewrite app_length; cbn; lia).
      destruct (IH (u ++ [c]) v) with (h := true) (o := o ++ shown c) as [h' R]; [rewrite <- app_assoc; exact Es|cbn in K; lia|].
      exists h'. rewrite R. cbn [map concat]. rewrite <- app_assoc. reflexivity.
  Qed.
End Loop.

Lemma obf_text : forall s loops, Z.of_nat (length s) < 2 ^ 64 -> (length s < loops)%nat -> source_obfuscate obfuscate_cc loops s = Some (obfuscate s).
Proof.
  intros s loops Len Lo. unfold source_obfuscate. rewrite the_obfs_are. set (m := rol8 147 (Z.of_nat (length s) mod 8)).
  assert (Mb : 0 <= m < 256) by (apply Z.mod_pos_bound; lia).
  change (call_obfuscate the_obfs loops s) with
    (obody loops (fun ws xs => match ws with
                                | [g; o; t; c] => if words_eqb [o; t; c] (words_of "<uint8_t>") then option_map fst (ncall the_obfs 1 loops false true true LOwn g xs) else None
                                | _ => None
                                end) (hf_body f_obf) (NSt [(b "value", NS s)] LOwn, None)).
  match goal with |- context [obody _ ?f] => set (call := f) end.
  assert (Mask : call w_rol [NI IUInt 147; NI ISize (Z.of_nat (length s) mod 8)] = Some (NI IU8 m)).
  { unfold call, w_rol. cbv iota beta.
    change (words_eqb [b "<"; b "uint8_t"; b ">"] (words_of "<uint8_t>")) with true. cbv iota. rewrite rol_of_obf by (apply Z.mod_pos_bound; lia). reflexivity. }
  clearbody call. 
  set (st0 := NSt [(b "value", NS s)] LOwn).
  assert (E8 : neval false true true call (EBin (b "%") (ECall (EDot (EName [b "value"]) (b "length")) []) (ENum false 8)) st0 = Some (NI ISize (Z.of_nat (length s) mod 8), st0)).
  { apply (ev_bin call (b "%") _ _ _ (NI ISize (Z.of_nat (length s))) (NI IInt 8)); [apply ev_length; reflexivity|reflexivity|reflexivity|].
    change (noperation (b "%") (NI ISize (Z.of_nat (length s))) (NI IInt 8)) with (Some (NI ISize (cast_int false 64 (Z.rem (Z.of_nat (length s)) 8)))).
    rewrite Z.rem_mod_nonneg by lia. rewrite size_id by (pose proof (Z.mod_pos_bound (Z.of_nat (length s)) 8 eq_refl); lia). reflexivity. }
  pose proof (ev_rol call _ _ _ _ E8 Mask) as E.
  set (st1 := NSt [(b "mask", NI IU8 m); (b "value", NS s)] LOwn).
  transitivity (obody loops call (skipn 1 (hf_body f_obf)) (st1, None)).
  { change (match (match (match neval false true true call (ECall (EName w_rol) [ENum true 147; EBin (b "%") (ECall (EDot (EName [b "value"]) (b "length")) []) (ENum false 8)]) st0 with
                          | Some (v, s1) => match ntyped [b "uint8_t"] v with Some w => Some (NSt ((b "mask", w) :: n_vars s1) (n_loc s1)) | None => None end
                          | None => None
                          end) with Some n1 => declare call [] n1 | None => None end) with
            | Some n => obody loops call (skipn 1 (hf_body f_obf)) (n, None) | None => None end = obody loops call (skipn 1 (hf_body f_obf)) (st1, None)).
    rewrite E. reflexivity. }
  transitivity (obody loops call (skipn 2 (hf_body f_obf)) (st1, ostream false [])); [reflexivity|].
  transitivity (match oloop call loops c_obf p_obf a_obf (at_char s m (length (@nil ascii)), ostream false []) with
                | Some (n1, o) => obody loops call (skipn 3 (hf_body f_obf)) (NSt (skipn (length (n_vars n1) - 2) (n_vars n1)) (n_loc n1), o)
                | None => None
                end).
  { change (match (match declare call [TVar [b "size_t"] (b "i") None (Some (ENum false 0))] st1 with
                   | Some n => match neval false true true call (ECall (EDot (EName [b "value"]) (b "length")) []) n with
                               | Some (v, s1) => match ntyped [b "size_t"] v with Some w => Some (NSt ((b "t", w) :: n_vars s1) (n_loc s1)) | None => None end
                               | None => None
                               end
                   | None => None
                   end) with
            | Some n => match oloop call loops c_obf p_obf a_obf (n, ostream false []) with
                        | Some (n1, o) => obody loops call (skipn 3 (hf_body f_obf)) (NSt (skipn (length (n_vars n1) - 2) (n_vars n1)) (n_loc n1), o)
                        | None => None
                        end
            | None => None
            end = match oloop call loops c_obf p_obf a_obf (at_char s m (length (@nil ascii)), ostream false []) with
                | Some (n1, o) => obody loops call (skipn 3 (hf_body f_obf)) (NSt (skipn (length (n_vars n1) - 2) (n_vars n1)) (n_loc n1), o)
                | None => None
                end).
    change (declare call [TVar [b "size_t"] (b "i") None (Some (ENum false 0))] st1) with (Some (NSt ((b "i", NI ISize 0) :: n_vars st1) LOwn)). cbv iota beta.
    rewrite (ev_length call (b "value") _ s) by reflexivity. cbv iota beta.
    reflexivity. }
  destruct (o_loop call s m Len Mb [] s loops eq_refl Lo false []) as [h' R]. rewrite R. reflexivity.
Qed.

Lemma obf_masked : forall s loops, Z.of_nat (length s) < 2 ^ 64 -> (length s < loops)%nat -> source_obfuscate obfuscate_cc loops s = Some (masked s).
Proof. intros s loops Len Lo. rewrite obf_text by assumption. now rewrite obfuscate_eq. Qed.

Lemma before_short : forall m l, (length (before m l) <= length l)%nat.
Proof. intros m. induction l as [|c l IH]; [apply Nat.le_refl|]. cbn [before]. destruct (_ =? _); cbn [length]; lia. Qed.
Lemma both_texts : forall l loops, Z.of_nat (length l) < 2 ^ 64 -> (length l < loops)%nat ->
  exists t v, source_obfuscate obfuscate_cc loops l = Some t /\ lit_string t = Some v /\ text_name loops "reveal" [NS v] = Some (NS (effective true l), LOwn).
Proof.
  intros l loops Len Lo. exists (masked l), (reveal (effective true l)). split; [now apply obf_masked|].
  destruct (label_means true l) as [E _]; [discriminate|]. split; [exact E|].
  assert (L : (length (reveal (effective true l)) <= length l)%nat).
  { unfold reveal. rewrite map_length. unfold effective. cbv zeta. rewrite map_length. apply before_short. }
  rewrite reveal_text by lia. rewrite reveal_inv. reflexivity.
Qed.
