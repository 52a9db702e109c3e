From Verif Require Import Bytes Num Types Read BaseProofs Cpp CLex CParse CExec HdrText HText HParse HExec HStrProofs HNum SpecHNum HNumProofs.

Definition for_of (l : list hstmt) : hexpr * hexpr * hexpr :=
  match nth_error l 3 with Some (TFor _ c [p] (TExpr [a])) => (c, p, a) | _ => (ENull, ENull, ENull) end.
Definition c_for : hexpr := Eval vm_compute in fst (fst (for_of (hf_body f_reveal))).
Definition p_for : hexpr := Eval vm_compute in snd (fst (for_of (hf_body f_reveal))).
Definition a_for : hexpr := Eval vm_compute in snd (for_of (hf_body f_reveal)).
Definition in_loop (s r : bytes) (m : Z) (i : nat) : nst :=
  NSt [(b "i", NI ISize (Z.of_nat i)); (b "result", NS r); (b "mask", NI IU8 m); (b "value", NS s)] LOwn.

Section Loop.
  Context (call : list bytes -> list nval -> option nval) (s : bytes) (m : Z).
  Context (Len : Z.of_nat (length s) < 2 ^ 64).
  Notation ev := (neval false true true call).
  Definition veil (c : ascii) : ascii := chr (Z.lxor (code c) m).

  Lemma ev_c : forall r i, ev c_for (in_loop s r m i) = Some (NB (Z.of_nat i <? Z.of_nat (length s)), in_loop s r m i).
  Proof. intros r i. cbv -[Z.of_nat Z.ltb length]. reflexivity. Qed.
  Lemma ev_p : forall r i, (i < length s)%nat -> exists v, ev p_for (in_loop s r m i) = Some (v, in_loop s r m (S i)).
  Proof.
    intros r i I. eexists. transitivity (Some (NI ISize (cast_int false 64 (Z.of_nat i + 1)), NSt [(b "i", NI ISize (cast_int false 64 (Z.of_nat i + 1))); (b "result", NS r); (b "mask", NI IU8 m); (b "value", NS s)] LOwn)).
    - cbv -[Z.of_nat cast_int Z.add]. reflexivity.
    - unfold in_loop. rewrite size_id by lia. replace (Z.of_nat i + 1) with (Z.of_nat (S i)) by lia. reflexivity.
  Qed.
  Lemma ev_index : forall x y st v t z z', assoc (n_vars st) x = Some (NS v) -> assoc (n_vars st) y = Some (NI t z) -> element (HS v) z = Some (HI IChar z') ->
    ev (EIndex (EName [x]) (EName [y])) st = Some (NI IChar z', st).
  Proof. intros x y st v t z z' X Y E. cbn [neval]. rewrite X, Y, E. reflexivity. Qed.
  Lemma ev_cast : forall t e st v w, ev e st = Some (v, st) -> ntyped t v = Some w -> ev (ECast t e) st = Some (w, st).
  Proof. intros t e st v w E T. cbn [neval]. rewrite E, T. reflexivity. Qed.
  Lemma ev_bin : forall op x y st u v w, ev x st = Some (u, st) -> ev y st = Some (v, st) -> same op (b "&&") = false -> noperation op u v = Some w ->
    ev (EBin op x y) st = Some (w, st).
  Proof. intros op x y st u v w X Y O E. cbn [neval]. rewrite X, O, Y, E. reflexivity. Qed.
  Lemma ev_add : forall x y st t c, ev y st = Some (NI IChar c, st) -> assoc (n_vars st) x = Some (NS t) ->
    ev (ESet (b "+=") (EName [x]) y) st = Some (NS (t ++ [byte_of c]), NSt (update (n_vars st) x (NS (t ++ [byte_of c]))) (n_loc st)).
  Proof. intros x y st t c Y X. cbn [neval]. rewrite Y, X. reflexivity. Qed.
  Lemma chr_same : forall x y, x mod 256 = y mod 256 -> chr x = chr y.
  Proof. intros x y E. rewrite <- (chr_code (chr x)), <- (chr_code (chr y)), !code_chr, E. reflexivity. Qed.
  Lemma schar_back : forall c, chr (schar c) = c.
  Proof.
    intros c. unfold schar. destruct (code c <? 128); [apply chr_code|]. rewrite <- (chr_code c) at 2. apply chr_same.
    replace (code c - 256) with (code c + (-1) * 256) by lia. apply Z.mod_add. lia.
  Qed.
  Lemma byte_again : forall z, byte_of (char_of (byte_of z)) = byte_of z.
  Proof. intros z. apply schar_back. Qed.
  Lemma ev_a : forall r i c, nth_error s i = Some c -> exists v, ev a_for (in_loop s r m i) = Some (v, in_loop s (r ++ [veil c]) m i).
  Proof.
    intros r i c N. assert (E : element (HS s) (Z.of_nat i) = Some (HI IChar (char_of c))).
    { unfold element. destruct (Z.of_nat i <? 0) eqn:L; [lia|]. rewrite Nat2Z.id, N. assert (i < length s)%nat by (apply nth_error_Some; rewrite N; discriminate).
      destruct (Z.of_nat i =? Z.of_nat (length s)) eqn:Q; [lia|reflexivity]. }
    pose proof (ev_index (b "value") (b "i") (in_loop s r m i) _ _ _ _ eq_refl eq_refl E) as E1.
    pose proof (ev_cast [b "uint8_t"] _ _ _ _ E1 eq_refl) as E2.
    assert (Em : ev (EName [b "mask"]) (in_loop s r m i) = Some (NI IU8 m, in_loop s r m i)) by reflexivity.
    pose proof (ev_bin (b "^") _ _ _ _ _ _ E2 Em eq_refl eq_refl) as E3.
    pose proof (ev_cast [b "char"] _ _ _ _ E3 eq_refl) as E4.
    pose proof (ev_add (b "result") _ (in_loop s r m i) r _ E4 eq_refl) as E5.
    eexists. refine (eq_trans E5 _). rewrite byte_again. unfold byte_of at 2. unfold veil, byte_of, char_of.
    rewrite schar_back. reflexivity.
  Qed.
  Lemma loop_from : forall u v k, s = u ++ v -> (length v < k)%nat -> forall r,
    nloop k (ev c_for) (ev p_for) (fun st => match ev a_for st with Some (_, s') => Some (None, s') | None => None end) (in_loop s r m (length u))
      = Some (None, in_loop s (r ++ map veil v) m (length s)).
  Proof.
    intros u v k. revert u v. induction k as [|k IH]; intros u v Es K r; [lia|]. cbn [nloop]. rewrite ev_c.
    destruct v as [|c v].
    - rewrite app_nil_r in Es. subst u. rewrite Z.ltb_irrefl. cbn [map]. rewrite app_nil_r. reflexivity.
    - assert (LS : length s = (length u + S (length v))%nat) by (rewrite Es, app_length; reflexivity).
      replace (Z.of_nat (length u) <? Z.of_nat (length s)) with true by (symmetry; apply Z.ltb_lt; lia).
      destruct (ev_a r (length u) c) as [w E]; [rewrite Es, nth_error_app2, Nat.sub_diag by lia; reflexivity|]. rewrite E.
      destruct (ev_p (r ++ [veil c]) (length u)) as [w' E']; [lia|]. rewrite E'.
      replace (S (length u)) with (length (u ++ [c])) by (rewrite app_length; cbn; lia).
      rewrite (IH (u ++ [c]) v); [|rewrite <- app_assoc; exact Es|cbn in K; lia]. cbn [map]. rewrite <- app_assoc. reflexivity.
  Qed.
  Definition w_rol : list bytes := [b "rol"; b "<"; b "uint8_t"; b ">"].
  Lemma ev_rol : forall e st v w, ev e st = Some (v, st) -> call w_rol [NI IUInt 147; v] = Some w -> ev (ECall (EName w_rol) [ENum true 147; e]) st = Some (w, st).
  Proof. intros e st v w E C. unfold w_rol in *. cbn [neval]. change (num_val true 147) with (Some (HI IUInt 147)). cbv iota beta. rewrite E, C. reflexivity. Qed.
  Lemma ev_length : forall x st v, assoc (n_vars st) x = Some (NS v) -> ev (ECall (EDot (EName [x]) (b "length")) []) st = Some (NI ISize (Z.of_nat (length v)), st).
  Proof. intros x st v X. cbn [neval]. rewrite X. reflexivity. Qed.
End Loop.

Lemma reveal_text : forall s loops, Z.of_nat (length s) < 2 ^ 64 -> (length s < loops)%nat -> text_name loops "reveal" [NS s] = Some (NS (reveal s), LOwn).
Proof.
  intros s loops Len Lo. texts. set (m := reveal_mask (length s)).
  change (ncall the_names 2 loops false true true LOwn (b "reveal") [NS s]) with
    (match nbody loops false true true (fun ws xs => match ws with
                                | [g; o; t; c] => if words_eqb [o; t; c] (words_of "<uint8_t>") then option_map fst (ncall the_names 1 loops false true true LOwn g xs) else None
                                | _ => None
                                end) (hf_body f_reveal) (NSt [(b "value", NS s)] LOwn) with
     | Some (v, st) => option_map (fun w => (w, n_loc st)) (ntyped (hf_ret f_reveal) v)
     | None => None
     end).
  match goal with |- context [nbody _ _ _ _ ?f] => set (call := f) end.
  assert (Mask : call (words_of "rol<uint8_t>") [NI IUInt 147; NI ISize (Z.of_nat (length s) mod 8)] = Some (NI IU8 m)).
  { unfold call. change (words_of "rol<uint8_t>") with [b "rol"; b "<"; b "uint8_t"; b ">"]. cbv iota beta.
    change (words_eqb [b "<"; b "uint8_t"; b ">"] (words_of "<uint8_t>")) with true. cbv iota. rewrite rol_text by (apply Z.mod_pos_bound; lia). reflexivity. }
  clearbody call. cbn [hf_body f_reveal].
  set (st0 := NSt [(b "value", NS s)] LOwn).
  assert (E8 : neval false true true call (EBin (b "%") (ECall (EDot (EName [b "value"]) (b "length")) []) (ENum false 8)) st0 = Some (NI ISize (Z.of_nat (length s) mod 8), st0)).
  { apply (ev_bin call (b "%") _ _ _ (NI ISize (Z.of_nat (length s))) (NI IInt 8)); [apply ev_length; reflexivity|reflexivity|reflexivity|].
    change (noperation (b "%") (NI ISize (Z.of_nat (length s))) (NI IInt 8)) with (Some (NI ISize (cast_int false 64 (Z.rem (Z.of_nat (length s)) 8)))).
    rewrite Z.rem_mod_nonneg by lia. rewrite size_id by (pose proof (Z.mod_pos_bound (Z.of_nat (length s)) 8 eq_refl); lia). reflexivity. }
  pose proof (ev_rol call _ _ _ _ E8 Mask) as E.
  erewrite (go_on _ _ _ _ _ _ _ _ (NSt [(b "mask", NI IU8 m); (b "value", NS s)] LOwn)).
  2:{ change (option_map (fun s1 => (@None nval, s1)) (match neval false true true call (ECall (EName w_rol) [ENum true 147; EBin (b "%") (ECall (EDot (EName [b "value"]) (b "length")) []) (ENum false 8)]) st0 with
         | Some (v, s1) => match ntyped [b "uint8_t"] v with Some w => Some (NSt ((b "mask", w) :: n_vars s1) (n_loc s1)) | None => None end
         | None => None
         end) = Some (None, NSt [(b "mask", NI IU8 m); (b "value", NS s)] LOwn)). rewrite E. reflexivity. }
  erewrite (go_on _ _ _ _ _ _ _ _ (NSt [(b "result", NS []); (b "mask", NI IU8 m); (b "value", NS s)] LOwn)) by reflexivity.
  erewrite (go_on _ _ _ _ _ _ _ _ (NSt [(b "result", NS []); (b "mask", NI IU8 m); (b "value", NS s)] LOwn)) by reflexivity.
  erewrite (go_on _ _ _ _ _ _ _ _ (NSt [(b "result", NS (reveal s)); (b "mask", NI IU8 m); (b "value", NS s)] LOwn)).
  2:{ change (match nloop loops (neval false true true call c_for) (neval false true true call p_for)
                (fun st => match neval false true true call a_for st with Some (_, s') => Some (None, s') | None => None end) (in_loop s [] m (length (@nil ascii))) with
         | Some (r, s2) => Some (r, NSt (skipn (length (n_vars s2) - 3) (n_vars s2)) (n_loc s2))
         | None => None
         end = Some (None, NSt [(b "result", NS (reveal s)); (b "mask", NI IU8 m); (b "value", NS s)] LOwn)).
      rewrite (loop_from call s m Len [] s loops eq_refl Lo []). reflexivity. }
  reflexivity.
Qed.
