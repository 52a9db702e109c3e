(** The text of printer.cc, executed, against Printer.v. *)
From Coq Require Import Lia Arith.
From Verif Require Import Bytes Num Printer BaseProofs PrinterProofs Cpp CLex CParse CExec Unit HText HParse HExec LexRead LexExec PrintText SpecPrintText.

Definition the_prints : list hfun := Eval vm_compute in print_funs printer_cc.
Lemma the_prints_are : print_funs printer_cc = the_prints.
Proof. vm_compute. reflexivity. Qed.

Lemma is_dollar : forall c, (char_of c =? 36) = Ascii.eqb c "$".
Proof. intros [[|] [|] [|] [|] [|] [|] [|] [|]]; reflexivity. Qed.
Lemma is_tab : forall c, (char_of c =? 9) = Ascii.eqb c "009".
Proof. intros [[|] [|] [|] [|] [|] [|] [|] [|]]; reflexivity. Qed.
Lemma is_back : forall c, (char_of c =? 8) = Ascii.eqb c "008".
Proof. intros [[|] [|] [|] [|] [|] [|] [|] [|]]; reflexivity. Qed.
Lemma is_null : forall c, (char_of c =? 0) = Ascii.eqb c NUL.
Proof. intros [[|] [|] [|] [|] [|] [|] [|] [|]]; reflexivity. Qed.
Lemma chr_char : forall c, chr (char_of c) = c.
Proof. intros [[|] [|] [|] [|] [|] [|] [|] [|]]; reflexivity. Qed.

Lemma strchr_split : forall r, match strchr 36 r with
  | Some t => exists a g, r = a ++ "$"%char :: g /\ t = "$"%char :: g /\ ~ In "$"%char a
  | None => ~ In "$"%char r end.
Proof.
  induction r as [|c r IH]; [intros H; exact H|]. cbn [strchr]. change (char_at (c :: r)) with (char_of c). rewrite is_dollar.
  destruct (Ascii.eqb_spec c "$") as [->|N].
  - exists [], r. auto.
  - destruct (strchr 36 r) as [t|].
    + destruct IH as (a & g & -> & -> & H). exists (c :: a), g. split; [reflexivity|]. split; [reflexivity|]. intros [Q|Q]; [congruence|auto].
    + intros [Q|Q]; [congruence|auto].
Qed.

Lemma span_app : forall (p : ascii -> bool) c g a, p c = false ->
  span p (a ++ c :: g) = (fst (span p a), snd (span p a) ++ c :: g).
Proof.
  intros p c g a H. induction a as [|x a IH]; cbn [app span fst snd].
  - rewrite H. reflexivity.
  - destruct (p x); [|reflexivity]. rewrite IH. destruct (span p a). reflexivity.
Qed.
Lemma split_dollar : forall a g, ~ In NUL (a ++ "$"%char :: g) ->
  strto_split (a ++ "$"%char :: g) = (let '(neg, ds, rest) := strto_split a in (neg, ds, rest ++ "$"%char :: g)).
Proof.
  intros a g N. unfold strto_split. rewrite (cstr_id _ N). rewrite (cstr_id a) by (intros Q; apply N; apply in_or_app; now left).
  rewrite span_app by reflexivity. cbn [snd]. destruct (snd (span is_space a)) as [|c r].
  - reflexivity.
  - cbn [app]. change (c :: r ++ "$"%char :: g) with ((c :: r) ++ "$"%char :: g).
    destruct (Ascii.eqb c "-"); [|destruct (Ascii.eqb c "+")]; rewrite span_app by reflexivity; destruct (span is_digit _); reflexivity.
Qed.

Lemma c_dollar : chr_val ["$"%char] = Some 36. Proof. reflexivity. Qed.
Lemma c_tab : chr_val ["\"%char; "t"%char] = Some 9. Proof. reflexivity. Qed.
Lemma c_back : chr_val ["\"%char; "b"%char] = Some 8. Proof. reflexivity. Qed.
Lemma l_spaces : lit_go LText [" "%char; " "%char; " "%char; " "%char] = Some (b "    "). Proof. reflexivity. Qed.
Ltac pv0 := cbv -[char_of strchr strtol strtol_end cast_int int_ok Z.eqb Z.leb Z.ltb Z.sub how_many item_at app ptr_eq ploop chr chr_val lit_go].
Ltac pv1 := pv0; change (1 =? 1) with true; pv0.
Ltac pv := pv1; rewrite ?c_dollar, ?c_tab, ?c_back, ?l_spaces; pv1.
Definition w_c : hexpr := Eval vm_compute in match nth_error the_prints 2 with Some f => match hf_body f with [_; TWhile c _] => c | _ => ENull end | _ => ENull end.
Definition w_b : hstmt := Eval vm_compute in match nth_error the_prints 2 with Some f => match hf_body f with [_; TWhile _ x] => x | _ => TBreak end | _ => TBreak end.
Lemma int_range : forall z, - 2 ^ 31 <= cast_int true 32 z < 2 ^ 31.
Proof. intros z. unfold cast_int. change (32 - 1) with 31. pose proof (Z.mod_pos_bound (z + 2 ^ 31) (2 ^ 32) eq_refl). lia. Qed.
Lemma cast_small : forall z, 0 <= z < 2 ^ 31 -> cast_int true 32 z = z.
Proof. intros z H. unfold cast_int. change (32 - 1) with 31. rewrite Z.mod_small; lia. Qed.
Section P.
Context (loops : nat) (call : list pval -> bytes -> out bytes) (fmt : bytes) (vars : list bytes).
Notation V f := [(b "ptr", PP f); (b "out", PO); (b "format", PP fmt); (b "vars", PV vars); (b "out_", PO)].
Notation ev := (peval call). Notation ex := (pexec loops call).

Lemma other : forall c r o, Ascii.eqb c "$" = false ->
  ex w_b (PSt (V (c :: r)) o) = Out (PNext, PSt (V r) (if Ascii.eqb c "009" then o ++ b "    " else if Ascii.eqb c "008" then o else o ++ [c])).
Proof.
  intros c r o D. rewrite <- is_dollar in D. rewrite <- is_tab, <- is_back. pv. rewrite D. pv.
  destruct (char_of c =? 9); [reflexivity|]. pv. destruct (char_of c =? 8); pv; [reflexivity|]. rewrite chr_char. reflexivity.
Qed.
Lemma no_end : forall r o, strchr 36 r = None -> exists s, ex w_b (PSt (V ("$"%char :: r)) o) = Out (PReturn, PSt s o).
Proof.
  intros r o H. pv. rewrite H. change (char_of "$" =? 36) with true. change (ptr_eq PNull PNull) with (Some true). pv1. eexists. reflexivity.
Qed.
Notation idx t := (cast_int true 32 (strtol t) - 1).
Ltac upto H E := pv; rewrite H; change (char_of "$" =? 36) with true; match goal with |- context [ptr_eq (PP ?x) PNull] => change (ptr_eq (PP x) PNull) with (Some false) end; pv1; rewrite E; pv1.
Lemma overflow : forall t e o, strchr 36 t = Some e -> int_ok (idx t) = false -> ex w_b (PSt (V ("$"%char :: t)) o) = Bad.
Proof. intros t e o H E. upto H E. reflexivity. Qed.
Lemma not_closed : forall t e o, strchr 36 t = Some e -> int_ok (idx t) = true -> ptr_eq (PP (strtol_end t)) (PP e) = Some false ->
  exists s, ex w_b (PSt (V ("$"%char :: t)) o) = Out (PReturn, PSt s o).
Proof. intros t e o H E Q. upto H E. rewrite Q. pv1. eexists. reflexivity. Qed.
Lemma skipped : forall t g o, strchr 36 t = Some ("$"%char :: g) -> int_ok (idx t) = true -> ptr_eq (PP (strtol_end t)) (PP ("$"%char :: g)) = Some true ->
  (idx t <? 0) || (cast_int true 32 (how_many vars) <=? idx t) = true -> ex w_b (PSt (V ("$"%char :: t)) o) = Out (PContinue, PSt (V g) o).
Proof.
  intros t g o H E Q R. upto H E. rewrite Q. pv1. destruct (idx t <? 0); [reflexivity|]. cbn [orb] in R. pv1. rewrite R. reflexivity.
Qed.
Lemma inserted : forall t g o w, strchr 36 t = Some ("$"%char :: g) -> int_ok (idx t) = true -> ptr_eq (PP (strtol_end t)) (PP ("$"%char :: g)) = Some true ->
  (idx t <? 0) || (cast_int true 32 (how_many vars) <=? idx t) = false -> item_at vars (idx t) = Some w ->
  ex w_b (PSt (V ("$"%char :: t)) o) = Out (PContinue, PSt (V g) (o ++ w)).
Proof.
  intros t g o w H E Q R I. upto H E. rewrite Q. pv1. destruct (idx t <? 0); [discriminate R|]. cbn [orb] in R. pv1. rewrite R. pv1. rewrite I. reflexivity.
Qed.
Lemma more : forall c r o, Ascii.eqb c NUL = false -> ev w_c (PSt (V (c :: r)) o) = Out (PB true, PSt (V (c :: r)) o).
Proof. intros c r o H. rewrite <- is_null in H. pv. rewrite H. reflexivity. Qed.
Lemma ends : forall o, ev w_c (PSt (V []) o) = Out (PB false, PSt (V []) o).
Proof. intros. reflexivity. Qed.

Lemma loop_is : Z.of_nat (length vars) < 2 ^ 31 -> forall k f o, ~ In NUL f -> (length f < k)%nat ->
  obind (ploop k (ev w_c) (ex w_b) (PSt (V f) o)) (fun p => Out (p_out (snd p))) = printed (print_go vars None f) o.
Proof.
  intros LV. induction k as [|k IH]; intros f o N L; [lia|]. destruct f as [|c r].
  { cbn [ploop]. rewrite ends. cbn. rewrite app_nil_r. reflexivity. }
  cbn [ploop]. rewrite more. 2:{ destruct (Ascii.eqb_spec c NUL) as [->|]; [destruct N; now left|reflexivity]. }
  cbn [obind]. cbn [length] in L. destruct (Ascii.eqb c "$") eqn:D.
  - apply Ascii.eqb_eq in D. subst c. pose proof (strchr_split r) as SP. destruct (strchr 36 r) as [e|] eqn:H.
    + destruct SP as (a & g & -> & -> & NA).
      assert (NR : ~ In NUL (a ++ "$"%char :: g)) by (intros Q; apply N; now right).
      assert (NG : ~ In NUL g) by (intros Q; apply NR; apply in_or_app; right; now right).
      change ("$"%char :: a ++ "$"%char :: g) with (b "$" ++ a ++ b "$" ++ g) at 2. rewrite go_reference by exact NA.
      pose proof (split_dollar a g NR) as SD.
      assert (SL : strtol (a ++ "$"%char :: g) = strtol a) by (unfold strtol; rewrite SD; destruct (strto_split a) as [[? ?] ?]; reflexivity).
      assert (EQ : ptr_eq (PP (strtol_end (a ++ "$"%char :: g))) (PP ("$"%char :: g)) = Some (arg_closed a)).
      { unfold ptr_eq, strtol_end, arg_closed. rewrite SD. destruct (strto_split a) as [[neg ds] rest]. apply Logic.f_equal.
        destruct ds.
        - destruct a; [apply Nat.eqb_refl|]. apply Nat.eqb_neq. cbn [app length]. rewrite app_length. cbn [length]. lia.
        - destruct rest; [apply Nat.eqb_refl|]. apply Nat.eqb_neq. cbn [app length]. rewrite app_length. cbn [length]. lia. }
      rewrite app_length in L. cbn [length] in L.
      assert (IO : int_ok (cast_int true 32 (strtol (a ++ "$"%char :: g)) - 1) = negb (arg_number a =? - 2 ^ 31)).
      { rewrite SL. fold (arg_number a). pose proof (int_range (strtol a)) as RG. fold (arg_number a) in RG. unfold int_ok.
        destruct (Z.eqb_spec (arg_number a) (- 2 ^ 31)) as [Q|Q]; cbn [negb]; [apply andb_false_iff; left; apply Z.leb_gt; lia|].
        apply andb_true_iff. split; apply Z.leb_le; lia. }
      assert (HM : cast_int true 32 (how_many vars) = Z.of_nat (length vars)) by (apply cast_small; unfold how_many; lia).
      destruct (arg_number a =? - 2 ^ 31); cbn [negb] in IO.
      { rewrite (overflow _ _ _ H IO). reflexivity. }
      destruct (arg_closed a).
      2:{ destruct (not_closed _ _ o H IO EQ) as (s & ->). cbn. rewrite app_nil_r. reflexivity. }
      assert (IX : cast_int true 32 (strtol (a ++ "$"%char :: g)) - 1 = arg_number a - 1) by (rewrite SL; reflexivity).
      destruct ((arg_number a - 1 <? 0) || (Z.of_nat (length vars) <=? arg_number a - 1)) eqn:R.
      * rewrite (skipped _ _ _ H IO EQ) by (rewrite IX, HM; exact R). apply IH; [exact NG|lia].
      * assert (I : item_at vars (arg_number a - 1) = Some (nth (Z.to_nat (arg_number a - 1)) vars [])).
        { apply orb_false_iff in R. destruct R as [R1 R2]. apply Z.ltb_ge in R1. apply Z.leb_gt in R2. unfold item_at.
          replace (inside (arg_number a - 1) (length vars)) with true by (unfold inside; destruct (Z.compare_spec 0 (arg_number a - 1)), (Z.compare_spec (arg_number a - 1) (Z.of_nat (length vars))); try lia; reflexivity).
          apply nth_error_nth'. lia. }
        rewrite <- IX in I. assert (R' : (cast_int true 32 (strtol (a ++ "$"%char :: g)) - 1 <? 0) || (cast_int true 32 (how_many vars) <=? cast_int true 32 (strtol (a ++ "$"%char :: g)) - 1) = false) by (rewrite IX, HM; exact R).
        rewrite (inserted _ _ o _ H IO EQ R' I), IX.
        cbn [obind]. rewrite IH by (try exact NG; lia). destruct (print_go vars None g); cbn [printed option_map]; [rewrite app_assoc|]; reflexivity.
    + destruct (no_end r o H) as (s & ->). cbn [obind p_out snd]. cbn [print_go]. change (Ascii.eqb "$" "$") with true. cbv iota.
      rewrite go_open by exact SP. cbn [printed]. rewrite app_nil_r. reflexivity.
  - rewrite other by exact D. cbn [obind].
    assert (NR : ~ In NUL r) by (intros Q; apply N; now right).
    rewrite IH by (try exact NR; lia). cbn [print_go]. rewrite D. cbv iota.
    destruct (Ascii.eqb c "009"), (Ascii.eqb c "008"); destruct (print_go vars None r); cbn [printed option_map]; rewrite <- ?app_assoc; reflexivity.
Qed.
End P.

Lemma three : forall d fmt vars o loops, (length fmt < loops)%nat -> Z.of_nat (length vars) < 2 ^ 31 ->
  call_print the_prints loops (S d) [PO; PP (cstr fmt); PV vars] o = printed (print fmt vars) o.
Proof.
  intros d fmt vars o loops L LV.
  assert (LC : (length (cstr fmt) <= length fmt)%nat) by (clear; induction fmt as [|c r IH]; [constructor|]; cbn [cstr]; destruct (Ascii.eqb c NUL); cbn [length]; lia).
  etransitivity; [|exact (loop_is loops (call_print the_prints loops d) (cstr fmt) vars LV loops (cstr fmt) o (cstr_no_nul fmt) ltac:(lia))].
  match goal with |- _ = obind ?m _ => set (q := m) end.
  assert (E : call_print the_prints loops (S d) [PO; PP (cstr fmt); PV vars] o = obind (obind q (fun p => let '(f, s1) := p in match f with PNext => Out (PNext, s1) | _ => Out (f, s1) end)) (fun p => let '(_, s) := p in Out (p_out s))) by reflexivity.
  rewrite E. destruct q as [[[| |] s]| | | |]; reflexivity.
Qed.
Lemma print_three : forall fmt vars o loops, (length fmt < loops)%nat -> Z.of_nat (length vars) < 2 ^ 31 ->
  source_print printer_cc loops [PO; PP (cstr fmt); PV vars] o = printed (print fmt vars) o.
Proof. intros. unfold source_print. rewrite the_prints_are. apply three; assumption. Qed.
Lemma print_two : forall fmt vars o loops, (length fmt < loops)%nat -> Z.of_nat (length vars) < 2 ^ 31 ->
  source_print printer_cc loops [PP (cstr fmt); PV vars] o = printed (print fmt vars) o.
Proof.
  intros fmt vars o loops L LV. unfold source_print. rewrite the_prints_are. rewrite <- (three 0 fmt vars o loops L LV).
  set (q := call_print the_prints loops 1 [PO; PP (cstr fmt); PV vars] o).
  transitivity (obind q (fun x => Out x)); [|destruct q; reflexivity].
  assert (E : call_print the_prints loops 2 [PP (cstr fmt); PV vars] o
    = obind (obind (obind (obind q (fun x => Out (PNull, PSt [(b "format", PP (cstr fmt)); (b "vars", PV vars); (b "out_", PO)] x)))
        (fun p => let '(_, s) := p in Out (PNext, s))) (fun p => let '(f, s1) := p in match f with PNext => Out (PNext, s1) | _ => Out (f, s1) end)) (fun p => let '(_, s) := p in Out (p_out s))) by reflexivity.
  rewrite E. destruct q; reflexivity.
Qed.
Lemma print_one : forall fmt o loops, source_print printer_cc loops [PP (cstr fmt)] o = Out (o ++ cstr fmt).
Proof. intros. unfold source_print. rewrite the_prints_are. reflexivity. Qed.
