From Verif Require DblProofs NameProofs.
From Verif Require Import Bytes Num Dbl Close Types Read Write BaseProofs IntProofs PrinterProofs Cpp CLex CParse CExec HdrText HText HParse HExec HStrProofs HNum SpecHNum.

Lemma funs_double : number_funs PDouble json_number_hh = the_double. Proof. vm_compute. reflexivity. Qed.
Lemma funs_float : number_funs PFloat json_number_hh = the_float. Proof. vm_compute. reflexivity. Qed.
Lemma funs_i32 : number_funs (PInt true 32) json_number_hh = the_i32. Proof. vm_compute. reflexivity. Qed.
Lemma funs_i64 : number_funs (PInt true 64) json_number_hh = the_i64. Proof. vm_compute. reflexivity. Qed.
Lemma funs_u8 : number_funs (PInt false 8) json_number_hh = the_u8. Proof. vm_compute. reflexivity. Qed.
Lemma funs_u32 : number_funs (PInt false 32) json_number_hh = the_u32. Proof. vm_compute. reflexivity. Qed.
Lemma funs_u64 : number_funs (PInt false 64) json_number_hh = the_u64. Proof. vm_compute. reflexivity. Qed.
Lemma funs_names : name_funs protogen_hh = the_names. Proof. vm_compute. reflexivity. Qed.

Ltac texts := unfold text_number, text_name; rewrite ?funs_double, ?funs_float, ?funs_i32, ?funs_i64, ?funs_u8, ?funs_u32, ?funs_u64, ?funs_names.
Ltac kinds H := cbn in H; destruct H as [H|[H|[H|[H|[H|[]]]]]]; injection H as <- <-.
Ltac run := cbv -[strtol strtoul strtod to_float dec fmt_f nextafter dbl_leb dbl_max dopp cast_int Z.eqb binary32 binary64 code chr].

Lemma digits_nonneg : forall ds, forallb is_digit ds = true -> 0 <= digits_val ds.
Proof.
  assert (G : forall ds a, 0 <= a -> forallb is_digit ds = true -> 0 <= fold_left (fun a c => 10 * a + (code c - 48)) ds a).
  { induction ds as [|c ds IH]; intros a A F; [exact A|]. cbn in F. apply andb_prop in F. destruct F as [F1 F2]. cbn [fold_left]. apply IH; [|exact F2].
    unfold is_digit in F1. lia. }
  intros ds. unfold digits_val. apply G. lia.
Qed.
Lemma split_digits : forall s neg ds r, strto_split s = (neg, ds, r) -> 0 <= digits_val ds.
Proof.
  intros s neg ds r E. unfold strto_split in E.
  match type of E with (let '(_, _) := ?x in _) = _ => destruct x as [n t] end.
  pose proof (span_all is_digit t) as F. destruct (span is_digit t) as [u v]. injection E as _ <- _. exact (digits_nonneg _ F).
Qed.
Lemma signed64 : forall z, LONG_MIN <= z <= LONG_MAX -> cast_int true 64 z = z.
Proof.
  intros z R. apply cast_int_id; [right; right; reflexivity|]. unfold in_range. change (2 ^ (64 - 1)) with 9223372036854775808.
  unfold LONG_MIN, LONG_MAX in R. change (2 ^ 63) with 9223372036854775808 in R. apply andb_true_intro. split; [apply Z.leb_le|apply Z.ltb_lt]; lia.
Qed.
Lemma strtol_range : forall s, LONG_MIN <= strtol s <= LONG_MAX.
Proof.
  intros s. unfold strtol. destruct (strto_split s) as [[neg ds] r] eqn:S. pose proof (split_digits _ _ _ _ S). unfold LONG_MIN, LONG_MAX in *. destruct neg; lia.
Qed.
Lemma strtoul_range : forall s, 0 <= strtoul s <= ULONG_MAX.
Proof.
  intros s. unfold strtoul. destruct (strto_split s) as [[neg ds] r] eqn:S. pose proof (split_digits _ _ _ _ S). destruct (ULONG_MAX <? digits_val ds) eqn:E.
  - unfold ULONG_MAX. lia.
  - apply Z.ltb_ge in E. destruct neg; [|lia]. pose proof (Z.mod_pos_bound (- digits_val ds) (2 ^ 64) eq_refl). unfold ULONG_MAX. lia.
Qed.

Lemma to_number : forall p s has_c may_use l, a_number p -> (is_floating p = true -> has_c = true) ->
  text_number p "string_to_number" has_c may_use l [NS s] = Some (as_num p (string_to_prim p s), l).
Proof.
  intros p s has_c may_use l A F. destruct p as [sg bits| | |]; [|rewrite (F eq_refl)..|contradiction]; clear F.
  - pose proof (strtol_range s) as R. pose proof (strtoul_range s) as Q. kinds A; texts; run.
    + reflexivity.
    + rewrite signed64 by exact R. reflexivity.
    + rewrite code_chr. reflexivity.
    + reflexivity.
    + rewrite size_id by (unfold ULONG_MAX in Q; change (2 ^ 64) with 18446744073709551616 in Q; lia). reflexivity.
  - texts. run. reflexivity.
  - texts. run. reflexivity.
Qed.
Lemma to_number_fails : forall p s may_use l, is_floating p = true ->
  text_number p "string_to_number" false may_use l [NS s] = Some (as_num p (pzero p), l).
Proof. intros p s may_use l F. destruct p; try discriminate F; texts; run; reflexivity. Qed.

Lemma equal_text : forall p x y has_c may_use l, a_number p -> pval_ok p x = true -> pval_ok p y = true ->
  text_number p "equal_number" has_c may_use l [as_num p x; as_num p y]
    = Some (NI IInt (if match x, y with
                        | VDbl u, VDbl v => equal_number (if is_single p then binary32 else binary64) u v
                        | _, _ => pval_eqb x y
                        end then 1 else 0), l).
Proof.
  intros p x y has_c may_use l A X Y. destruct p as [sg bits| | |]; [| | |contradiction]; destruct x; try discriminate X; destruct y; try discriminate Y.
  - kinds A; texts; unfold pval_eqb; destruct (z =? z0) eqn:E; run; rewrite E; reflexivity.
  - texts. unfold equal_number. run.
    repeat match goal with |- context [if ?c then _ else _] => destruct c end; reflexivity.
  - texts. unfold equal_number. run.
    repeat match goal with |- context [if ?c then _ else _] => destruct c end; reflexivity.
Qed.

Definition tmp0 : bytes := repeat (chr 0) (Z.to_nat 320).
Lemma printed_f : forall t, ~ In NUL t -> exists l, nprint tmp0 319 t = Some l /\ length l = 320%nat /\ cstr l = firstn 318 t /\ set_nth 319 (chr 0) l = l.
Proof.
  intros t N. unfold nprint. change (length tmp0) with 320%nat. change ((0 <? 319) && (319 <=? Z.of_nat 320)) with true. cbv iota. change (Z.to_nat (319 - 1)) with 318%nat.
  pose proof (firstn_le_length 318 t) as L. assert (F : ~ In NUL (firstn 318 t)) by (intros I; apply N; rewrite <- (firstn_skipn 318 t); apply in_or_app; left; exact I).
  set (u := firstn 318 t) in *. assert (LU : (length u <= 318)%nat) by (unfold u; rewrite firstn_length; lia). clearbody u. clear L N t.
  cbv zeta. eexists. split; [reflexivity|]. rewrite <- app_assoc. cbn [app].
  assert (S1 : skipn (length u + 1) tmp0 = repeat (chr 0) (319 - length u)).
  { unfold tmp0. change (Z.to_nat 320) with 320%nat. replace 320%nat with ((length u + 1) + (319 - length u))%nat at 1 by lia. rewrite repeat_app, skipn_app, repeat_length, Nat.sub_diag.
    rewrite skipn_all2 by (rewrite repeat_length; lia). reflexivity. }
  replace (skipn (length (u ++ [chr 0])) tmp0) with (repeat (chr 0) (319 - length u)) by (rewrite app_length; symmetry; exact S1). split; [|split].
  - rewrite app_length. cbn [length]. rewrite repeat_length. lia.
  - change (chr 0) with NUL. apply cstr_app_nul. exact F.
  - apply set_nth_same. rewrite nth_error_app2 by lia. change (chr 0 :: repeat (chr 0) (319 - length u)) with (repeat (chr 0) (S (319 - length u))).
    apply nth_error_repeat. lia.
Qed.
Lemma digit_not_nul : forall z, 0 <= z < 10 -> digit z <> NUL.
Proof. intros z Z0 E. assert (X : code (digit z) = 0) by (rewrite E; reflexivity). unfold digit in X. rewrite code_chr in X. rewrite Z.mod_small in X; lia. Qed.
Lemma fmt_no_nul : forall d, ~ In NUL (fmt_f d).
Proof.
  intros d I.
  assert (S0 : forall s t, ~ In NUL t -> ~ In NUL (sign_text s ++ t)).
  { intros s t T J. apply in_app_or in J. destruct J as [J|J]; [destruct s; cbn in J; [destruct J as [J|[]]; discriminate J|contradiction]|exact (T J)]. }
  assert (P6 : forall z, ~ In NUL (pad6 z)).
  { intros z J. unfold pad6 in J. cbn [In] in J. repeat destruct J as [J|J]; try contradiction; revert J; apply digit_not_nul; apply Z.mod_pos_bound; lia. }
  unfold fmt_f in I. destruct d as [s|s|s|s m e]; revert I; apply S0.
  1-3: intros J; cbn in J; repeat (destruct J as [J|J]; [discriminate J|]); exact J.
  unfold fixed6. intros J. apply in_app_or in J. destruct J as [J|[J|J]]; [|discriminate J|exact (P6 _ J)].
  pose proof (Z.div_pos _ 1000000 (DblProofs.millionths_nonneg m e) eq_refl) as Q. pose proof (NameProofs.dec_digits _ Q) as D. unfold dec in D.
  replace (millionths m e / 1000000 <? 0) with false in D by (symmetry; apply Z.ltb_ge; exact Q). rewrite Forall_forall in D. specialize (D _ J). change (code NUL) with 0 in D. lia.
Qed.

Section Steps.
  Context (loops : nat) (single has_c may_use : bool) (call : list bytes -> list nval -> option nval).
  Lemma go_on : forall st r s s1, nstep loops single has_c may_use call st s = Some (None, s1) ->
    nbody loops single has_c may_use call (st :: r) s = nbody loops single has_c may_use call r s1.
  Proof. intros st r s s1 E. cbn [nbody]. rewrite E. reflexivity. Qed.
  Lemma go_back : forall st r s v s1, nstep loops single has_c may_use call st s = Some (Some v, s1) ->
    nbody loops single has_c may_use call (st :: r) s = Some (v, s1).
  Proof. intros st r s v s1 E. cbn [nbody]. rewrite E. reflexivity. Qed.
  Notation ev := (neval single has_c may_use call).
  Lemma ev_print : forall x n v s l z k d m, assoc (n_vars s) x = Some (NA l) -> ev n s = Some (NI ISize z, s) -> ev v s = Some (ND k d, s) -> n_loc s = LC ->
    nprint l z (fmt_f d) = Some m ->
    ev (ECall (EName [b "snprintf"]) [EName [x]; n; EStr (b "%f"); v]) s = Some (NI IInt (Z.of_nat (length (fmt_f d))), NSt (update (n_vars s) x (NA m)) LC).
  Proof.
    intros x n v s l z k d m A N V L P. cbn [neval]. change (same (b "snprintf") (b "snprintf") && same (b "%f") (b "%f")) with true. cbv iota.
    rewrite A, N, V, L, P. destruct n; reflexivity.
  Qed.
  Lemma ev_put : forall x i y s t z c u k l, ev y s = Some (NI t z, s) -> ev i s = Some (NI u k, s) -> assoc (n_vars s) x = Some (NA l) -> conv t IChar z = Some c ->
    inside k (length l) = true ->
    ev (ESet (b "=") (EIndex (EName [x]) i) y) s = Some (NI IChar c, NSt (update (n_vars s) x (NA (set_nth (Z.to_nat k) (chr c) l))) (n_loc s)).
  Proof.
    intros x i y s t z c u k l Y I A C K. cbn [neval]. change (same (b "=") (b "=")) with true. cbv iota. rewrite Y, I, A, C, K. reflexivity.
  Qed.
  Lemma ev_minus : forall x y s l k, assoc (n_vars s) x = Some (NA l) -> Z.of_nat (length l) = k + 1 -> 0 <= k < 2 ^ 31 -> y = ENum false 1 ->
    ev (EBin (b "-") (ESizeof [x]) y) s = Some (NI ISize k, s).
  Proof.
    intros x y s l k A L K ->. cbn [neval]. rewrite A, L. change (same (b "-") (b "&&")) with false. cbv iota.
    change (num_val false 1) with (Some (HI IInt 1)). cbv iota beta.
    change (noperation (b "-") (NI ISize (k + 1)) (NI IInt 1)) with (Some (NI ISize (cast_int false 64 (k + 1 - 1)))).
    rewrite size_id by lia. replace (k + 1 - 1) with k by lia. reflexivity.
  Qed.
  Lemma st_ev : forall e v s s1, ev e s = Some (v, s1) -> nstep loops single has_c may_use call (TExpr [e]) s = Some (None, s1).
  Proof. intros e v s s1 E. cbn [nstep]. rewrite E. reflexivity. Qed.
End Steps.
Definition no_call : list bytes -> list nval -> option nval := fun _ _ => None.
Lemma called : forall fs loops single has_c may_use l f args h vs v s w, hfind fs f = Some h -> nbind (hf_params h) args = Some vs ->
  (forall call, nbody loops single has_c may_use call (hf_body h) (NSt vs l) = Some (v, s)) -> ntyped (hf_ret h) v = Some w ->
  ncall fs 1 loops single has_c may_use l f args = Some (w, n_loc s).
Proof. intros fs loops single has_c may_use l f args h vs v s w H B E T. cbn [ncall]. rewrite H, B. cbv zeta. rewrite E, T. reflexivity. Qed.

Definition f_to_text : hfun := Eval vm_compute in match hfind the_double (b "number_to_string") with Some h => h | None => HFun [] [] [] [] end.
Definition f_to_text32 : hfun := Eval vm_compute in match hfind the_float (b "number_to_string") with Some h => h | None => HFun [] [] [] [] end.
Definition vars_tmp (single : bool) (d : dbl) (l : locale) (t : bytes) : list (bytes * nval) :=
  [(b "old", NL l); (b "loc", NL LC); (b "tmp", NA t); (b "value", ND single d)].
Lemma body_f : forall loops single call d l m, l <> LNull -> nprint tmp0 319 (fmt_f d) = Some m -> length m = 320%nat -> set_nth 319 (chr 0) m = m ->
  nbody loops single true true call (hf_body f_to_text) (NSt [(b "value", ND single d)] l) = Some (NA m, NSt (vars_tmp single d l m) l).
Proof.
  intros loops single call d l m N P L S. cbn [hf_body f_to_text].
  erewrite go_on by (vm_compute; reflexivity).
  erewrite go_on by (vm_compute; reflexivity).
  erewrite go_on by (vm_compute; reflexivity).
  erewrite go_on by (destruct l; [vm_compute; reflexivity..|contradiction]).
  erewrite go_on by (destruct l; [vm_compute; reflexivity..|contradiction]).
  erewrite (go_on _ _ _ _ _ _ _ _ (NSt (vars_tmp single d l m) LC)).
  2:{ eapply st_ev. refine (ev_print single true true call (b "tmp") (EBin (b "-") (ESizeof [b "tmp"]) (ENum false 1)) (EName [b "value"])
        (NSt (vars_tmp single d l tmp0) LC) tmp0 319 single d m _ _ _ _ P); [reflexivity| |reflexivity..].
      apply (ev_minus single true true call (b "tmp") _ (NSt (vars_tmp single d l tmp0) LC) tmp0 319); [reflexivity..|lia|reflexivity]. }
  erewrite (go_on _ _ _ _ _ _ _ _ (NSt (vars_tmp single d l m) l)) by (clear P L S; destruct l; [vm_compute; reflexivity..|contradiction]).
  erewrite (go_on _ _ _ _ _ _ _ _ (NSt (vars_tmp single d l (set_nth 319 (chr 0) m)) l)).
  2:{ eapply st_ev. refine (ev_put single true true call (b "tmp") (EBin (b "-") (ESizeof [b "tmp"]) (ENum false 1)) (ENum false 0)
        (NSt (vars_tmp single d l m) l) IInt 0 0 ISize 319 m _ _ _ _ _); [reflexivity| |reflexivity|reflexivity|rewrite L; reflexivity].
      apply (ev_minus single true true call (b "tmp") _ (NSt (vars_tmp single d l m) l) m 319); [reflexivity|rewrite L; reflexivity|lia|reflexivity]. }
  rewrite S. apply go_back. vm_compute; reflexivity.
Qed.
Lemma to_text : forall p v l, a_number p -> pval_ok p v = true -> l <> LNull -> text_number p "number_to_string" true true l [as_num p v] = Some (NS (prim_text v), l).
Proof.
  intros p v l A V N. destruct p as [sg bits| | |]; [| | |contradiction]; destruct v; try discriminate V.
  - kinds A; texts; run; reflexivity.
  - texts. destruct (printed_f (fmt_f d) (fmt_no_nul d)) as (m & P & L & C & S).
    refine (called _ _ _ _ _ _ _ _ f_to_text [(b "value", ND false d)] (NA m) (NSt (vars_tmp false d l m) l) _ _ _ _ _); [vm_compute; reflexivity|reflexivity|intros call; exact (body_f _ _ _ _ _ _ N P L S)|].
    change (Some (NS (cstr m)) = Some (NS (prim_text (VDbl d)))). rewrite C. reflexivity.
  - texts. destruct (printed_f (fmt_f d) (fmt_no_nul d)) as (m & P & L & C & S).
    refine (called _ _ _ _ _ _ _ _ f_to_text32 [(b "value", ND true d)] (NA m) (NSt (vars_tmp true d l m) l) _ _ _ _ _); [vm_compute; reflexivity|reflexivity|intros call; exact (body_f _ _ _ _ _ _ N P L S)|].
    change (Some (NS (cstr m)) = Some (NS (prim_text (VDbl d)))). rewrite C. reflexivity.
Qed.
Lemma to_text_fails : forall p v has_c l, is_floating p = true -> pval_ok p v = true -> text_number p "number_to_string" has_c false l [as_num p v] = Some (NS (b "0"), l) /\
  (l <> LNull -> text_number p "number_to_string" false true l [as_num p v] = Some (NS (b "0"), l)).
Proof.
  intros p v has_c l F V. destruct p; try discriminate F; destruct v; try discriminate V; split; [destruct has_c|intros N|destruct has_c|intros N]; texts; vm_compute; reflexivity.
Qed.

(** rol, reveal *)
Lemma rol_text : forall k, 0 <= k < 8 -> forall n loops, ncall the_names (S n) loops false true true LOwn (b "rol") [NI IUInt 147; NI ISize k] = Some (NI IU8 (rol8 147 k), LOwn).
Proof.
  intros k K n loops. assert (k = 0 \/ k = 1 \/ k = 2 \/ k = 3 \/ k = 4 \/ k = 5 \/ k = 6 \/ k = 7) as D by lia.
  destruct D as [ -> | [ -> | [ -> | [ -> | [ -> | [ -> | [ -> | -> ]]]]]]]; vm_compute; reflexivity.
Qed.
Definition f_reveal : hfun := Eval vm_compute in match hfind the_names (b "reveal") with Some h => h | None => HFun [] [] [] [] end.
