(** The printer (C38). *)
From Coq Require Import Lia.
From Verif Require Import Bytes BaseProofs SpecJson SpecNum IntProofs Num Printer SpecPrint.

Lemma space_spec c : is_space c = true <-> space_char c.
Proof.
  unfold is_space, space_char. rewrite orb_true_iff, andb_true_iff, Z.eqb_eq, !Z.leb_le. tauto.
Qed.

Lemma forallb_spaces sp : forallb is_space sp = true <-> Forall space_char sp.
Proof. rewrite forallb_forall, Forall_forall. split; intros H x X; now apply space_spec, H. Qed.

Lemma forallb_digits ds : forallb is_digit ds = true <-> Forall (fun c => digit_char c = true) ds.
Proof. rewrite forallb_forall, Forall_forall. split; intros H x X; [rewrite digit_char_is_digit|rewrite <- digit_char_is_digit]; auto. Qed.

Lemma wide_strtol neg ds rest text : strto_split text = (neg, ds, rest) -> strtol text = wide true neg (dval ds).
Proof. intros E. unfold strtol. rewrite E. reflexivity. Qed.

Lemma arg_number_wrap a : arg_number a = wrap32 (strtol a).
Proof. reflexivity. Qed.

(** Splitting a NUL-free text. *)
Lemma split_parts a neg ds rest : ~ In NUL a -> strto_split a = (neg, ds, rest) ->
  exists sp sign, a = sp ++ sign ++ ds ++ rest /\ Forall space_char sp /\
    ((neg = true /\ sign = b "-") \/ (neg = false /\ (sign = [] \/ sign = b "+"))) /\ forallb is_digit ds = true.
Proof.
  intros N. unfold strto_split. rewrite (cstr_id a N).
  destruct (span is_space a) as [sp t1] eqn:S1. cbn [snd].
  pose proof (span_app is_space a) as A1. pose proof (span_all is_space a) as A2. rewrite S1 in A1, A2. cbn [fst snd] in A1, A2.
  apply forallb_spaces in A2.
  assert (K : forall t2, let '(d, r) := span is_digit t2 in t2 = d ++ r /\ forallb is_digit d = true).
  { intros t2. destruct (span is_digit t2) as [d r] eqn:S2.
    pose proof (span_app is_digit t2) as B1. pose proof (span_all is_digit t2) as B2. rewrite S2 in B1, B2. cbn [fst snd] in B1, B2.
    now split. }
  destruct t1 as [|c r].
  - specialize (K []). cbn [span] in *. intros H. injection H as <- <- <-. exists sp, []. rewrite app_nil_r in A1.
    rewrite !app_nil_r. repeat split; auto.
  - destruct (Ascii.eqb_spec c "-") as [-> |].
    + specialize (K r). destruct (span is_digit r) as [d r'] eqn:S2. intros H. injection H as <- <- <-. destruct K as [K1 K2].
      exists sp, (b "-"). split; [subst r; now rewrite <- A1|]. repeat split; auto.
    + destruct (Ascii.eqb_spec c "+") as [-> |].
      * specialize (K r). destruct (span is_digit r) as [d r'] eqn:S2. intros H. injection H as <- <- <-. destruct K as [K1 K2].
        exists sp, (b "+"). split; [subst r; now rewrite <- A1|]. repeat split; auto.
      * specialize (K (c :: r)). destruct (span is_digit (c :: r)) as [d r'] eqn:S2. intros H. injection H as <- <- <-. destruct K as [K1 K2].
        exists sp, []. cbn [app]. split; [rewrite <- K1; now rewrite <- A1|]. repeat split; auto.
Qed.

Lemma reference_no_nul r z : reference r z -> ~ In NUL r.
Proof.
  intros [|sp neg sign ds S G N D]; [intros []|]. intros H. apply in_app_or in H as [H|H].
  - rewrite Forall_forall in S. apply S in H. unfold space_char in H. change (code NUL) with 0 in H. lia.
  - apply in_app_or in H as [H|H].
    + destruct G as [[_ ->]|[_ [-> | ->]]]; vm_compute in H; intuition discriminate.
    + rewrite Forall_forall in D. apply D in H. discriminate.
Qed.

Lemma reference_no_dollar r z : reference r z -> ~ In "$"%char r.
Proof.
  intros [|sp neg sign ds S G N D]; [intros []|]. intros H. apply in_app_or in H as [H|H].
  - rewrite Forall_forall in S. apply S in H. unfold space_char in H. change (code "$") with 36 in H. lia.
  - apply in_app_or in H as [H|H].
    + destruct G as [[_ ->]|[_ [-> | ->]]]; vm_compute in H; intuition discriminate.
    + rewrite Forall_forall in D. apply D in H. discriminate.
Qed.

(** A reference is split into its parts. *)
Lemma reference_split sp (neg : bool) sign ds : Forall space_char sp ->
  (neg = true /\ sign = b "-") \/ (neg = false /\ (sign = [] \/ sign = b "+")) -> ds <> [] -> forallb is_digit ds = true ->
  strto_split (sp ++ sign ++ ds) = (neg, ds, []).
Proof.
  intros S G N D.
  assert (NN : ~ In NUL (sp ++ sign ++ ds)).
  { eapply reference_no_nul, (ref_num sp neg); auto. now apply forallb_digits. }
  unfold strto_split. rewrite (cstr_id _ NN).
  assert (ST : stops is_space (sign ++ ds)).
  { destruct G as [[_ ->]|[_ [-> | ->]]]; try reflexivity. destruct ds as [|c ds]; [contradiction|]. cbn [app].
    cbn [forallb] in D. apply andb_true_iff in D as [D _]. unfold stops. unfold is_digit in D. apply andb_true_iff in D.
    rewrite !Z.leb_le in D. unfold is_space. apply orb_false_iff. rewrite Z.eqb_neq, andb_false_iff, !Z.leb_gt. lia. }
  rewrite (span_exact is_space sp (sign ++ ds)); [|now apply forallb_spaces|exact ST]. cbn [snd].
  pose proof (span_exact is_digit ds [] D) as SD. rewrite app_nil_r in SD. specialize (SD Logic.I).
  destruct G as [[-> ->]|[-> [-> | ->]]].
  - change (b "-" ++ ds) with ("-"%char :: ds). cbv [Ascii.eqb Bool.eqb]. now rewrite SD.
  - cbn [app]. destruct ds as [|c ds]; [contradiction|]. pose proof D as D'. cbn [forallb] in D'. apply andb_true_iff in D' as [D' _].
    destruct (Ascii.eqb_spec c "-") as [-> |]; [discriminate|]. destruct (Ascii.eqb_spec c "+") as [-> |]; [discriminate|]. now rewrite SD.
  - change (b "+" ++ ds) with ("+"%char :: ds). cbv [Ascii.eqb Bool.eqb]. now rewrite SD.
Qed.

Lemma reference_number r z : reference r z -> arg_closed r = true /\ arg_number r = z.
Proof.
  intros [|sp neg sign ds S G N D]; [split; reflexivity|]. apply forallb_digits in D.
  pose proof (reference_split sp neg sign ds S G N D) as E. split.
  - unfold arg_closed. rewrite E. destruct ds; [contradiction|reflexivity].
  - rewrite arg_number_wrap. f_equal. eapply wide_strtol, E.
Qed.

Lemma number_reference r : ~ In NUL r -> arg_closed r = true -> reference r (arg_number r).
Proof.
  intros N C. unfold arg_closed in C. destruct (strto_split r) as [[neg ds] rest] eqn:E.
  destruct (split_parts r neg ds rest N E) as (sp & sign & E1 & S & G & D).
  destruct ds as [|c ds].
  - destruct r; [apply ref_none|discriminate].
  - destruct rest; [|discriminate]. rewrite app_nil_r in E1. rewrite arg_number_wrap, (wide_strtol _ _ _ _ E). rewrite E1.
    apply ref_num; auto; [discriminate|now apply forallb_digits].
Qed.

Lemma go_collect vars acc a f : ~ In "$"%char a -> print_go vars (Some acc) (a ++ f) = print_go vars (Some (rev a ++ acc)) f.
Proof.
  revert acc. induction a as [|c a IH]; intros acc H; [reflexivity|]. cbn [app print_go].
  destruct (Ascii.eqb_spec c "$") as [-> |]; [destruct H; now left|]. rewrite IH by (intros X; apply H; now right).
  cbn [rev]. now rewrite <- app_assoc.
Qed.

Lemma go_open vars acc a : ~ In "$"%char a -> print_go vars (Some acc) a = Some [].
Proof. intros H. rewrite <- (app_nil_r a), go_collect by exact H. reflexivity. Qed.

Lemma dollar_split (l : bytes) : ~ In "$"%char l \/ exists u v, l = u ++ "$"%char :: v /\ ~ In "$"%char u.
Proof.
  induction l as [|c l IH]; [left; intros []|]. destruct (ascii_dec c "$") as [-> |N].
  - right. exists [], l. split; [reflexivity|intros []].
  - destruct IH as [H|(u & v & -> & H)].
    + left. intros [X|X]; [now apply N|auto].
    + right. exists (c :: u), v. split; [reflexivity|]. intros [X|X]; [now apply N|auto].
Qed.

Lemma code_eqb c d : Ascii.eqb c d = true <-> code c = code d.
Proof. rewrite ascii_eqb_code. apply Z.eqb_eq. Qed.
Lemma code_eqbf c d : Ascii.eqb c d = false <-> code c <> code d.
Proof. rewrite ascii_eqb_code. apply Z.eqb_neq. Qed.


(** The value of a text is the value of a reference it starts with. *)
Lemma number_prefix r : ~ In NUL r -> (exists u v, r = u ++ v /\ reference u (arg_number r)) \/ arg_number r = 0.
Proof.
  intros N. destruct (strto_split r) as [[neg ds] rest] eqn:E.
  destruct (split_parts r neg ds rest N E) as (sp & sign & E1 & S & G & D).
  rewrite arg_number_wrap, (wide_strtol _ _ _ _ E). destruct ds as [|c ds].
  - right. destruct neg; reflexivity.
  - left. exists (sp ++ sign ++ c :: ds), rest. split; [now rewrite E1, <- !app_assoc|].
    apply ref_num; auto; [discriminate|now apply forallb_digits].
Qed.

Lemma overflows_app u f : overflows f -> overflows (u ++ f).
Proof. intros (p & r & v & -> & R). exists (u ++ p), r, v. split; [now rewrite app_assoc|exact R]. Qed.

Lemma no_overflow r v : ~ In NUL r -> ~ overflows (b "$" ++ r ++ v) -> (arg_number r =? - 2 ^ 31) = false.
Proof.
  intros N O. apply Z.eqb_neq. intros E. destruct (number_prefix r N) as [(u & w & E1 & R)|Z]; [|rewrite Z in E; discriminate].
  apply O. exists [], u, (w ++ v). split; [|now rewrite <- E]. subst r. cbn [app]. now rewrite <- app_assoc.
Qed.

(** One step at a '$' with partner. *)
Lemma go_reference vars r g : ~ In "$"%char r -> print_go vars None (b "$" ++ r ++ b "$" ++ g) =
  if arg_number r =? - 2 ^ 31 then None
  else if arg_closed r then
    if (arg_number r - 1 <? 0) || (Z.of_nat (length vars) <=? arg_number r - 1) then print_go vars None g
    else option_map (app (nth (Z.to_nat (arg_number r - 1)) vars [])) (print_go vars None g)
  else Some [].
Proof.
  intros H. change (b "$" ++ r ++ b "$" ++ g) with ("$"%char :: r ++ "$"%char :: g). cbn [print_go].
  change (Ascii.eqb "$" "$") with true. cbv iota. rewrite go_collect, app_nil_r by exact H. cbn [print_go].
  change (Ascii.eqb "$" "$") with true. cbv iota. now rewrite rev_involutive.
Qed.

Lemma nul_app (u v : bytes) : ~ In NUL (u ++ v) -> ~ In NUL u /\ ~ In NUL v.
Proof. intros H. split; intros X; apply H, in_or_app; auto. Qed.

Lemma ref_parts r f : ~ In NUL (b "$" ++ r ++ b "$" ++ f) -> ~ overflows (b "$" ++ r ++ b "$" ++ f) ->
  (arg_number r =? - 2 ^ 31) = false /\ ~ In NUL r /\ ~ In NUL f /\ ~ overflows f.
Proof.
  intros N O. apply nul_app in N as [_ N]. apply nul_app in N as [N1 N]. apply nul_app in N as [_ N2].
  split; [eapply no_overflow; eauto|]. split; [exact N1|]. split; [exact N2|].
  intros H. apply O. do 3 apply overflows_app. exact H.
Qed.

Lemma go_sound vars f o : prints vars f o -> ~ In NUL f -> ~ overflows f -> print_go vars None f = Some o.
Proof.
  assert (T : forall c g, ~ In NUL (c :: g) -> ~ overflows (c :: g) -> ~ In NUL g /\ ~ overflows g).
  { intros c g N O. split; [intros H; apply N; now right|]. intros H. apply O. now apply (overflows_app [c]). }
  induction 1 as [|c f o A B D _ IH|c f o A _ IH|c f o A _ IH|r k arg f o R E _ IH|r z f o R Z _ IH|r N0|r f N0 R]; intros N O; [reflexivity| | | | | | |].
  - destruct (T _ _ N O). cbn [print_go]. rewrite (proj2 (code_eqbf c "$") A), (proj2 (code_eqbf c "009") B), (proj2 (code_eqbf c "008") D), IH by assumption. reflexivity.
  - destruct (T _ _ N O). cbn [print_go]. assert (c = "009"%char) as -> by (now apply code_inj). cbn [Ascii.eqb Bool.eqb]. now rewrite IH.
  - destruct (T _ _ N O). cbn [print_go]. assert (c = "008"%char) as -> by (now apply code_inj). cbn [Ascii.eqb Bool.eqb]. now rewrite IH.
  - destruct (ref_parts _ _ N O) as (X & _ & N2 & O2). rewrite go_reference by (eapply reference_no_dollar, R).
    destruct (reference_number _ _ R) as [R1 R2]. rewrite X, R1, R2.
    assert (K : (k < length vars)%nat) by (apply nth_error_Some; congruence).
    assert (Y : ((Z.of_nat (S k) - 1 <? 0) || (Z.of_nat (length vars) <=? Z.of_nat (S k) - 1)) = false).
    { apply orb_false_iff. rewrite Z.ltb_ge, Z.leb_gt. lia. }
    rewrite Y, IH by assumption. cbn [option_map]. replace (Z.to_nat (Z.of_nat (S k) - 1)) with k by lia. now rewrite (nth_error_nth _ _ _ E).
  - destruct (ref_parts _ _ N O) as (X & _ & N2 & O2). rewrite go_reference by (eapply reference_no_dollar, R).
    destruct (reference_number _ _ R) as [R1 R2]. rewrite X, R1, R2.
    assert (Y : ((z - 1 <? 0) || (Z.of_nat (length vars) <=? z - 1)) = true).
    { apply orb_true_iff. rewrite Z.ltb_lt, Z.leb_le. lia. }
    rewrite Y. now apply IH.
  - change (b "$" ++ r) with ("$"%char :: r). cbn [print_go]. change (Ascii.eqb "$" "$") with true. cbv iota. now apply go_open.
  - destruct (ref_parts _ _ N O) as (X & N1 & _ & _). rewrite go_reference, X by exact N0.
    destruct (arg_closed r) eqn:AC; [|reflexivity]. destruct (R _ (number_reference r N1 AC)).
Qed.

Lemma go_total vars n : forall f, (length f < n)%nat -> ~ In NUL f -> ~ overflows f -> exists o, prints vars f o.
Proof.
  induction n as [|n IH]; intros f L N O; [lia|]. destruct f as [|c f]; [exists []; constructor|].
  assert (T : ~ In NUL f /\ ~ overflows f).
  { split; [intros H; apply N; now right|]. intros H. apply O. now apply (overflows_app [c]). }
  cbn [length] in L. destruct (Z.eq_dec (code c) 36) as [D|D].
  - assert (c = "$"%char) as -> by (now apply code_inj). destruct (dollar_split f) as [H|(r & g & -> & H)].
    + exists []. apply (pr_open vars f H).
    + change ("$"%char :: r ++ "$"%char :: g) with (b "$" ++ r ++ b "$" ++ g) in *. destruct (ref_parts _ _ N O) as (X & N1 & N2 & O2).
      destruct (IH g) as [o P]; auto. { rewrite app_length in L. cbn [length] in L. lia. }
      destruct (arg_closed r) eqn:AC.
      * pose proof (number_reference r N1 AC) as R. destruct (Z_lt_le_dec (arg_number r - 1) 0) as [C|C]; [exists o; eapply pr_skip; eauto; lia|].
        destruct (Z_lt_le_dec (Z.of_nat (length vars)) (arg_number r)) as [C2|C2]; [exists o; eapply pr_skip; eauto|].
        destruct (nth_error vars (Z.to_nat (arg_number r - 1))) as [a|] eqn:E.
        -- exists (a ++ o). eapply pr_arg; eauto. now replace (Z.of_nat (S (Z.to_nat (arg_number r - 1)))) with (arg_number r) by lia.
        -- apply nth_error_None in E. lia.
      * exists []. apply pr_bad; [exact H|]. intros z R. destruct (reference_number _ _ R). congruence.
  - destruct T as [N2 O2]. destruct (IH f) as [o P]; auto; [lia|]. destruct (Z.eq_dec (code c) 9) as [E|E]; [exists (b "    " ++ o); now apply pr_tab|].
    destruct (Z.eq_dec (code c) 8) as [E2|E2]; [exists o; now apply pr_back|]. exists (c :: o). now apply pr_char.
Qed.

Lemma print_exact vars f o : ~ In NUL f -> ~ overflows f -> print f vars = Some o <-> prints vars f o.
Proof.
  intros N O. unfold print. rewrite (cstr_id f N). split; [|intros; now apply go_sound].
  intros H. destruct (go_total vars (S (length f)) f) as [o' P]; auto. rewrite (go_sound _ _ _ P N O) in H. now injection H as <-.
Qed.

Lemma cstr_app_nul u v : ~ In NUL u -> cstr (u ++ NUL :: v) = u.
Proof.
  induction u as [|c u IH]; intros H; [reflexivity|]. cbn [app cstr]. destruct (Ascii.eqb_spec c NUL) as [-> |]; [destruct H; now left|].
  f_equal. apply IH. intros X. apply H. now right.
Qed.

Lemma print_nul vars u v : ~ In NUL u -> print (u ++ NUL :: v) vars = print u vars.
Proof. intros H. unfold print. now rewrite cstr_app_nul, cstr_id. Qed.

(** The usual formats. *)
Lemma numeral_reference k : (0 < k)%nat -> Z.of_nat k < 2 ^ 31 -> reference (dec (Z.of_nat k)) (Z.of_nat k).
Proof.
  intros K H. unfold dec. rewrite (proj2 (Z.ltb_ge (Z.of_nat k) 0)) by lia.
  destruct (dec_nat_spec (Z.of_nat k)) as (D1 & D2 & D3); [lia|].
  assert (R : reference ([] ++ [] ++ dec_nat (Z.of_nat k)) (wrap32 (wide true false (dval (dec_nat (Z.of_nat k)))))).
  { apply ref_num; auto; [|now apply forallb_digits]. apply dec_nat_nonempty. lia. }
  cbn [app] in R. replace (wrap32 (wide true false (dval (dec_nat (Z.of_nat k))))) with (Z.of_nat k) in R; [exact R|].
  change (dval (dec_nat (Z.of_nat k))) with (digits_val (dec_nat (Z.of_nat k))). rewrite D1.
  unfold wide, wrap32. rewrite Z.min_r by lia. rewrite Z.mod_small; lia.
Qed.

Lemma text_prints vars s f o : ~ In "$"%char s -> prints vars f o -> prints vars (s ++ f) (concat (map char_out s) ++ o).
Proof.
  intros H P. induction s as [|c s IH]; [exact P|]. specialize (IH (fun X => H (or_intror X))). cbn [app map concat]. unfold char_out at 1.
  assert (C : code c <> 36) by (intros E; apply H; left; now apply code_inj).
  destruct (Z.eqb_spec (code c) 9) as [E|E]; [rewrite <- app_assoc; now apply pr_tab|].
  destruct (Z.eqb_spec (code c) 8) as [E2|E2]; [now apply pr_back|]. now apply pr_char.
Qed.

Lemma format_prints vars l : Z.of_nat (length vars) < 2 ^ 31 -> Forall (piece_ok (length vars)) l -> prints vars (format_text l) (format_out vars l).
Proof.
  intros L. induction 1 as [|p l H _ IH]; [constructor|]. unfold format_text, format_out in *. cbn [map concat]. destruct p as [s|k]; cbn [piece_text piece_out piece_ok] in *.
  - apply text_prints; tauto.
  - rewrite <- !app_assoc. destruct (nth_error vars (k - 1)) as [a|] eqn:E; [|apply nth_error_None in E; lia].
    rewrite (nth_error_nth _ _ _ E). apply (pr_arg vars _ (k - 1) a); auto.
    replace (S (k - 1)) with k by lia. apply numeral_reference; lia.
Qed.

Lemma format_no_nul n l : Forall (piece_ok n) l -> ~ In NUL (format_text l).
Proof.
  induction 1 as [|p l H _ IH]; [intros []|]. unfold format_text in *. cbn [map concat]. intros X. apply in_app_iff in X as [X|X]; [|exact (IH X)].
  destruct p as [s|k]; cbn [piece_text piece_ok] in *; [tauto|]. apply in_app_iff in X as [X|X]; [vm_compute in X; destruct X as [X|[]]; discriminate X|].
  apply in_app_iff in X as [X|X]; [|vm_compute in X; destruct X as [X|[]]; discriminate X].
  unfold dec in X. rewrite (proj2 (Z.ltb_ge (Z.of_nat k) 0)) in X by lia. destruct (dec_nat_spec (Z.of_nat k)) as (_ & D & _); [lia|].
  rewrite forallb_forall in D. specialize (D _ X). discriminate D.
Qed.

(** The printer of such a format, whatever is in the arguments. *)
Lemma print_go_pieces vars l : Z.of_nat (length vars) < 2 ^ 31 -> Forall (piece_ok (length vars)) l ->
  print_go vars None (format_text l) = Some (format_out vars l).
Proof.
  intros L. induction 1 as [|p l H _ IH]; [reflexivity|]. unfold format_text, format_out in *. cbn [map concat]. destruct p as [s|k]; cbn [piece_text piece_out piece_ok] in *.
  - destruct H as [_ H]. induction s as [|c s IHs]; [exact IH|]. specialize (IHs (fun X => H (or_intror X))). cbn [app map concat print_go].
    destruct (Ascii.eqb_spec c "$") as [-> |N]; [destruct H; now left|]. unfold char_out at 1.
    destruct (Ascii.eqb_spec c "009") as [-> |N1]; [rewrite IHs; reflexivity|].
    destruct (Ascii.eqb_spec c "008") as [-> |N2]; [rewrite IHs; reflexivity|]. rewrite IHs.
    destruct (Z.eqb_spec (code c) 9) as [E|E]; [destruct N1; now apply code_inj|].
    destruct (Z.eqb_spec (code c) 8) as [E2|E2]; [destruct N2; now apply code_inj|]. reflexivity.
  - rewrite <- !app_assoc. pose proof (numeral_reference k ltac:(lia) ltac:(lia)) as R. rewrite go_reference by (eapply reference_no_dollar; eauto).
    destruct (reference_number _ _ R) as [A B]. rewrite A, B.
    rewrite (proj2 (Z.eqb_neq (Z.of_nat k) (- 2 ^ 31))) by lia. rewrite (proj2 (Z.ltb_ge (Z.of_nat k - 1) 0)) by lia.
    rewrite (proj2 (Z.leb_gt (Z.of_nat (length vars)) (Z.of_nat k - 1))) by lia. cbn [orb].
    replace (Z.to_nat (Z.of_nat k - 1)) with (k - 1)%nat by lia. rewrite IH. reflexivity.
Qed.

Lemma print_pieces vars l : Z.of_nat (length vars) < 2 ^ 31 -> Forall (piece_ok (length vars)) l ->
  print (format_text l) vars = Some (format_out vars l).
Proof. intros L H. unfold print. rewrite cstr_id by (eapply format_no_nul; eauto). now apply print_go_pieces. Qed.

Lemma print_lone vars s r : ~ In NUL s -> ~ In "$"%char s -> ~ In NUL r -> ~ In "$"%char r ->
  print (s ++ b "$" ++ r) vars = print s vars.
Proof.
  intros N1 H1 N2 H2. unfold print. rewrite !cstr_id; auto.
  - induction s as [|c s IH]; [cbn [app]; change (b "$" ++ r) with ("$"%char :: r); cbn [print_go]; change (Ascii.eqb "$" "$") with true; cbv iota; now rewrite go_open|].
    specialize (IH (fun X => N1 (or_intror X)) (fun X => H1 (or_intror X))). cbn [app print_go].
    destruct (Ascii.eqb_spec c "$") as [-> |N]; [destruct H1; now left|]. now rewrite IH.
  - intros X. apply in_app_iff in X as [X|X]; [auto|]. apply in_app_iff in X as [X|X]; [vm_compute in X; destruct X as [X|[]]; discriminate X|auto].
Qed.

(** A check for concrete formats. *)
Definition overflow_free (f : bytes) : bool :=
  forallb (fun i => forallb (fun j => negb (arg_number (firstn j (skipn i f)) =? - 2 ^ 31)) (seq 0 (S (length f)))) (seq 0 (S (length f))).

Lemma overflow_free_ok f : overflow_free f = true -> ~ overflows f.
Proof.
  intros H (u & r & v & E & R). unfold overflow_free in H. rewrite forallb_forall in H.
  assert (L : length f = (length u + S (length r + length v))%nat) by (rewrite E, !app_length; reflexivity).
  specialize (H (length u + 1)%nat). rewrite in_seq in H. specialize (H ltac:(lia)). rewrite forallb_forall in H. specialize (H (length r)).
  rewrite in_seq in H. specialize (H ltac:(lia)).
  replace (skipn (length u + 1) f) with (r ++ v) in H.
  - rewrite firstn_app, firstn_all, Nat.sub_diag, firstn_O, app_nil_r in H. destruct (reference_number _ _ R) as [_ B]. rewrite B in H. discriminate H.
  - rewrite E. rewrite skipn_app, skipn_all2 by lia. replace (length u + 1 - length u)%nat with 1%nat by lia. reflexivity.
Qed.
