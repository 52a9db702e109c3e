(** Decimal numerals of integers. *)
From Verif Require Import Bytes BaseProofs Num SpecJson.

Lemma code_digit d : 0 <= d <= 9 -> code (digit d) = 48 + d.
Proof. intros. unfold digit. apply code_chr_small. lia. Qed.

Lemma is_digit_digit d : 0 <= d <= 9 -> is_digit (digit d) = true.
Proof. intros. unfold is_digit. rewrite code_digit by assumption. lia. Qed.

Definition dval_from (a : Z) (ds : bytes) : Z := fold_left (fun a c => 10 * a + (code c - 48)) ds a.

Lemma dval_from_app a x y : dval_from a (x ++ y) = dval_from (dval_from a x) y.
Proof. apply fold_left_app. Qed.

Lemma dec_loop_spec f : forall n acc, (1 <= f)%nat -> 0 <= n < 2 ^ Z.of_nat f ->
  exists ds, dec_loop f n acc = ds ++ acc /\ digits_val ds = n /\
    forallb is_digit ds = true /\ (ds = [digit 0] \/ exists d r, ds = digit d :: r /\ 1 <= d <= 9).
Proof.
  induction f as [|f IH]; intros n acc F R; [lia|]. cbn [dec_loop].
  rewrite Nat2Z.inj_succ, Z.pow_succ_r in R by lia.
  destruct (Z.eqb_spec (n / 10) 0) as [E|E].
  - exists [digit (n mod 10)]. split; [reflexivity|].
    assert (n mod 10 = n) as -> by lia.
    split; [|split].
    + unfold digits_val. cbn [fold_left]. rewrite code_digit; lia.
    + cbn [forallb]. rewrite is_digit_digit; [reflexivity|lia].
    + destruct (Z.eq_dec n 0) as [->|N]; [left; reflexivity|]. right.
      eexists n, []. split; [reflexivity|lia].
  - assert (0 < Z.of_nat f) as F0.
    { destruct f; [|lia]. change (2 ^ Z.of_nat 0) with 1 in R. lia. }
    destruct (IH (n / 10) (digit (n mod 10) :: acc)) as (ds & D1 & D2 & D3 & D4); [lia|lia|].
    exists (ds ++ [digit (n mod 10)]). split; [rewrite D1, <- app_assoc; reflexivity|]. split; [|split].
    + unfold digits_val in *. rewrite fold_left_app, D2. cbn [fold_left]. rewrite code_digit; lia.
    + rewrite forallb_app, D3. cbn [forallb]. rewrite is_digit_digit; [reflexivity|lia].
    + right. destruct D4 as [->|(d & r & -> & Rd)].
      * exfalso. unfold digits_val in D2. cbn [fold_left] in D2. rewrite code_digit in D2 by lia. lia.
      * eexists d, _. split; [reflexivity|exact Rd].
Qed.

Lemma dec_nat_spec n : 0 <= n ->
  digits_val (dec_nat n) = n /\ forallb is_digit (dec_nat n) = true /\
  (dec_nat n = [digit 0] \/ exists d r, dec_nat n = digit d :: r /\ 1 <= d <= 9).
Proof.
  intros N. unfold dec_nat.
  destruct (dec_loop_spec (S (Z.to_nat (Z.log2 n))) n []) as (ds & D1 & D2 & D3 & D4); [lia| |].
  - rewrite Nat2Z.inj_succ, Z2Nat.id by apply Z.log2_nonneg.
    destruct (Z.eq_dec n 0) as [->|P]; [simpl; lia|]. pose proof (Z.log2_spec n). lia.
  - rewrite app_nil_r in D1. rewrite D1. auto.
Qed.

Lemma dec_nat_nonempty n : 0 <= n -> dec_nat n <> [].
Proof.
  intros N. destruct (dec_nat_spec n N) as (_ & _ & [->|(d & r & -> & _)]); discriminate.
Qed.

Lemma digit_char_is_digit c : digit_char c = is_digit c.
Proof. reflexivity. Qed.

Lemma dec_nat_int_part n : 0 <= n -> int_part (dec_nat n).
Proof.
  intros N. destruct (dec_nat_spec n N) as (_ & D & [E|(d & r & E & R)]).
  - left. rewrite E. reflexivity.
  - right. exists (digit d), r. rewrite E in D. cbn [forallb] in D. apply andb_prop in D as [D1 D2].
    repeat split; auto. intros X. apply (f_equal code) in X. rewrite code_digit in X by lia.
    change (code "0") with 48 in X. lia.
Qed.

(** The text written for an integer is a JSON number. *)
Lemma dec_json z : json_number (dec z).
Proof.
  unfold dec. destruct (Z.ltb_spec z 0).
  - exists (b "-"), (dec_nat (- z)), [], []. rewrite !app_nil_r. repeat split; auto.
    + apply dec_nat_int_part; lia.
    + now left.
    + now left.
  - exists [], (dec_nat z), [], []. rewrite !app_nil_r. repeat split; auto.
    + apply dec_nat_int_part; lia.
    + now left.
    + now left.
Qed.

(** *** strtol / strtoul on a numeral *)

Lemma digit_facts c : is_digit c = true ->
  is_space c = false /\ Ascii.eqb c "-" = false /\ Ascii.eqb c "+" = false /\ Ascii.eqb c NUL = false.
Proof.
  unfold is_digit, is_space. intros H. rewrite !ascii_eqb_code.
  change (code "-") with 45. change (code "+") with 43. change (code NUL) with 0.
  repeat split; lia.
Qed.

Lemma span_is_digit ds rest : forallb is_digit ds = true -> stops is_digit rest ->
  span is_digit (ds ++ rest) = (ds, rest).
Proof. apply span_exact. Qed.

Definition no_nul (s : bytes) : Prop := ~ In NUL s.

Lemma strto_split_pos ds rest : ds <> [] -> forallb is_digit ds = true -> stops is_digit rest ->
  no_nul (ds ++ rest) -> strto_split (ds ++ rest) = (false, ds, rest).
Proof.
  intros N D S NN. unfold strto_split. rewrite cstr_id by exact NN.
  destruct ds as [|c ds]; [congruence|]. pose proof D as D'. cbn [forallb] in D'.
  apply andb_prop in D' as [D1 D2]. destruct (digit_facts c D1) as (F1 & F2 & F3 & F4).
  cbn [app]. cbn [span]. rewrite F1. cbn [snd]. rewrite F2, F3.
  change (c :: ds ++ rest) with ((c :: ds) ++ rest). now rewrite span_is_digit.
Qed.

Lemma strto_split_neg ds rest : forallb is_digit ds = true -> stops is_digit rest ->
  no_nul (ds ++ rest) -> strto_split ("-"%char :: ds ++ rest) = (true, ds, rest).
Proof.
  intros D S NN. unfold strto_split. rewrite cstr_id.
  2:{ intros [E|E]; [discriminate|]. now apply NN. }
  cbn [span]. change (is_space "-") with false. cbn [snd]. change (Ascii.eqb "-" "-") with true.
  cbv iota. now rewrite span_is_digit.
Qed.

Lemma digits_no_nul ds : forallb is_digit ds = true -> no_nul ds.
Proof.
  intros D I. rewrite forallb_forall in D. apply D in I. discriminate.
Qed.

Lemma dec_split z : strto_split (dec z) = (z <? 0, dec_nat (Z.abs z), []).
Proof.
  unfold dec. destruct (Z.ltb_spec z 0).
  - rewrite <- (app_nil_r (dec_nat (- z))). rewrite Z.abs_neq by lia.
    destruct (dec_nat_spec (- z)) as (_ & D & _); [lia|].
    apply strto_split_neg; auto; [exact I|]. rewrite app_nil_r. now apply digits_no_nul.
  - rewrite <- (app_nil_r (dec_nat z)). rewrite Z.abs_eq by lia.
    destruct (dec_nat_spec z) as (_ & D & _); [lia|].
    apply strto_split_pos; auto; [now apply dec_nat_nonempty|exact I|].
    rewrite app_nil_r. now apply digits_no_nul.
Qed.

Lemma strtol_dec z : LONG_MIN <= z <= LONG_MAX -> strtol (dec z) = z.
Proof.
  intros R. unfold strtol. rewrite dec_split.
  destruct (dec_nat_spec (Z.abs z)) as (D & _); [lia|]. rewrite D.
  destruct (Z.ltb_spec z 0); lia.
Qed.

Lemma strtoul_dec z : 0 <= z <= ULONG_MAX -> strtoul (dec z) = z.
Proof.
  intros R. unfold strtoul. rewrite dec_split.
  destruct (dec_nat_spec (Z.abs z)) as (D & _); [lia|]. rewrite D.
  destruct (Z.ltb_spec z 0); [lia|]. destruct (Z.ltb_spec ULONG_MAX (Z.abs z)); lia.
Qed.

(** Widths used by generated code. *)
Definition width (bits : Z) : Prop := bits = 8 \/ bits = 32 \/ bits = 64.

Lemma cast_int_id sg bits z : width bits -> in_range sg bits z = true -> cast_int sg bits z = z.
Proof.
  intros W R. unfold in_range, cast_int in *.
  destruct sg; apply andb_prop in R as [R1 R2]; apply Z.leb_le in R1; apply Z.ltb_lt in R2.
  - assert (2 ^ bits = 2 * 2 ^ (bits - 1)) as E
      by (rewrite <- Z.pow_succ_r by (destruct W as [->|[->| ->]]; lia); f_equal; lia).
    rewrite E. rewrite Z.mod_small by lia. lia.
  - apply Z.mod_small. lia.
Qed.

Lemma in_range_long bits z : width bits -> in_range true bits z = true -> LONG_MIN <= z <= LONG_MAX.
Proof.
  intros W R. unfold in_range, LONG_MIN, LONG_MAX in *.
  destruct W as [->|[->| ->]]; simpl Z.sub in R;
    match type of R with context [2 ^ ?k] => change (2 ^ k) with ltac:(let x := eval vm_compute in (2 ^ k) in exact x) in R end;
    change (2 ^ 63) with 9223372036854775808; lia.
Qed.

Lemma in_range_ulong bits z : width bits -> in_range false bits z = true -> 0 <= z <= ULONG_MAX.
Proof.
  intros W R. unfold in_range, ULONG_MAX in *.
  destruct W as [->|[->| ->]];
    match type of R with context [2 ^ ?k] => change (2 ^ k) with ltac:(let x := eval vm_compute in (2 ^ k) in exact x) in R end;
    change (2 ^ 64) with 18446744073709551616; lia.
Qed.

Lemma string_to_int_dec sg bits z : width bits -> in_range sg bits z = true ->
  string_to_int sg bits (dec z) = z.
Proof.
  intros W R. unfold string_to_int. destruct sg.
  - rewrite strtol_dec by (eapply in_range_long; eauto). now apply cast_int_id.
  - rewrite strtoul_dec by (eapply in_range_ulong; eauto). now apply cast_int_id.
Qed.

(** *** Any JSON number *)

(** Result of a conversion: the value in range that is congruent modulo 2^bits. *)
Lemma cast_int_spec sg bits z : width bits ->
  in_range sg bits (cast_int sg bits z) = true /\ (cast_int sg bits z - z) mod 2 ^ bits = 0.
Proof.
  intros W. assert (0 < 2 ^ bits) as P by (apply Z.pow_pos_nonneg; destruct W as [->|[->| ->]]; lia).
  unfold in_range, cast_int. destruct sg.
  - assert (2 ^ bits = 2 * 2 ^ (bits - 1)) as E
      by (rewrite <- Z.pow_succ_r by (destruct W as [->|[->| ->]]; lia); f_equal; lia).
    pose proof (Z.mod_pos_bound (z + 2 ^ (bits - 1)) (2 ^ bits) P).
    split; [apply andb_true_intro; split; [apply Z.leb_le|apply Z.ltb_lt]; lia|].
    replace ((z + 2 ^ (bits - 1)) mod 2 ^ bits - 2 ^ (bits - 1) - z)
      with ((z + 2 ^ (bits - 1)) mod 2 ^ bits - (z + 2 ^ (bits - 1))) by lia.
    rewrite Zminus_mod_idemp_l, Z.sub_diag. apply Z.mod_0_l. lia.
  - pose proof (Z.mod_pos_bound z (2 ^ bits) P).
    split; [apply andb_true_intro; split; [apply Z.leb_le|apply Z.ltb_lt]; lia|].
    rewrite Zminus_mod_idemp_l, Z.sub_diag. apply Z.mod_0_l. lia.
Qed.

Lemma frac_exp_stops f e : frac_part f -> exp_part e -> stops is_digit (f ++ e).
Proof.
  intros F E. destruct F as [->|(d & -> & _)]; [|reflexivity]. cbn [app].
  destruct E as [->|(c & s & d & -> & C & _)]; [exact I|]. destruct C as [-> | ->]; reflexivity.
Qed.

Lemma digits_all_digit d : digits1 d -> forallb is_digit d = true.
Proof. intros [_ H]. exact H. Qed.

Lemma int_part_digits i : int_part i -> i <> [] /\ forallb is_digit i = true.
Proof.
  intros [->|(c & r & -> & C & _ & D)]; [split; [discriminate|reflexivity]|].
  split; [discriminate|]. cbn [forallb]. rewrite <- digit_char_is_digit, C. exact D.
Qed.

Lemma no_nul_app x y : no_nul x -> no_nul y -> no_nul (x ++ y).
Proof. intros A B I. apply in_app_or in I as [I|I]; auto. Qed.

Lemma no_nul_cons c y : c <> NUL -> no_nul y -> no_nul (c :: y).
Proof. intros A B [I|I]; auto. Qed.

Lemma frac_exp_no_nul f e : frac_part f -> exp_part e -> no_nul (f ++ e).
Proof.
  intros F E. apply no_nul_app.
  - destruct F as [->|(d & -> & D)]; [intros []|].
    apply no_nul_cons; [discriminate|]. apply digits_no_nul, digits_all_digit, D.
  - destruct E as [->|(c & s & d & -> & C & S & D)]; [intros []|].
    apply no_nul_cons; [destruct C as [-> | ->]; discriminate|]. apply no_nul_app.
    + destruct S as [-> |[-> | ->]]; [intros []|..]; (apply no_nul_cons; [discriminate|intros []]).
    + apply digits_no_nul, digits_all_digit, D.
Qed.

Lemma json_split neg i f e : int_part i -> frac_part f -> exp_part e ->
  strto_split ((if neg : bool then b "-" else []) ++ i ++ f ++ e) = (neg, i, f ++ e).
Proof.
  intros I F E. destruct (int_part_digits i I) as [N D].
  assert (NN : no_nul (i ++ f ++ e)) by (apply no_nul_app; [now apply digits_no_nul|now apply frac_exp_no_nul]).
  destruct neg.
  - change (strto_split ("-"%char :: i ++ (f ++ e)) = (true, i, f ++ e)).
    apply strto_split_neg; auto. now apply frac_exp_stops.
  - cbn [app]. apply (strto_split_pos i (f ++ e)); auto. now apply frac_exp_stops.
Qed.
