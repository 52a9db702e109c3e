(** The evaluation of literals is that of the standard. *)
From Coq Require Import Lia.
From Verif Require Import Bytes BaseProofs SpecJson Cpp SpecLiteral.

(** ** Trigraphs *)
Lemma trigraph_iff c d : trigraph c = Some d <-> In (c, d) trigraph_table.
Proof.
  unfold trigraph. split.
  - repeat match goal with |- (if Ascii.eqb ?x ?y then _ else _) = _ -> _ => destruct (Ascii.eqb_spec x y) as [-> |]; [intros H; injection H as <-; vm_compute; tauto|] end. discriminate.
  - intros I. vm_compute in I. repeat (destruct I as [I|I]; [injection I as <- <-; reflexivity|]). destruct I.
Qed.

Lemma untri_trigraphs s : forall q, (q <= 2)%nat -> untri (repeat "?"%char q ++ s) (trigraphs q s).
Proof.
  assert (P : forall q, (q <= 2)%nat -> untri (repeat "?"%char q) (repeat "?"%char q)).
  { intros [|[|[|q]]] Q; try lia; cbn [repeat]; repeat (apply ut_char; [intros x d r' E; discriminate E|]); constructor. }
  induction s as [|c s IH]; intros q Q; cbn [trigraphs].
  - rewrite app_nil_r. now apply P.
  - destruct (Ascii.eqb_spec c "?") as [-> |N].
    + destruct q as [|[|[|q]]]; try lia.
      * exact (IH 1%nat ltac:(lia)).
      * exact (IH 2%nat ltac:(lia)).
      * cbn [repeat app]. apply ut_char; [|exact (IH 2%nat ltac:(lia))].
        intros x d r' E I. injection E as <- _. apply trigraph_iff in I. discriminate I.
    + destruct (trigraph c) as [d|] eqn:T.
      * destruct q as [|[|[|q]]]; try lia; cbn [repeat app].
        -- apply ut_char; [|exact (IH O ltac:(lia))]. intros x e r' E. injection E as -> _. contradiction.
        -- apply ut_char; [|apply ut_char; [|exact (IH O ltac:(lia))]].
           ++ intros x e r' E. injection E as -> _. contradiction.
           ++ intros x e r' E. injection E as -> _. contradiction.
        -- apply (ut_tri c d); [now apply trigraph_iff|exact (IH O ltac:(lia))].
      * assert (X : untri (repeat "?"%char q ++ c :: s) (repeat "?"%char q ++ c :: trigraphs 0 s)).
        { assert (Y : untri (c :: s) (c :: trigraphs 0 s)) by (apply ut_char; [intros x e r' E; injection E as -> _; contradiction|exact (IH O ltac:(lia))]).
          destruct q as [|[|[|q]]]; try lia; cbn [repeat app]; [exact Y| |].
          - apply ut_char; [|exact Y]. intros x e r' E. injection E as -> _. contradiction.
          - apply ut_char; [|apply ut_char; [|exact Y]].
            + intros x e r' E. injection E as -> _. intros I. apply trigraph_iff in I. congruence.
            + intros x e r' E. injection E as -> _. contradiction. }
        destruct q as [|[|[|q]]]; try lia; exact X.
Qed.

Lemma untri_fun s t : untri s t -> forall t', untri s t' -> t' = t.
Proof.
  induction 1 as [|c d r t I H IH|c r t N H IH]; intros t' H'; inversion H'; subst; try reflexivity.
  - match goal with X : In (c, _) trigraph_table |- _ => apply trigraph_iff in X; apply trigraph_iff in I; rewrite X in I; injection I as -> end. f_equal. now apply IH.
  - exfalso. match goal with X : forall x d r', _ -> ~ _ |- _ => exact (X _ _ _ eq_refl I) end.
  - exfalso. match goal with X : In (?c0, ?d0) trigraph_table |- _ => exact (N c0 d0 _ eq_refl X) end.
  - f_equal. now apply IH.
Qed.

Lemma untri_iff s t : untri s t <-> t = trigraphs 0 s.
Proof.
  pose proof (untri_trigraphs s O ltac:(lia)) as H. cbn [repeat app] in H. split; [intros X; exact (untri_fun _ _ H _ X)|intros ->; exact H].
Qed.

(** ** Digits *)
Lemma table_cases {A} (f : ascii -> option A) (t : list (ascii * A)) :
  (forall c d, f c = Some d -> In (c, d) t) -> forallb (fun x => match f (fst x) with Some _ => true | None => false end) t = true ->
  (forall x, In x t -> f (fst x) = Some (snd x)) -> forall c d, f c = Some d <-> In (c, d) t.
Proof. intros H _ G c d. split; [apply H|]. intros I. exact (G _ I). Qed.

Lemma code_inj c d : code c = code d -> c = d.
Proof. intros E. rewrite <- (chr_code c), <- (chr_code d). now rewrite E. Qed.

Lemma octal_iff c d : oct_digit c = Some d <-> In (c, d) octal_table.
Proof.
  split.
  - intros H. rewrite <- (chr_code c). revert H. unfold oct_digit. cbv zeta. destruct ((48 <=? code c) && (code c <=? 55)) eqn:E; [|discriminate]. intros H. injection H as <-.
    assert (X : exists n, (n < 8)%nat /\ code c = 48 + Z.of_nat n) by (exists (Z.to_nat (code c - 48)); lia). destruct X as (n & N & X).
    rewrite X. replace (48 + Z.of_nat n - 48) with (Z.of_nat n) by lia. clear - N.
    do 8 (destruct n as [|n]; [vm_compute; tauto|]). lia.
  - intros I. vm_compute in I. repeat (destruct I as [I|I]; [injection I as <- <-; reflexivity|]). destruct I.
Qed.

Lemma hexa_iff c d : hex_digit c = Some d <-> In (c, d) hexa_table.
Proof.
  split.
  - intros H. rewrite <- (chr_code c). revert H. unfold hex_digit. cbv zeta.
    assert (X : forall lo k, (k <= 10)%nat -> (lo <=? code c) && (code c <=? lo + Z.of_nat k) = true -> exists n, (n <= 10)%nat /\ (n <= k)%nat /\ code c = lo + Z.of_nat n).
    { intros lo k K E. exists (Z.to_nat (code c - lo)). lia. }
    destruct ((48 <=? code c) && (code c <=? 57)) eqn:E1; [|destruct ((65 <=? code c) && (code c <=? 70)) eqn:E2; [|destruct ((97 <=? code c) && (code c <=? 102)) eqn:E3; [|discriminate]]];
      intros H; injection H as <-.
    + destruct (X 48 9%nat ltac:(lia) E1) as (n & _ & N & ->). replace (48 + Z.of_nat n - 48) with (Z.of_nat n) by lia. clear - N.
      do 10 (destruct n as [|n]; [vm_compute; tauto|]). lia.
    + destruct (X 65 5%nat ltac:(lia) E2) as (n & _ & N & ->). replace (65 + Z.of_nat n - 55) with (10 + Z.of_nat n) by lia. clear - N.
      do 6 (destruct n as [|n]; [vm_compute; tauto|]). lia.
    + destruct (X 97 5%nat ltac:(lia) E3) as (n & _ & N & ->). replace (97 + Z.of_nat n - 87) with (10 + Z.of_nat n) by lia. clear - N.
      do 6 (destruct n as [|n]; [vm_compute; tauto|]). lia.
  - intros I. vm_compute in I. repeat (destruct I as [I|I]; [injection I as <- <-; reflexivity|]). destruct I.
Qed.

Lemma simple_iff c d : simple_escape c = Some d <-> In (c, d) simple_table.
Proof.
  unfold simple_escape. split.
  - repeat match goal with |- (if Ascii.eqb ?x ?y then _ else _) = _ -> _ => destruct (Ascii.eqb_spec x y) as [-> |]; [intros H; injection H as <-; vm_compute; tauto|] end. discriminate.
  - intros I. vm_compute in I. repeat (destruct I as [I|I]; [injection I as <- <-; reflexivity|]). destruct I.
Qed.

Lemma hex_range c d : hex_digit c = Some d -> 0 <= d < 16.
Proof. unfold hex_digit. cbv zeta. destruct ((48 <=? code c) && (code c <=? 57)) eqn:E1; [|destruct ((65 <=? code c) && (code c <=? 70)) eqn:E2; [|destruct ((97 <=? code c) && (code c <=? 102)) eqn:E3; [|discriminate]]]; intros H; injection H as <-; lia. Qed.

(** Numerals. *)
Fixpoint numb (f : ascii -> option Z) (base v : Z) (ds : bytes) : option Z :=
  match ds with [] => Some v | c :: r => match f c with Some d => numb f base (base * v + d) r | None => None end end.

Lemma numb_snoc f base ds : forall v c, numb f base v (ds ++ [c]) = match numb f base v ds, f c with Some x, Some d => Some (base * x + d) | _, _ => None end.
Proof. induction ds as [|x ds IH]; intros v c; cbn [app numb]; [destruct (f c); reflexivity|]. destruct (f x); [apply IH|reflexivity]. Qed.

Lemma numeral_iff f table base : (forall c d, f c = Some d <-> In (c, d) table) -> forall ds v, numeral table base ds v <-> numb f base 0 ds = Some v.
Proof.
  intros F ds v. split.
  - induction 1 as [|ds v c d H IH I]; [reflexivity|]. rewrite numb_snoc, IH. apply F in I. now rewrite I.
  - revert v. induction ds as [|c ds IH] using rev_ind; intros v H; [injection H as <-; constructor|]. rewrite numb_snoc in H.
    destruct (numb f base 0 ds) as [x|]; [|discriminate]. destruct (f c) as [d|] eqn:D; [|discriminate]. injection H as <-. constructor; [now apply IH|now apply F].
Qed.

Lemma starts_iff f table : (forall c d, f c = Some d <-> In (c, d) table) -> forall s, starts_with table s <-> match s with c :: _ => f c <> None | [] => False end.
Proof.
  intros F s. split.
  - intros (c & d & r & -> & I). apply F in I. congruence.
  - destruct s as [|c r]; [intros []|]. destruct (f c) as [d|] eqn:D; [|congruence]. intros _. exists c, d, r. split; [reflexivity|now apply F].
Qed.

(** ** Universal character names *)
Lemma ucn_iff v x : 0 <= v -> (ucn v = Some x <-> scalar v /\ x = utf8_encode v).
Proof.
  intros V. unfold ucn, scalar, utf8_encode. rewrite !Z.shiftr_div_pow2 by lia.
  change (Z.land v 63) with (Z.land v (Z.ones 6)). rewrite Z.land_ones by lia.
  assert (L : forall y, Z.land y 63 = y mod 64) by (intros y; change 63 with (Z.ones 6); now rewrite Z.land_ones by lia). rewrite !L.
  change (2 ^ 6) with 64. change (2 ^ 12) with 4096. change (2 ^ 18) with 262144.
  destruct (v <? 128) eqn:E1; [split; [intros H; injection H as <-; split; [lia|reflexivity]|intros (_ & ->); reflexivity]|].
  destruct (v <? 2048) eqn:E2; [split; [intros H; injection H as <-; split; [lia|reflexivity]|intros (_ & ->); reflexivity]|].
  destruct ((55296 <=? v) && (v <=? 57343)) eqn:E3; [split; [discriminate|intros (H & _); lia]|].
  destruct (v <? 65536) eqn:E4; [split; [intros H; injection H as <-; split; [lia|reflexivity]|intros (_ & ->); reflexivity]|].
  destruct (v <? 1114112) eqn:E5; [split; [intros H; injection H as <-; split; [lia|reflexivity]|intros (_ & ->); reflexivity]|].
  split; [discriminate|intros (H & _); lia].
Qed.

(** ** The evaluation, escape by escape *)
Definition put (x : bytes) (o : option bytes) : option bytes := option_map (app x) o.
Definition flushed (v : Z) (o : option bytes) : option bytes := if v <? 256 then put [chr v] o else None.

Lemma go_after v c r : match (match flush v, text_step c with Some x, Some (y, st') => Some (x ++ y, st') | _, _ => None end) with
    | Some (x, st') => option_map (app x) (lit_go st' r) | None => None end = flushed v (lit_go LText (c :: r)).
Proof.
  unfold flushed, flush. destruct (v <? 256); [|reflexivity]. cbn [lit_go lit_step]. destruct (text_step c) as [(y, st')|]; [|reflexivity].
  unfold put. destruct (lit_go st' r); reflexivity.
Qed.

Fixpoint digits (f : ascii -> option Z) (k : nat) (s : bytes) : bytes * bytes :=
  match k, s with
  | S k', c :: r => match f c with Some _ => let '(ds, t) := digits f k' r in (c :: ds, t) | None => ([], s) end
  | _, _ => ([], s)
  end.

Lemma digits_spec f : forall k s ds t, digits f k s = (ds, t) -> s = ds ++ t /\ (length ds <= k)%nat /\ (exists v, numb f 10 0 ds = Some v) /\
  (length ds = k \/ match t with c :: _ => f c = None | [] => True end).
Proof.
  assert (N : forall ds v w, numb f 10 v ds <> None -> numb f 10 w ds <> None).
  { induction ds as [|c ds IH]; intros v w H; cbn [numb] in *; [discriminate|]. destruct (f c); [|congruence]. exact (IH _ _ H). }
  induction k as [|k IH]; intros s ds t E; cbn [digits] in E.
  - injection E as <- <-. cbn. refine (conj eq_refl (conj _ (conj _ _))); [lia|eexists; reflexivity|now left].
  - destruct s as [|c r]; [injection E as <- <-; cbn; refine (conj eq_refl (conj _ (conj _ _))); [lia|eexists; reflexivity|now right]|].
    destruct (f c) as [d|] eqn:D; [|injection E as <- <-; cbn; refine (conj eq_refl (conj _ (conj _ _))); [lia|eexists; reflexivity|now right]].
    destruct (digits f k r) as (ds', t') eqn:G. injection E as <- <-. destruct (IH r ds' t' G) as (-> & L & (v & V) & T). cbn [app length numb]. rewrite D.
    refine (conj eq_refl (conj _ (conj _ _))); [lia| |].
    + pose proof (N ds' 0 (10 * 0 + d)) as X. rewrite V in X. destruct (numb f 10 (10 * 0 + d) ds') as [w|]; [eauto|]. exfalso. apply X; [discriminate|reflexivity].
    + destruct T as [T|T]; [left; lia|now right].
Qed.

Definition next_not (f : ascii -> option Z) (r : bytes) : Prop := match r with c :: _ => f c = None | [] => True end.

Lemma go_hex ds : forall v r n, numb hex_digit 16 v ds = Some n -> next_not hex_digit r -> lit_go (LHex true v) (ds ++ r) = flushed n (lit_go LText r).
Proof.
  induction ds as [|c ds IH]; intros v r n N R; cbn [numb app] in *.
  - injection N as ->. destruct r as [|c r]; [unfold flushed, put, flush; cbn [lit_go lit_end flush]; unfold flush; destruct (n <? 256); reflexivity|].
    cbn [next_not] in R. cbn [lit_go lit_step]. rewrite R. apply go_after.
  - destruct (hex_digit c) as [d|] eqn:D; [|discriminate]. cbn [lit_go lit_step]. rewrite D. rewrite (IH _ _ _ N R). unfold flushed, put.
    destruct (n <? 256), (lit_go LText r); reflexivity.
Qed.

Lemma go_hex_first ds r n : ds <> [] -> numb hex_digit 16 0 ds = Some n -> next_not hex_digit r -> lit_go (LHex false 0) (ds ++ r) = flushed n (lit_go LText r).
Proof.
  intros X N R. destruct ds as [|c ds]; [congruence|]. cbn [numb app] in *. destruct (hex_digit c) as [d|] eqn:D; [|discriminate]. cbn [lit_go lit_step]. rewrite D.
  rewrite (go_hex _ _ _ _ N R). unfold flushed, put. destruct (n <? 256), (lit_go LText r); reflexivity.
Qed.

Lemma go_oct ds : forall k v r n, (length ds + k <= 3)%nat -> numb oct_digit 8 v ds = Some n -> ((length ds + k = 3)%nat \/ next_not oct_digit r) ->
  lit_go (LOct k v) (ds ++ r) = flushed n (lit_go LText r).
Proof.
  induction ds as [|c ds IH]; intros k v r n K N R; cbn [numb app length] in *.
  - injection N as ->. destruct r as [|c r]; [unfold flushed, put; cbn [lit_go lit_end]; unfold flush; destruct (n <? 256); reflexivity|].
    cbn [next_not] in R. cbn [lit_go lit_step]. destruct R as [R|R].
    + destruct (oct_digit c); [|apply go_after]. rewrite (proj2 (Nat.ltb_ge k 3)) by lia. apply go_after.
    + rewrite R. apply go_after.
  - destruct (oct_digit c) as [d|] eqn:D; [|discriminate]. cbn [lit_go lit_step]. rewrite D. rewrite (proj2 (Nat.ltb_lt k 3)) by lia.
    rewrite (IH (S k) _ r n ltac:(lia) N ltac:(destruct R as [R|R]; [left; lia|now right])). unfold flushed, put.
    destruct (n <? 256), (lit_go LText r); reflexivity.
Qed.

Lemma go_oct_first c ds r n : (length ds <= 2)%nat -> numb oct_digit 8 0 (c :: ds) = Some n -> (length ds = 2%nat \/ next_not oct_digit r) ->
  lit_go LEsc (c :: ds ++ r) = flushed n (lit_go LText r).
Proof.
  intros K N R. cbn [numb] in N. destruct (oct_digit c) as [d|] eqn:D; [|discriminate]. cbn [lit_go lit_step].
  assert (S : simple_escape c = None).
  { destruct (simple_escape c) as [x|] eqn:S; [|reflexivity]. apply simple_iff in S. apply octal_iff in D. vm_compute in S, D.
    repeat (destruct D as [D|D]; [injection D as <- _; repeat (destruct S as [S|S]; [discriminate S|]); destruct S|]). destruct D. }
  rewrite S, D. replace (8 * 0 + d) with d in N by lia.
  rewrite (go_oct ds 1 d r n ltac:(lia) N ltac:(destruct R as [R|R]; [left; lia|now right])). unfold flushed, put. destruct (n <? 256), (lit_go LText r); reflexivity.
Qed.

Lemma go_ucn ds : forall v r n, ds <> [] -> numb hex_digit 16 v ds = Some n ->
  lit_go (LUcn (length ds) v) (ds ++ r) = match ucn n with Some x => put x (lit_go LText r) | None => None end.
Proof.
  induction ds as [|c ds IH]; intros v r n X N; [congruence|]. cbn [numb app length] in *. destruct (hex_digit c) as [d|] eqn:D; [|discriminate].
  cbn [lit_go lit_step]. rewrite D. destruct ds as [|c' ds].
  - injection N as ->. cbn [length app]. destruct (ucn n); reflexivity.
  - specialize (IH (16 * v + d) r n ltac:(discriminate) N). cbn [length Nat.pred] in *. rewrite IH.
    destruct (ucn n) as [x|]; [|reflexivity]. unfold put. destruct (lit_go LText r); reflexivity.
Qed.

(** Too few digits. *)
Lemma go_ucn_short ds : forall k v r, (length ds < k)%nat -> next_not hex_digit r -> (exists n, numb hex_digit 16 v ds = Some n) -> lit_go (LUcn k v) (ds ++ r) = None.
Proof.
  induction ds as [|c ds IH]; intros k v r K R (n & N); cbn [app length numb] in *.
  - destruct r as [|c r]; [reflexivity|]. cbn [next_not] in R. cbn [lit_go lit_step]. now rewrite R.
  - destruct (hex_digit c) as [d|] eqn:D; [|discriminate]. cbn [lit_go lit_step]. rewrite D. destruct k as [|[|k]]; try lia.
    cbn [Nat.pred]. rewrite (IH (S k) (16 * v + d) r ltac:(lia) R (ex_intro _ n N)). reflexivity.
Qed.

Lemma numb_any f base : forall ds v w base', numb f base v ds <> None -> numb f base' w ds <> None.
Proof. induction ds as [|c ds IH]; intros v w base' H; cbn [numb] in *; [discriminate|]. destruct (f c); [|congruence]. exact (IH _ _ _ H). Qed.

Lemma numb_hex_range ds : forall v n, 0 <= v -> numb hex_digit 16 v ds = Some n -> 0 <= n.
Proof.
  induction ds as [|c ds IH]; intros v n V N; cbn [numb] in N; [injection N as <-; exact V|]. destruct (hex_digit c) as [d|] eqn:D; [|discriminate].
  apply hex_range in D. apply (IH (16 * v + d) n); [lia|exact N].
Qed.

Lemma digits_numb f base k s : exists ds t n, s = ds ++ t /\ (length ds <= k)%nat /\ numb f base 0 ds = Some n /\ (length ds = k \/ next_not f t).
Proof.
  destruct (digits f k s) as (ds, t) eqn:E. destruct (digits_spec f k s ds t E) as (A & B & (v & V) & C).
  destruct (numb f base 0 ds) as [n|] eqn:N; [exists ds, t, n; auto|]. exfalso. apply (numb_any f 10 ds 0 0 base); [congruence|exact N].
Qed.

Lemma text_back r : lit_go LText ("\"%char :: r) = lit_go LEsc r.
Proof. cbn [lit_go lit_step]. change (text_step "\") with (Some ([] : bytes, LEsc)). cbv iota beta. destruct (lit_go LEsc r); reflexivity. Qed.

Lemma esc_letter r : lit_go LEsc ("x"%char :: r) = lit_go (LHex false 0) r /\ lit_go LEsc ("u"%char :: r) = lit_go (LUcn 4 0) r /\ lit_go LEsc ("U"%char :: r) = lit_go (LUcn 8 0) r.
Proof.
  split; [|split].
  - change (lit_go LEsc ("x"%char :: r)) with (put [] (lit_go (LHex false 0) r)). now destruct (lit_go (LHex false 0) r).
  - change (lit_go LEsc ("u"%char :: r)) with (put [] (lit_go (LUcn 4 0) r)). now destruct (lit_go (LUcn 4 0) r).
  - change (lit_go LEsc ("U"%char :: r)) with (put [] (lit_go (LUcn 8 0) r)). now destruct (lit_go (LUcn 8 0) r).
Qed.

Lemma plain_step c r : ~ In c [""""%char; "\"%char; LF] -> lit_go LText (c :: r) = put [c] (lit_go LText r).
Proof.
  intros N. cbn [lit_go lit_step]. unfold text_step.
  rewrite (proj2 (Ascii.eqb_neq c """")), (proj2 (Ascii.eqb_neq c LF)), (proj2 (Ascii.eqb_neq c "\")); [reflexivity|..]; intros ->; apply N; cbn [In]; tauto.
Qed.

Lemma put_some x o v : put x o = Some v -> exists w, o = Some w /\ v = x ++ w.
Proof. unfold put. destruct o as [w|]; [|discriminate]. intros H. injection H as <-. eauto. Qed.

Lemma not_starts f table r : (forall c d, f c = Some d <-> In (c, d) table) -> ~ starts_with table r -> next_not f r.
Proof.
  intros F N. destruct r as [|c r]; [exact I|]. cbn [next_not]. destruct (f c) as [d|] eqn:D; [|reflexivity]. exfalso. apply N. exists c, d, r. split; [reflexivity|now apply F].
Qed.
Lemma next_starts f table r : (forall c d, f c = Some d <-> In (c, d) table) -> next_not f r -> ~ starts_with table r.
Proof. intros F N (c & d & r' & -> & I). apply F in I. cbn [next_not] in N. congruence. Qed.

Lemma chars_go s v : chars s v -> lit_go LText s = Some v.
Proof.
  induction 1 as [|c r v N H IH|c d r v I H IH|ds n r v L N R E H IH|ds n r v L N R E H IH|k ds n r v I N R H IH].
  - reflexivity.
  - rewrite (plain_step _ _ N), IH. reflexivity.
  - rewrite text_back. cbn [lit_go lit_step]. apply simple_iff in I. rewrite I, IH. reflexivity.
  - rewrite text_back. apply (numeral_iff _ _ _ octal_iff) in N. destruct ds as [|c ds]; [cbn in L; lia|]. cbn [length] in *.
    change (((c :: ds) ++ r)) with (c :: ds ++ r). rewrite (go_oct_first c ds r n ltac:(lia) N).
    + unfold flushed. rewrite (proj2 (Z.ltb_lt n 256) R), IH. reflexivity.
    + destruct E as [E|E]; [left; lia|right; exact (not_starts _ _ _ octal_iff E)].
  - change (b "\x" ++ ds ++ r) with ("\"%char :: "x"%char :: ds ++ r). rewrite text_back, (proj1 (esc_letter _)). apply (numeral_iff _ _ _ hexa_iff) in N.
    rewrite (go_hex_first ds r n L N (not_starts _ _ _ hexa_iff E)). unfold flushed. rewrite (proj2 (Z.ltb_lt n 256) R), IH. reflexivity.
  - apply (numeral_iff _ _ _ hexa_iff) in N. assert (V : 0 <= n) by (apply (numb_hex_range ds 0 n ltac:(lia) N)).
    assert (X : ucn n = Some (utf8_encode n)) by (apply ucn_iff; auto).
    assert (G : forall v0, lit_go (LUcn (length ds) 0) (ds ++ r) = Some v0 \/ ds = [] -> ds <> [] -> True) by auto. clear G.
    assert (D : ds <> []) by (intros ->; destruct I as [I|[I|[]]]; injection I; discriminate).
    pose proof (go_ucn ds 0 r n D N) as G. rewrite X, IH in G. cbn [put option_map] in G.
    destruct I as [I|[I|[]]]; injection I as <- I; rewrite <- I in G.
    + change (b "\u" ++ ds ++ r) with ("\"%char :: "u"%char :: ds ++ r). rewrite text_back, (proj1 (proj2 (esc_letter _))). exact G.
    + change (b "\U" ++ ds ++ r) with ("\"%char :: "U"%char :: ds ++ r). rewrite text_back, (proj2 (proj2 (esc_letter _))). exact G.
Qed.

Lemma go_chars_n : forall k s v, (length s <= k)%nat -> lit_go LText s = Some v -> chars s v.
Proof.
  induction k as [|k IH]; intros s v K G; (destruct s as [|c r]; [injection G as <-; constructor|]); cbn [length] in K; [lia|].
  destruct (in_dec ascii_dec c [""""%char; "\"%char; LF]) as [I|N].
  2: { rewrite (plain_step _ _ N) in G. apply put_some in G as (w & G & ->). apply ch_plain; [exact N|]. apply IH; [lia|exact G]. }
  destruct I as [<-|[<-|[<-|[]]]]; [discriminate G| |discriminate G]. rewrite text_back in G. destruct r as [|c r]; [discriminate G|]. cbn [length] in K.
  destruct (simple_escape c) as [d|] eqn:S.
  { cbn [lit_go lit_step] in G. rewrite S in G. apply put_some in G as (w & G & ->). apply ch_simple; [now apply simple_iff|]. apply IH; [lia|exact G]. }
  destruct (oct_digit c) as [d|] eqn:O.
  { destruct (digits_numb oct_digit 8 2 r) as (ds & t & m & -> & L & M & R). rewrite app_length in K.
    destruct (numb oct_digit 8 0 (c :: ds)) as [n|] eqn:N.
    2: { exfalso. cbn [numb] in N. rewrite O in N. apply (numb_any oct_digit 8 ds 0 (8 * 0 + d) 8); [congruence|exact N]. }
    rewrite (go_oct_first c ds t n L N R) in G. unfold flushed in G. destruct (n <? 256) eqn:B; [|discriminate]. apply put_some in G as (w & G & ->).
    change (c :: ds ++ t) with ((c :: ds) ++ t). apply ch_octal.
    - cbn [length]. lia.
    - now apply (numeral_iff _ _ _ octal_iff).
    - lia.
    - cbn [length]. destruct R as [R|R]; [left; lia|right; exact (next_starts _ _ _ octal_iff R)].
    - apply IH; [lia|exact G]. }
  destruct (Ascii.eqb_spec c "x") as [-> |X1].
  { rewrite (proj1 (esc_letter _)) in G. destruct (digits_numb hex_digit 16 (length r) r) as (ds & t & n & E & L & N & R).
    assert (R' : next_not hex_digit t).
    { destruct R as [R|R]; [|exact R]. rewrite E, app_length in R. destruct t; [exact I|cbn in R; lia]. }
    rewrite E in G. destruct ds as [|c ds].
    { exfalso. cbn [app] in G. destruct t as [|c t]; [discriminate G|]. cbn [next_not] in R'. cbn [lit_go lit_step] in G. rewrite R' in G. discriminate G. }
    rewrite (go_hex_first (c :: ds) t n ltac:(discriminate) N R') in G. unfold flushed in G. destruct (n <? 256) eqn:B; [|discriminate]. apply put_some in G as (w & G & ->). rewrite E.
    change ("\"%char :: "x"%char :: (c :: ds) ++ t) with (b "\x" ++ (c :: ds) ++ t). apply ch_hexa; [discriminate|now apply (numeral_iff _ _ _ hexa_iff)|lia|exact (next_starts _ _ _ hexa_iff R')|].
    apply IH; [|exact G]. rewrite E, app_length in K. lia. }
  assert (U : forall letter num, c = letter -> (0 < num)%nat -> In (["\"%char; letter], num) [(b "\u", 4%nat); (b "\U", 8%nat)] -> lit_go (LUcn num 0) r = Some v -> chars ("\"%char :: c :: r) v).
  { clear G. intros letter num -> P J G. destruct (digits_numb hex_digit 16 num r) as (ds & t & n & E & L & N & R). rewrite E in G.
    assert (X : length ds = num).
    { destruct R as [R|R]; [exact R|]. destruct (Nat.eq_dec (length ds) num) as [Q|Q]; [exact Q|]. rewrite (go_ucn_short ds num 0 t ltac:(lia) R (ex_intro _ n N)) in G. discriminate G. }
    subst num. rewrite (go_ucn ds 0 t n) in G; [|intros ->; cbn in P; lia|exact N]. destruct (ucn n) as [x|] eqn:Y; [|discriminate]. apply put_some in G as (w & G & ->).
    assert (V : 0 <= n) by (apply (numb_hex_range ds 0 n ltac:(lia) N)). apply (ucn_iff n x V) in Y as (Y & ->).
    rewrite E. change ("\"%char :: letter :: ds ++ t) with (["\"%char; letter] ++ ds ++ t). apply ch_ucn; [exact J|now apply (numeral_iff _ _ _ hexa_iff)|exact Y|].
    apply IH; [|exact G]. rewrite E, app_length in K. lia. }
  destruct (Ascii.eqb_spec c "u") as [-> |X2].
  { rewrite (proj1 (proj2 (esc_letter _))) in G. apply (U "u"%char 4%nat eq_refl ltac:(lia) (or_introl eq_refl) G). }
  destruct (Ascii.eqb_spec c "U") as [-> |X3].
  { rewrite (proj2 (proj2 (esc_letter _))) in G. apply (U "U"%char 8%nat eq_refl ltac:(lia) (or_intror (or_introl eq_refl)) G). }
  exfalso. cbn [lit_go lit_step] in G. rewrite S, O in G.
  rewrite (proj2 (Ascii.eqb_neq c "x") X1), (proj2 (Ascii.eqb_neq c "u") X2), (proj2 (Ascii.eqb_neq c "U") X3) in G. discriminate G.
Qed.

Lemma cpp_lit_iff s v : cpp_lit s = Some v <-> denotes s v.
Proof.
  unfold cpp_lit, denotes. split.
  - intros H. exists (trigraphs 0 s). split; [now apply untri_iff|]. exact (go_chars_n _ _ _ (le_n _) H).
  - intros (t & T & H). apply untri_iff in T. subst t. now apply chars_go.
Qed.

Lemma to_nul_iff s t : to_nul s t <-> t = cstr s.
Proof.
  split.
  - induction 1 as [|r|c r t N H IH]; [reflexivity|reflexivity|]. cbn [cstr]. rewrite (proj2 (Ascii.eqb_neq c NUL) N). now rewrite <- IH.
  - intros ->. induction s as [|c s IH]; cbn [cstr]; [constructor|]. destruct (Ascii.eqb_spec c NUL) as [-> |N]; now constructor.
Qed.

Lemma lit_string_iff s n : lit_string s = Some n <-> exists v, denotes s v /\ to_nul v n.
Proof.
  unfold lit_string. split.
  - destruct (cpp_lit s) as [v|] eqn:E; [|discriminate]. intros H. injection H as <-. exists v. split; [now apply cpp_lit_iff|now apply to_nul_iff].
  - intros (v & D & T). apply cpp_lit_iff in D. apply to_nul_iff in T. rewrite D, T. reflexivity.
Qed.

Lemma denotes_one s v w : denotes s v -> denotes s w -> v = w.
Proof. rewrite <- !cpp_lit_iff. congruence. Qed.

(** ** Keywords *)
Lemma keywords_iff w : In w cpp_keywords <-> In w reserved_words.
Proof.
  assert (X : forall l m, forallb (fun w => existsb (bytes_eqb w) m) l = true -> In w l -> In w m).
  { intros l m H I. rewrite forallb_forall in H. specialize (H w I). apply existsb_exists in H as (y & Y & E). apply bytes_eqb_true in E. now subst. }
  split; apply X; vm_compute; reflexivity.
Qed.
