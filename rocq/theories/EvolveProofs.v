(** Objects written with one type and read with another. *)
From Verif Require Import Bytes BaseProofs Num Dbl Types Stream Tokenizer Write Read
  SpecJson SpecStr SpecInterp SpecNum SpecB64 SpecDbl SpecWrite LexView LexMono LexJson Termination ReadSim
  StrProofs IntProofs B64Proofs ApiProofs DblProofs DblApi InterpProofs WriteProofs SpecEvolve.
From Verif Require SpecLenient LenientProofs SpecRange ErrProofs.

(** ** Numbers *)
Lemma pow_width bits : width bits -> 0 < 2 ^ bits /\ 2 ^ bits = 2 * 2 ^ (bits - 1) /\ (2 ^ bits | 2 ^ 64).
Proof.
  intros [->|[->| ->]]; (split; [reflexivity|]); (split; [reflexivity|]).
  - exists (2 ^ 56). reflexivity.
  - exists (2 ^ 32). reflexivity.
  - exists 1. reflexivity.
Qed.

Lemma becomes_unique sg bits z a c : width bits -> int_becomes sg bits z a -> int_becomes sg bits z c -> a = c.
Proof.
  intros W (A & k & EA) (C & l & EC). destruct (pow_width bits W) as (P & E & _).
  assert (D : a - c = (k - l) * 2 ^ bits) by lia.
  assert (- 2 ^ bits < a - c < 2 ^ bits) by (destruct sg; cbn [int_min int_max] in *; lia).
  assert (k - l = 0) by nia. lia.
Qed.

Lemma in_range_any sg bits z : width bits -> in_range sg bits z = true -> LONG_MIN <= z <= ULONG_MAX.
Proof.
  intros W R. unfold LONG_MIN, ULONG_MAX. destruct sg.
  - apply in_range_long in R; [|exact W]. unfold LONG_MIN, LONG_MAX in R. lia.
  - apply in_range_ulong in R; [|exact W]. unfold ULONG_MAX in R. lia.
Qed.

Lemma dec_becomes sg bits z : width bits -> LONG_MIN <= z <= ULONG_MAX ->
  int_becomes sg bits z (string_to_int sg bits (dec z)).
Proof.
  intros W R. destruct (pow_width bits W) as (P & _ & (q & Q)). unfold string_to_int.
  set (y := if sg then strtol (dec z) else strtoul (dec z)).
  assert (Y : exists k, y = (if sg then Z.min z (2 ^ 63 - 1) else z) + k * 2 ^ bits).
  { unfold y, LONG_MIN, ULONG_MAX in *. destruct (dec_nat_spec (Z.abs z)) as (D & _); [lia|]. destruct sg.
    - exists 0. unfold strtol. rewrite dec_split, D. unfold LONG_MIN, LONG_MAX. destruct (Z.ltb_spec z 0); lia.
    - unfold strtoul. rewrite dec_split, D. unfold ULONG_MAX. destruct (Z.ltb_spec (2 ^ 64 - 1) (Z.abs z)); [lia|].
      destruct (Z.ltb_spec z 0); [|exists 0; lia].
      exists (- (z / 2 ^ 64) * q). rewrite Z.abs_neq by lia. replace (- - z) with z by lia.
      rewrite Z.mod_eq by lia. rewrite Q. ring. }
  assert (E : (if sg then cast_int true bits (strtol (dec z)) else cast_int false bits (strtoul (dec z))) = cast_int sg bits y)
    by (unfold y; now destruct sg).
  try rewrite E. clearbody y. destruct Y as (k & Y).
  destruct (cast_int_spec sg bits y W) as (I & M). split.
  - apply in_range_minmax; assumption.
  - apply Z.mod_divide in M as (j & M); [|lia]. exists (j + k).
    replace (cast_int sg bits y) with (y + j * 2 ^ bits) by lia. rewrite Y. ring.
Qed.

Lemma prim_carries_interp p x p' x' v : prim_carries p x p' x' -> interp_prim p' v (prim_json x) = (RGood, x').
Proof.
  intros C. inversion C as [p0 x0 V X|sg bits z sg' bits' z' W W' R B|p0 x0 p0' V F N N' RR]; subst.
  - now apply prim_back.
  - cbn [prim_json prim_text interp_prim string_to_prim]. unfold int_to_string. do 2 f_equal.
    eapply becomes_unique; [exact W'| |exact B]. apply dec_becomes; [exact W'|]. exact (in_range_any _ _ _ W R).
  - destruct x as [z|d|y].
    + destruct p'; try discriminate; reflexivity.
    + destruct p'; try discriminate; reflexivity.
    + destruct p; discriminate.
Qed.

Lemma prim_total p x p' : pval_ok p x = true -> prim_finite x -> prim_sized p -> prim_sized p' ->
  number p = number p' -> exists x', prim_carries p x p' x' /\ pval_ok p' x' = true.
Proof.
  intros V F W W' N. destruct (number p) eqn:NP.
  - destruct (real p || real p') eqn:R.
    + eexists. split; [now apply pc_real|]. destruct p'; try discriminate; cbn [string_to_prim pval_ok].
      * unfold string_to_int. destruct sg; now apply cast_int_spec.
      * apply strtod_valid.
      * apply to_float_valid.
    + destruct p as [sg bits| | |]; try discriminate. destruct p' as [sg' bits'| | |]; try discriminate.
      destruct x as [z| |]; try discriminate. cbn [prim_sized pval_ok] in *.
      pose proof (dec_becomes sg' bits' z W' (in_range_any _ _ _ W V)) as B.
      eexists. split; [apply pc_int; eauto|]. apply in_range_minmax; [exact W'|apply B].
  - destruct p; try discriminate. destruct p'; try discriminate. exists x. split; [|exact V].
    apply pc_same; [exact V|]. destruct x; try discriminate. exact I.
Qed.

(** ** Members *)
Lemma named_inj names n n' k : NoDup (map fst names) -> member_named names n = Some k -> member_named names n' = Some k -> n = n'.
Proof.
  intros ND. induction names as [|[i l] names IH]; [discriminate|].
  cbn [map fst] in ND. inversion ND as [|? ? NI ND']; subst. cbn [member_named].
  assert (X : forall m, member_named names m = Some i -> In i (map fst names)).
  { clear. induction names as [|[i' l'] names IH]; intros m; [discriminate|]. cbn [member_named map fst].
    destruct (bytes_eqb l' m); [intros [= ->]; now left|]. right. eauto. }
  destruct (bytes_eqb l n) eqn:E; destruct (bytes_eqb l n') eqn:E'.
  - apply bytes_eqb_true in E. apply bytes_eqb_true in E'. congruence.
  - intros [= <-] M. exfalso. eauto.
  - intros M [= <-]. exfalso. eauto.
  - auto.
Qed.

Lemma named_some names n k : member_named names n = Some k -> In (k, n) names.
Proof.
  induction names as [|[i l] names IH]; [discriminate|]. cbn [member_named].
  destruct (bytes_eqb l n) eqn:E; [intros [= <-]; apply bytes_eqb_true in E; subst; now left|]. right. auto.
Qed.

Lemma members_good names fs : NoDup (map fst names) -> forall l vs, NoDup (map fst l) ->
  (forall n j k f v, In (n, j) l -> member_named names n = Some k -> nth_error fs k = Some f ->
     nth_error vs k = Some v -> fst (f v j) <> RFail) ->
  exists vs', interp_members names fs l vs = (RGood, vs') /\ length vs' = length vs /\
    (forall k, (forall n j, In (n, j) l -> member_named names n <> Some k) -> nth_error vs' k = nth_error vs k) /\
    (forall n j k f v, In (n, j) l -> member_named names n = Some k -> nth_error fs k = Some f ->
       nth_error vs k = Some v -> nth_error vs' k = Some (snd (f v j))).
Proof.
  intros NN. induction l as [|[n j] l IH]; intros vs ND H.
  { exists vs. repeat split; auto. intros ? ? ? ? ? []. }
  cbn [map fst] in ND. inversion ND as [|? ? NI ND']; subst. cbn [interp_members].
  destruct (member_named names n) as [k|] eqn:M.
  2:{ destruct (IH vs ND') as (vs' & E & L & U & G). { intros. eapply H; eauto. now right. }
      exists vs'. split; [exact E|]. split; [exact L|]. split.
      - intros k N. apply U. intros n' j' I. apply (N n' j'). now right.
      - intros n' j' k f v [[= <- <-]|I] M'; [congruence|]. eauto. }
  destruct (nth_error fs k) as [f|] eqn:F.
  2:{ destruct (IH vs ND') as (vs' & E & L & U & G). { intros. eapply H; eauto. now right. }
      exists vs'. split; [exact E|]. split; [exact L|]. split.
      - intros k' N. apply U. intros n' j' I. apply (N n' j'). now right.
      - intros n' j' k' f' v [[= <- <-]|I] M' F'; [congruence|]. eauto. }
  destruct (nth_error vs k) as [v|] eqn:V.
  2:{ destruct (IH vs ND') as (vs' & E & L & U & G). { intros. eapply H; eauto. now right. }
      exists vs'. split; [exact E|]. split; [exact L|]. split.
      - intros k' N. apply U. intros n' j' I. apply (N n' j'). now right.
      - intros n' j' k' f' v [[= <- <-]|I] M' F' V'; [congruence|]. eauto. }
  assert (Q : (k < length vs)%nat) by (apply nth_error_Some; congruence).
  assert (D : forall n' j', In (n', j') l -> member_named names n' <> Some k).
  { intros n' j' I M'. assert (n' = n) by (eapply named_inj; eauto). subst. apply NI. apply in_map_iff. now exists (n, j'). }
  destruct (IH (set_nth k (snd (f v j)) vs) ND') as (vs' & E & L & U & G).
  { intros n' j' k' f' v' I M' F' V'. rewrite nth_error_set_nth_neq in V' by (intros ->; eapply D; eauto).
    eapply H; eauto. now right. }
  exists vs'. split.
  { assert (NF : fst (f v j) <> RFail) by (eapply H; eauto; now left). destruct (f v j) as [[] w]; auto. cbn [fst] in NF. congruence. }
  rewrite set_nth_length in L. split; [exact L|]. split.
  - intros k' N. rewrite U by (intros n' j' I; apply (N n' j'); now right).
    apply nth_error_set_nth_neq. intros ->. apply (N n j); [now left|exact M].
  - intros n' j' k' f' v' [[= <- <-]|I] M' F' V'.
    + rewrite M in M'. injection M' as <-. rewrite F in F'. injection F' as <-. rewrite V in V'. injection V' as <-.
      rewrite U by exact D. now apply nth_error_set_nth_eq.
    + eapply G; eauto. rewrite nth_error_set_nth_neq; [exact V'|]. intros ->. eapply D; eauto.
Qed.

Lemma members_fail names fs n j k f : NoDup (map fst names) -> forall l vs v, NoDup (map fst l) -> In (n, j) l ->
  member_named names n = Some k -> nth_error fs k = Some f -> nth_error vs k = Some v -> fst (f v j) = RFail ->
  fst (interp_members names fs l vs) = RFail.
Proof.
  intros NN. induction l as [|[m i] l IH]; intros vs v ND I M F V B; [destruct I|].
  cbn [map fst] in ND. inversion ND as [|? ? NI ND']; subst. cbn [interp_members].
  destruct I as [[= -> ->]|I].
  - rewrite M, F, V. destruct (f v j) as [[] w]; try discriminate. reflexivity.
  - destruct (member_named names m) as [k'|] eqn:M'; [|eauto].
    destruct (nth_error fs k') as [f'|]; [|eauto].
    destruct (nth_error vs k') as [v'|] eqn:V'; [|eauto].
    assert (k' <> k).
    { intros ->. assert (m = n) by (eapply named_inj; eauto). subst. apply NI. apply in_map_iff. now exists (n, j). }
    destruct (f' v' i) as [[] w]; [| |reflexivity]; (eapply IH; eauto; now rewrite nth_error_set_nth_neq).
Qed.

Lemma items_in sn fs vs items n j : In (n, j) (obj_items sn fs vs items) <->
  exists k f v, In (k, n) items /\ nth_error fs k = Some f /\ nth_error vs k = Some v /\ sn || negb (vempty v) = true /\ j = f v.
Proof.
  unfold obj_items. rewrite in_flat_map. split.
  - intros ([k l] & I & X). cbn [fst snd] in X. destruct (nth_error fs k) as [f|] eqn:F; [|destruct X].
    destruct (nth_error vs k) as [v|] eqn:V; [|destruct X]. destruct (sn || negb (vempty v)) eqn:E; [|destruct X].
    destruct X as [[= <- <-]|[]]. exists k, f, v. auto.
  - intros (k & f & v & I & F & V & E & ->). exists (k, n). split; [exact I|]. cbn [fst snd]. rewrite F, V, E. now left.
Qed.

Lemma items_nodup sn fs vs items : NoDup (map snd items) -> NoDup (map fst (obj_items sn fs vs items)).
Proof.
  induction items as [|[k l] items IH]; intros ND; [constructor|].
  cbn [map snd] in ND. inversion ND as [|? ? NI ND']; subst.
  assert (X : NoDup (map fst (obj_items sn fs vs items))) by auto.
  unfold obj_items in *. cbn [flat_map fst snd].
  destruct (nth_error fs k) as [f|]; [|exact X]. destruct (nth_error vs k) as [v|]; [|exact X].
  destruct (sn || negb (vempty v)); [|exact X]. cbn [app map fst]. constructor; [|exact X].
  intros I. apply NI. apply in_map_iff in I as ([n j] & <- & I).
  apply items_in in I as (k' & f' & v' & I & _). apply in_map_iff. now exists (k', n).
Qed.

Lemma nodup_fst {A B} (l : list (A * B)) k x y : NoDup (map fst l) -> In (k, x) l -> In (k, y) l -> x = y.
Proof.
  induction l as [|[i z] l IH]; intros ND I J; [destruct I|].
  cbn [map fst] in ND. inversion ND as [|? ? NI ND']; subst.
  destruct I as [[= -> ->]|I], J as [E|J].
  - congruence.
  - exfalso. apply NI. apply in_map_iff. now exists (k, y).
  - injection E as -> ->. exfalso. apply NI. apply in_map_iff. now exists (k, x).
  - auto.
Qed.
Lemma nodup_snd {A B} (l : list (A * B)) k i x : NoDup (map snd l) -> In (k, x) l -> In (i, x) l -> k = i.
Proof.
  induction l as [|[m z] l IH]; intros ND I J; [destruct I|].
  cbn [map snd] in ND. inversion ND as [|? ? NI ND']; subst.
  destruct I as [[= -> ->]|I], J as [E|J].
  - congruence.
  - exfalso. apply NI. apply in_map_iff. now exists (i, x).
  - injection E as -> ->. exfalso. apply NI. apply in_map_iff. now exists (k, x).
  - auto.
Qed.

Lemma has_ty_nth ms g vs k t x : has_ty (TMsg ms g) (VMsg vs) = true -> nth_error ms k = Some t -> nth_error vs k = Some x ->
  has_ty t x = true.
Proof.
  cbn [has_ty]. revert vs k. induction ms as [|t' ms IH]; intros [|v vs] [|k] H M X; try discriminate.
  - injection M as ->. injection X as ->. now apply andb_prop in H as [H _].
  - apply andb_prop in H as [_ H]. eauto.
Qed.

Lemma null_json sn t x : has_ty t x = true -> null_value x -> tojson sn t x = JNull /\ vempty x = true.
Proof.
  intros T N. destruct x; try contradiction; cbn [null_value] in N.
  - subst e. destruct t; try discriminate. split; reflexivity.
  - destruct N as [-> ->]. destruct t; try discriminate. split; reflexivity.
Qed.

Lemma null_or x : null_value x \/ ~ null_value x.
Proof.
  destruct x; try (right; intros []; fail); cbn [null_value].
  - destruct e; [left; reflexivity|right; discriminate].
  - destruct null; [|right; intros [[=] _]]. destruct s; [left; split; reflexivity|right; intros [_ [=]]].
Qed.

Lemma str_json sn n s : ~ null_value (VStr n s) -> tojson sn TStr (VStr n s) = JStr s /\ vempty (VStr n s) = false.
Proof.
  intros N. assert (E : vempty (VStr n s) = false).
  { cbn [vempty]. destruct n; [|reflexivity]. destruct s; [|reflexivity]. exfalso. apply N. split; reflexivity. }
  split; [|exact E]. cbn [tojson]. now rewrite E.
Qed.

(** ** What is read *)
Lemma holds_json sn p x t v : holds p x t v -> tojson sn t v = prim_json x.
Proof. intros H. inversion H; reflexivity. Qed.

Lemma holds_interp p x t v j : holds p x t v -> (forall u, interp_prim p u j = (RGood, x)) -> interp t (dflt t) j = (RGood, v).
Proof. intros H E. inversion H; subst; cbn [interp dflt]; now rewrite E. Qed.

Lemma elems_carry f (g : val -> jval) l : forall l' acc, length l' = length l ->
  (forall i x x', nth_error l i = Some x -> nth_error l' i = Some x' -> f (g x) = (RGood, x')) ->
  interp_elems f (map g l) acc = (RGood, acc ++ l').
Proof.
  induction l as [|x l IH]; intros [|x' l'] acc L H; try discriminate; [simpl; now rewrite app_nil_r|].
  cbn [map interp_elems]. rewrite (H 0%nat x x' eq_refl eq_refl).
  rewrite (IH l'); [now rewrite <- app_assoc|now injection L|]. intros i y y' Y Y'. exact (H (S i) y y' Y Y').
Qed.

Lemma null_interp t : fst (interp t (dflt t) JNull) = RNull /\
  snd (interp t (dflt t) JNull) = match t with TStr => VStr false [] | _ => dflt t end.
Proof. destruct t; try (split; reflexivity); destruct p; split; reflexivity. Qed.

Lemma elem_In {A B} (l : list (A * B)) k x : In (k, x) l -> In k (map fst l) /\ In x (map snd l).
Proof. intros I. split; apply in_map_iff; now exists (k, x). Qed.

Lemma slot_view sn ms g vs g' k' t' x' : slot sn ms g vs g' k' t' x' ->
  ~ In k' (map fst (g_write g')) /\ x' = dflt t' \/
  (exists label, In (k', label) (g_write g') /\ ~ In label (map snd (g_write g)) /\ x' = dflt t') \/
  (exists k label x, In (k', label) (g_write g') /\ In (k, label) (g_write g) /\ nth_error vs k = Some x /\
     vempty x = true /\ sn = false /\ x' = dflt t') \/
  (exists k label x, In (k', label) (g_write g') /\ In (k, label) (g_write g) /\ nth_error vs k = Some x /\
     null_value x /\ sn = true /\ x' = match t' with TStr => VStr false [] | _ => dflt t' end) \/
  (exists k label t x, In (k', label) (g_write g') /\ In (k, label) (g_write g) /\ nth_error ms k = Some t /\
     nth_error vs k = Some x /\ (sn = true \/ vempty x = false) /\ carries sn t x t' x').
Proof.
  intros H. destruct H.
  - left. auto.
  - right; left. eauto.
  - right; right; left. eauto 10.
  - right; right; right; left. eauto 10.
  - right; right; right; right. eauto 12.
Qed.

Theorem carries_interp strict sn t' : tables_ok strict t' -> forall t v v', tables_ok strict t -> has_ty t v = true ->
  carries sn t v t' v' -> interp t' (dflt t') (tojson sn t v) = (RGood, v').
Proof.
  induction t' as [p'|p'| | |t' IHt|ms' g' IH] using ty_ind2; intros T' t v v' T V C;
    (inversion C as [p x tt vv q y tt' vv' H H' PC|n s N|s|s|n s N|t0 l t0' l' L HE|ms g vs ms0 g0 vs' L L' SL]; subst;
     [rewrite (holds_json sn _ _ _ _ H); apply (holds_interp _ _ _ _ _ H'); intros u; now apply (prim_carries_interp p x)|..]).
  - destruct (str_json sn n s N) as [-> _]. reflexivity.
  - cbn [tojson interp]. now rewrite b64_encode_rfc.
  - cbn [tojson interp dflt]. now rewrite b64_decode_encode.
  - destruct (str_json sn n s N) as [-> _]. cbn [interp dflt app]. now rewrite LenientProofs.decode_lenient.
  - cbn [tojson interp dflt]. rewrite (elems_carry _ _ l l'); [reflexivity|exact L|].
    intros i x x' X X'. apply IHt; [exact T'|exact T| |eauto].
    cbn [has_ty] in V. rewrite forallb_forall in V. apply V. eapply nth_error_In; eauto.
  - apply tables_ok_msg in T' as ((ND1' & ND2' & CL' & _) & TM'). apply tables_ok_msg in T as ((ND1 & ND2 & CL & _) & TM).
    rewrite Forall_forall in IH, TM', TM. cbn [tojson interp dflt].
    set (l := obj_items sn (map (tojson sn) ms) vs (g_write g)).
    (* what a written member is for the reader *)
    assert (K : forall n j k' t', In (n, j) l -> member_named (g_write g') n = Some k' -> nth_error ms' k' = Some t' ->
      exists x', nth_error vs' k' = Some x' /\ fst (interp t' (dflt t') j) <> RFail /\ snd (interp t' (dflt t') j) = x').
    { intros n j k' t' I M MT. apply items_in in I as (k & f & x & I & F & X & W & ->).
      rewrite nth_error_map' in F. destruct (nth_error ms k) as [t|] eqn:MK; [|discriminate]. injection F as <-.
      apply named_some in M. destruct (nth_error vs' k') as [x'|] eqn:X'.
      2:{ apply nth_error_None in X'. assert (nth_error ms' k' <> None) as Y by congruence. apply nth_error_Some in Y. lia. }
      exists x'. split; [reflexivity|].
      pose proof (has_ty_nth _ _ _ _ _ _ V MK X) as VX.
      assert (SAME : forall label i, In (k', label) (g_write g') -> In (i, label) (g_write g) -> i = k).
      { intros label i A B. assert (label = n) by exact (nodup_fst _ _ _ _ ND1' A M). subst label. exact (nodup_snd _ _ _ _ ND2 B I). }
      destruct (slot_view _ _ _ _ _ _ _ _ (SL k' t' x' MT X')) as [(NI & EX)|[(label & A & NI & EX)|[(i & label & y & A & B & Y & EM & SN & EX)|[(i & label & y & A & B & Y & NV & SN & EX)|(i & label & t0 & y & A & B & T0 & Y & W0 & CA)]]]].
      - exfalso. apply NI. now apply elem_In in M.
      - exfalso. apply NI. assert (label = n) by exact (nodup_fst _ _ _ _ ND1' A M). subst label. now apply elem_In in I.
      - assert (i = k) by exact (SAME _ _ A B). subst i. rewrite X in Y. injection Y as <-. rewrite EM, SN in W. discriminate W.
      - assert (i = k) by exact (SAME _ _ A B). subst i. rewrite X in Y. injection Y as <-.
        subst x'. destruct (null_json sn t x VX NV) as [-> _]. destruct (null_interp t') as [A1 A2]. rewrite A1, A2. split; [intros Z0; discriminate Z0|reflexivity].
      - assert (i = k) by exact (SAME _ _ A B). subst i. rewrite X in Y. injection Y as <-. rewrite MK in T0. injection T0 as <-.
        rewrite (IH t' (nth_error_In _ _ MT)) with (v' := x'); auto.
        + split; [intros Z0; discriminate Z0|reflexivity].
        + apply TM'. eapply nth_error_In; eauto.
        + apply TM. eapply nth_error_In; eauto. }
    destruct (members_good (g_write g') (map interp ms') ND1' l (map dflt ms')) as (cur & E & LC & U & G).
    { now apply items_nodup. }
    { intros n j k' f v I M F D. rewrite nth_error_map' in F. rewrite nth_error_map' in D. destruct (nth_error ms' k') as [t'|] eqn:MT; [|discriminate].
      injection F as <-. injection D as <-. destruct (K n j k' t' I M MT) as (x' & _ & NF & _). exact NF. }
    rewrite E. do 2 f_equal. rewrite map_length in LC. apply nth_error_ext. intros k'.
    destruct (nth_error ms' k') as [t'|] eqn:MT.
    2:{ apply nth_error_None in MT. rewrite (proj2 (nth_error_None cur k')) by lia. symmetry. apply nth_error_None. lia. }
    destruct (nth_error vs' k') as [x'|] eqn:X'.
    2:{ apply nth_error_None in X'. assert (nth_error ms' k' <> None) as Y by congruence. apply nth_error_Some in Y. lia. }
    assert (DEC : (exists n j, In (n, j) l /\ member_named (g_write g') n = Some k') \/
                  (forall n j, In (n, j) l -> member_named (g_write g') n <> Some k')).
    { clear. induction l as [|[n j] l IH]; [right; intros ? ? []|].
      destruct IH as [(n' & j' & I & M)|IH]; [left; exists n', j'; split; [now right|exact M]|].
      destruct (member_named (g_write g') n) as [i|] eqn:M.
      - destruct (Nat.eq_dec i k') as [->|NE]; [left; exists n, j; split; [now left|exact M]|].
        right. intros n' j' [[= <- <-]|I]; [congruence|eauto].
      - right. intros n' j' [[= <- <-]|I]; [congruence|eauto]. }
    destruct DEC as [(n & j & I & M)|NO].
    + destruct (K n j k' t' I M MT) as (x2 & X2 & NF & SN).
      rewrite (G n j k' (interp t') (dflt t') I M); [|now rewrite nth_error_map', MT|now rewrite nth_error_map', MT]. congruence.
    + rewrite (U k' NO), nth_error_map', MT.
      assert (X : x' = dflt t').
      { destruct (slot_view _ _ _ _ _ _ _ _ (SL k' t' x' MT X')) as [(NI & EX)|[(label & A & NI & EX)|[(i & label & y & A & B & Y & EM & SN & EX)|[(i & label & y & A & B & Y & NV & SN & EX)|(i & label & t0 & y & A & B & T0 & Y & W0 & CA)]]]]; try exact EX.
        - exfalso. destruct (nth_error ms i) as [t|] eqn:MI.
          + apply (NO label (tojson sn t y)); [|now apply member_named_in].
            apply items_in. exists i, (tojson sn t), y. rewrite nth_error_map', MI, SN. auto.
          + apply nth_error_None in MI. destruct (CL i label B). lia.
        - exfalso. apply (NO label (tojson sn t0 y)); [|now apply member_named_in].
          apply items_in. exists i, (tojson sn t0), y. rewrite nth_error_map', T0. repeat split; auto.
          destruct W0 as [->| ->]; auto using orb_true_r. }
      congruence.
Qed.

(** ** What is rejected *)
Definition json_kind (j : jval) : option kind :=
  match j with
  | JNull => None
  | JBool _ => Some KBoolean
  | JNum _ => Some KNumber
  | JStr _ => Some KText
  | JArr _ => Some KArray
  | JObj _ => Some KObject
  end.

Lemma prim_json_kind p x : pval_ok p x = true -> json_kind (prim_json x) = Some (if number p then KNumber else KBoolean).
Proof. destruct p, x; try discriminate; reflexivity. Qed.

Lemma json_kind_of sn t v : has_ty t v = true -> ~ null_value v -> json_kind (tojson sn t v) = Some (kind_of t).
Proof.
  intros V N. destruct t, v; try discriminate; cbn [has_ty] in V; cbn [kind_of]; try reflexivity.
  - now apply prim_json_kind.
  - cbn [null_value] in N. destruct e; [congruence|]. cbn [tojson]. now apply prim_json_kind.
  - destruct (str_json sn null s N) as [-> _]. reflexivity.
Qed.

Lemma kind_fails t u j : shape t u = true -> j <> JNull -> json_kind j <> Some (kind_of t) -> fst (interp t u j) = RFail.
Proof.
  intros S N K. destruct t as [p|p| | |t|ms g], u; try discriminate; destruct j; cbn [json_kind kind_of] in K; try congruence;
    try reflexivity; destruct p; cbn [number] in K; try congruence; reflexivity.
Qed.

Lemma elems_fail f l j : In j l -> fst (f j) <> RGood -> forall acc, fst (interp_elems f l acc) = RFail.
Proof.
  induction l as [|i l IH]; intros I N acc; [destruct I|]. cbn [interp_elems]. destruct I as [->|I].
  - destruct (f j) as [[] x]; try reflexivity. exfalso. now apply N.
  - destruct (f i) as [[] x]; try reflexivity. now apply IH.
Qed.

Theorem rejects_interp strict sn t v t' : rejects sn t v t' -> tables_ok strict t -> tables_ok strict t' -> has_ty t v = true ->
  forall u, shape t' u = true -> fst (interp t' u (tojson sn t v)) = RFail.
Proof.
  intros R. induction R as [t v t' N K|t l t' x I N|t l t' x I R IH|ms g vs ms' g' k k' label t x t' A A' M X M' W R IH]; intros T T' V u S.
  - apply kind_fails; [exact S| |].
    + intros E. pose proof (json_kind_of sn t v V N) as J. rewrite E in J. discriminate J.
    + rewrite json_kind_of by assumption. congruence.
  - destruct u; try discriminate. cbn [interp tojson].
    assert (VX : has_ty t x = true) by (cbn [has_ty] in V; rewrite forallb_forall in V; auto).
    pose proof (elems_fail (interp t' (dflt t')) (map (tojson sn t) l) JNull) as E.
    destruct (interp_elems (interp t' (dflt t')) (map (tojson sn t) l) l0) as [r l'] eqn:EE. cbn [fst].
    assert (Q : fst (interp_elems (interp t' (dflt t')) (map (tojson sn t) l) l0) = RFail).
    { apply E; [|destruct (null_interp t') as [-> _]; discriminate].
      apply in_map_iff. exists x. split; [now apply null_json|exact I]. }
    rewrite EE in Q. exact Q.
  - destruct u; try discriminate. cbn [interp tojson].
    assert (VX : has_ty t x = true) by (cbn [has_ty] in V; rewrite forallb_forall in V; auto).
    pose proof (elems_fail (interp t' (dflt t')) (map (tojson sn t) l) (tojson sn t x)) as E.
    destruct (interp_elems (interp t' (dflt t')) (map (tojson sn t) l) l0) as [r l'] eqn:EE. cbn [fst].
    assert (Q : fst (interp_elems (interp t' (dflt t')) (map (tojson sn t) l) l0) = RFail).
    { apply E; [now apply in_map|]. rewrite IH; [discriminate|exact T|exact T'|exact VX|apply dflt_shape]. }
    rewrite EE in Q. exact Q.
  - destruct u as [| | | | |us]; try discriminate. cbn [interp tojson].
    apply shape_msg in S. apply tables_ok_msg in T' as ((ND1' & ND2' & _) & TM'). apply tables_ok_msg in T as ((ND1 & ND2 & _) & TM).
    rewrite Forall_forall in TM', TM.
    destruct (Forall2_nth_error _ _ _ _ _ S M') as (y & Y & SY).
    destruct (interp_members (g_write g') (map interp ms') (obj_items sn (map (tojson sn) ms) vs (g_write g)) us) as [r us'] eqn:EE.
    cbn [fst]. assert (Q : fst (interp_members (g_write g') (map interp ms') (obj_items sn (map (tojson sn) ms) vs (g_write g)) us) = RFail).
    { apply (members_fail _ _ label (tojson sn t x) k' (interp t')) with (v := y); auto.
      - now apply items_nodup.
      - apply items_in. exists k, (tojson sn t), x. rewrite nth_error_map', M. repeat split; auto.
        destruct W as [->| ->]; auto using orb_true_r.
      - now apply member_named_in.
      - now rewrite nth_error_map', M'.
      - apply IH; auto; [apply TM|apply TM'|]; try (eapply nth_error_In; eauto). eapply has_ty_nth; eauto. }
    rewrite EE in Q. exact Q.
Qed.

(** ** One or the other *)
Lemma each_or {A B} (P : nat -> A -> B -> Prop) (Q : Prop) (l : list A) :
  (forall k a, nth_error l k = Some a -> (exists x, P k a x) \/ Q) ->
  (exists xs, length xs = length l /\ forall k a x, nth_error l k = Some a -> nth_error xs k = Some x -> P k a x) \/ Q.
Proof.
  revert P. induction l as [|a l IH]; intros P H.
  { left. exists []. split; [reflexivity|]. intros [] ? ? E; discriminate E. }
  destruct (IH (fun k => P (S k))) as [(xs & L & E)|q]; [intros k c K; exact (H (S k) c K)| |now right].
  destruct (H 0%nat a eq_refl) as [(x & X)|q]; [|now right].
  left. exists (x :: xs). split; [cbn [length]; now rewrite L|]. intros [|k] c y C Y.
  - injection C as <-. injection Y as <-. exact X.
  - exact (E k c y C Y).
Qed.

Lemma nth_same {A B} (l : list A) (l' : list B) k x : length l = length l' -> nth_error l k = Some x -> exists y, nth_error l' k = Some y.
Proof.
  intros L X. destruct (nth_error l' k) as [y|] eqn:Y; [eauto|]. apply nth_error_None in Y.
  assert (nth_error l k <> None) as Z by congruence. apply nth_error_Some in Z. lia.
Qed.

Lemma label_dec (l : bytes) (ls : list bytes) : In l ls \/ ~ In l ls.
Proof.
  induction ls as [|m ls [I|N]]; [now right|left; now right|].
  destruct (bytes_eqb m l) eqn:E; [left; left; now apply bytes_eqb_true|].
  right. intros [->|I]; [rewrite bytes_eqb_refl in E; discriminate E|auto].
Qed.

Lemma sized_msg ms g : sized (TMsg ms g) -> forall t, In t ms -> sized t.
Proof. intros S. inversion S as [| | | | |? ? F]; subst. now rewrite Forall_forall in F. Qed.

Lemma sized_wf t : sized t -> SpecRange.ty_wf t.
Proof.
  induction t using ty_ind2; intros S; inversion S; subst; constructor; auto.
  - destruct p; try exact I. cbn [prim_sized] in *. cbn [SpecRange.prim_wf]. destruct H0 as [->|[->| ->]]; lia.
  - destruct p; try exact I. cbn [prim_sized] in *. cbn [SpecRange.prim_wf]. destruct H0 as [->|[->| ->]]; lia.
  - rewrite Forall_forall in *. auto.
Qed.
Lemma dflt_sized t : sized t -> has_ty t (dflt t) = true.
Proof. intros S. apply ErrProofs.dflt_ty. now apply sized_wf. Qed.

Theorem carries_or_rejects strict ea sn t' : tables_ok strict t' -> sized t' ->
  forall t v, tables_ok strict t -> sized t -> has_ty t v = true -> jsonable ea strict t v -> ~ null_value v ->
  (exists v', carries sn t v t' v' /\ has_ty t' v' = true) \/ rejects sn t v t'.
Proof.
  induction t' as [p'|p'| | |t' IHt|ms' g' IH] using ty_ind2; intros T' Z' t v T Z V J N.
  - destruct t as [p|p| | |t|ms g]; try (right; apply rj_kind; [exact N|]; cbn [kind_of]; destruct (number p'); discriminate).
    + destruct v as [x| | | | |]; try discriminate. inversion J; subst. inversion Z; subst. inversion Z'; subst.
      destruct (Bool.bool_dec (number p) (number p')) as [E|E].
      * left. destruct (prim_total p x p') as (x' & C & O); auto. exists (VPrim x'). split; [|exact O].
        eapply ca_num; eauto using holds.
      * right. apply rj_kind; [exact N|]. cbn [kind_of]. destruct (number p), (number p'); congruence.
    + destruct v as [|e x| | | |]; try discriminate. cbn [null_value] in N. destruct e; [congruence|]. inversion J; subst. inversion Z; subst. inversion Z'; subst.
      destruct (Bool.bool_dec (number p) (number p')) as [E|E].
      * left. destruct (prim_total p x p') as (x' & C & O); auto. exists (VPrim x'). split; [|exact O].
        eapply ca_num; eauto using holds.
      * right. apply rj_kind; [exact N|]. cbn [kind_of]. destruct (number p), (number p'); congruence.
  - destruct t as [p|p| | |t|ms g]; try (right; apply rj_kind; [exact N|]; cbn [kind_of]; destruct (number p'); discriminate).
    + destruct v as [x| | | | |]; try discriminate. inversion J; subst. inversion Z; subst. inversion Z'; subst.
      destruct (Bool.bool_dec (number p) (number p')) as [E|E].
      * left. destruct (prim_total p x p') as (x' & C & O); auto. exists (VField false x'). split; [|exact O].
        eapply ca_num; eauto using holds.
      * right. apply rj_kind; [exact N|]. cbn [kind_of]. destruct (number p), (number p'); congruence.
    + destruct v as [|e x| | | |]; try discriminate. cbn [null_value] in N. destruct e; [congruence|]. inversion J; subst. inversion Z; subst. inversion Z'; subst.
      destruct (Bool.bool_dec (number p) (number p')) as [E|E].
      * left. destruct (prim_total p x p') as (x' & C & O); auto. exists (VField false x'). split; [|exact O].
        eapply ca_num; eauto using holds.
      * right. apply rj_kind; [exact N|]. cbn [kind_of]. destruct (number p), (number p'); congruence.
  - destruct t as [p|p| | |t|ms g]; try (right; apply rj_kind; [exact N|]; cbn [kind_of]; try destruct (number p); discriminate);
      destruct v; try discriminate; left; eexists; split; try (econstructor; exact N); try constructor.
  - destruct t as [p|p| | |t|ms g]; try (right; apply rj_kind; [exact N|]; cbn [kind_of]; try destruct (number p); discriminate);
      destruct v; try discriminate; left; eexists; split; try (econstructor; exact N); try constructor.
  - destruct t as [p|p| | |t|ms g]; try (right; apply rj_kind; [exact N|]; cbn [kind_of]; try destruct (number p); discriminate).
    destruct v as [| | | |l|]; try discriminate. cbn [tables_ok] in T, T'. inversion Z; subst. inversion Z'; subst.
    inversion J as [| | | | | |? ? JE|]; subst. cbn [has_ty] in V. rewrite forallb_forall in V.
    destruct (each_or (fun _ x x' => carries sn t x t' x' /\ has_ty t' x' = true) (rejects sn (TRep t) (VList l) (TRep t')) l) as [(l' & L & E)|R]; [| |now right].
    + intros k x X. apply nth_error_In in X. destruct (null_or x) as [NX|NX]; [right; eapply rj_null; eauto|].
      destruct (IHt T' H1 t x T H0 (V x X) (JE x X) NX) as [C|R]; [left; exact C|right; eapply rj_elem; eauto].
    + left. exists (VList l'). split.
      * apply ca_rep; [exact L|]. intros i x x' X X'. now apply (E i).
      * cbn [has_ty]. rewrite forallb_forall. intros x' I. apply In_nth_error in I as (i & X').
        destruct (nth_same l' l i x' L X') as (x & X). now apply (E i x x').
  - destruct t as [p|p| | |t|ms g]; try (right; apply rj_kind; [exact N|]; cbn [kind_of]; try destruct (number p); discriminate).
    destruct v as [| | | | |vs]; try discriminate.
    apply tables_ok_msg in T' as ((ND1' & ND2' & CL' & _) & TM'). apply tables_ok_msg in T as ((ND1 & ND2 & CL & _) & TM).
    rewrite Forall_forall in IH, TM', TM. pose proof (has_ty_msg_length _ _ _ V) as L.
    inversion J as [| | | | | | |? ? ? JE]; subst.
    destruct (each_or (fun k' t' x' => slot sn ms g vs g' k' t' x' /\ has_ty t' x' = true) (rejects sn (TMsg ms g) (VMsg vs) (TMsg ms' g')) ms') as [(vs' & L' & E)|R]; [| |now right].
    + intros k' t' MT. assert (ZT : sized t') by (eapply sized_msg; [exact Z'|]; eapply nth_error_In; eauto).
      destruct (in_dec Nat.eq_dec k' (map fst (g_write g'))) as [I|I].
      2:{ left. exists (dflt t'). split; [now apply sl_transient|apply dflt_sized; exact ZT]. }
      apply in_map_iff in I as ([k0 label] & E0 & A'). cbn [fst] in E0. subst k0.
      destruct (label_dec label (map snd (g_write g))) as [I|I].
      2:{ left. exists (dflt t'). split; [now apply sl_absent with (label := label)|apply dflt_sized; exact ZT]. }
      apply in_map_iff in I as ([k l0] & E0 & A). cbn [snd] in E0. subst l0.
      destruct (CL k label A) as (_ & KL).
      destruct (nth_error ms k) as [t|] eqn:M; [|apply nth_error_None in M; lia].
      destruct (nth_error vs k) as [x|] eqn:X; [|apply nth_error_None in X; lia].
      destruct (Bool.bool_dec (sn || negb (vempty x)) true) as [W|W].
      2:{ apply not_true_is_false, orb_false_elim in W as [-> W]. apply negb_false_iff in W.
          left. exists (dflt t'). split; [eapply sl_empty; eauto|apply dflt_sized; exact ZT]. }
      assert (W' : sn = true \/ vempty x = false) by (destruct sn; [now left|right; now apply negb_true_iff]).
      pose proof (has_ty_nth _ _ _ _ _ _ V M X) as VX.
      destruct (null_or x) as [NX|NX].
      { destruct W' as [SN|W']; [|destruct (null_json sn t x VX NX); congruence].
        left. eexists. split; [eapply sl_null; eauto|]. destruct t'; try (apply dflt_sized; exact ZT). reflexivity. }
      destruct (IH t' (nth_error_In _ _ MT)) with (t := t) (v := x) as [(x' & C & O)|R].
      * apply TM'. eapply nth_error_In; eauto.
      * eapply sized_msg; [exact Z'|]. eapply nth_error_In; eauto.
      * apply TM. eapply nth_error_In; eauto.
      * eapply sized_msg; [exact Z|]. eapply nth_error_In; eauto.
      * exact VX.
      * eapply JE; eauto.
      * exact NX.
      * left. exists x'. split; [|exact O]. eapply sl_value; eauto.
      * right. eapply rj_member; eauto.
    + left. exists (VMsg vs'). split.
      * apply ca_msg; auto. intros k' t' x' M X. now apply (E k').
      * assert (F : forall k t x, nth_error ms' k = Some t -> nth_error vs' k = Some x -> has_ty t x = true) by (intros; eapply E; eauto).
        clear - F L'. cbn [has_ty]. revert vs' L' F. induction ms' as [|t ms' IH]; intros [|x vs'] L F; try discriminate; [reflexivity|].
        rewrite (F 0%nat t x eq_refl eq_refl). cbn [andb]. apply IH; [now injection L|]. intros k t0 x0 M X. exact (F (S k) t0 x0 M X).
Qed.

(** ** The interface *)
Lemma evolve_reads t v t' v' po : tables_ok false t -> tables_ok false t' -> lookup_ok t' -> has_ty t v = true ->
  jsonable (po_ea po) false t v -> carries (po_sn po) t v t' v' ->
  exists text, serialize t v po = (true, text, clear_params po) /\
    forall w1 w2 po2, ws w1 -> ws w2 -> exists po2',
      deserialize t' (dflt t') (w1 ++ text ++ w2) po2 = Some (true, v', po2').
Proof.
  intros T T' L V J C. destruct (serialize_jtext false t v po T J) as (text & E & JT).
  exists text. split; [exact E|]. intros w1 w2 po2 W1 W2.
  destruct (deserialize_interp false t' (dflt t') (tojson (po_sn po) t v) (w1 ++ text ++ w2) po2) as (po' & D).
  - exists w1, w2, text. auto.
  - apply dflt_shape.
  - exact L.
  - exists po'. rewrite D, (carries_interp false _ _ T' _ _ _ T V C). reflexivity.
Qed.

Lemma evolve_rejects t v t' po : tables_ok false t -> tables_ok false t' -> lookup_ok t' -> has_ty t v = true ->
  jsonable (po_ea po) false t v -> rejects (po_sn po) t v t' ->
  exists text, serialize t v po = (true, text, clear_params po) /\
    forall u w1 w2 po2, has_ty t' u = true -> ws w1 -> ws w2 -> exists u' po2',
      deserialize t' u (w1 ++ text ++ w2) po2 = Some (false, u', po2').
Proof.
  intros T T' L V J R. destruct (serialize_jtext false t v po T J) as (text & E & JT).
  exists text. split; [exact E|]. intros u w1 w2 po2 U W1 W2.
  destruct (deserialize_interp false t' u (tojson (po_sn po) t v) (w1 ++ text ++ w2) po2) as (po' & D).
  - exists w1, w2, text. auto.
  - now apply has_ty_shape.
  - exact L.
  - exists (snd (interp t' u (tojson (po_sn po) t v))), po'.
    rewrite D, (rejects_interp false _ _ _ _ R T T' V u) by now apply has_ty_shape. reflexivity.
Qed.

Lemma evolve_unique strict sn t v t' : tables_ok strict t -> tables_ok strict t' -> has_ty t v = true ->
  (forall v1 v2, carries sn t v t' v1 -> carries sn t v t' v2 -> v1 = v2) /\
  (forall v1, carries sn t v t' v1 -> ~ rejects sn t v t').
Proof.
  intros T T' V. split.
  - intros v1 v2 C1 C2. pose proof (carries_interp strict _ _ T' _ _ _ T V C1). pose proof (carries_interp strict _ _ T' _ _ _ T V C2). congruence.
  - intros v1 C R. pose proof (carries_interp strict _ _ T' _ _ _ T V C) as E.
    pose proof (rejects_interp strict _ _ _ _ R T T' V _ (dflt_shape t')) as F. rewrite E in F. discriminate F.
Qed.

Lemma evolves_accepts sn t v t' : rejects sn t v t' -> evolves t t' -> no_nulls t v -> False.
Proof.
  intros R. induction R as [t v t' N K|t l t' x I N|t l t' x I R IH|ms g vs ms' g' k k' label t x t' A A' M X M' W R IH]; intros E NN.
  - apply K. destruct E; auto.
  - inversion NN as [? ? Q _|? ? F|]; subst; [now apply Q|]. now apply (F x I).
  - inversion NN as [? ? Q _|? ? F|]; subst; [now apply Q|].
    inversion E as [? ? _ Q|? ? E'|]; subst; [now apply Q|]. apply IH; [exact E'|now apply (F x I)].
  - inversion NN as [? ? _ Q|? ? F|? ? ? F]; subst; [now apply Q|].
    inversion E as [? ? _ _ Q| |? ? ? ? E']; subst; [now apply Q|]. apply IH; [eapply E'; eauto|eapply F; eauto].
Qed.

Lemma evolve_total strict ea sn t v t' : tables_ok strict t -> tables_ok strict t' -> sized t -> sized t' -> evolves t t' ->
  has_ty t v = true -> jsonable ea strict t v -> no_nulls t v -> ~ null_value v ->
  exists v', carries sn t v t' v' /\ has_ty t' v' = true.
Proof.
  intros T T' Z Z' E V J NN N. destruct (carries_or_rejects strict ea sn t' T' Z' t v T Z V J N) as [C|R]; [exact C|].
  exfalso. eapply evolves_accepts; eauto.
Qed.

Lemma faithful_set sn t v : faithful sn t v -> ~ null_value v.
Proof. intros F N. destruct F; cbn [null_value] in N; try contradiction; try discriminate. destruct N. discriminate. Qed.

(** ** The same type *)
Lemma evolve_same strict ea sn t v : tables_ok strict t -> sized t -> has_ty t v = true -> jsonable ea strict t v ->
  faithful sn t v -> carries sn t v t (persist t v).
Proof.
  intros T Z V J F. destruct (carries_or_rejects strict ea sn t T Z t v T Z V J (faithful_set _ _ _ F)) as [(v' & C & _)|R].
  - pose proof (carries_interp strict _ _ T _ _ _ T V C) as E. rewrite (interp_back strict sn t T v F) in E. congruence.
  - pose proof (rejects_interp strict _ _ _ _ R T T V _ (dflt_shape t)) as E. rewrite (interp_back strict sn t T v F) in E. discriminate E.
Qed.

(** ** There and back *)
Lemma extends_empty t t' : extends t t' -> forall x y, carries false t' x t y -> vempty x = true -> (forall p, t <> TPrim p) -> y = dflt t.
Proof.
  intros E x y C M NP. destruct C as [p u t' v p' u' t v' H H' PC|n s N|s|s|n s N|t0 l t0' l' L HE|ms g vs ms0 g0 vs' L L' SL].
  - inversion E; subst; inversion H; subst; inversion H'; subst; try (exfalso; exact (NP _ eq_refl)); try discriminate M.
  - destruct (str_json false n s N). congruence.
  - cbn [vempty] in M. destruct s; [reflexivity|discriminate].
  - inversion E.
  - inversion E.
  - cbn [vempty] in M. destruct l; [|discriminate]. destruct l'; [reflexivity|discriminate].
  - cbn [dflt]. f_equal. apply nth_error_ext. intros k. rewrite nth_error_map'.
    destruct (nth_error ms0 k) as [t|] eqn:K.
    2:{ apply nth_error_None. apply nth_error_None in K. lia. }
    destruct (nth_error vs' k) as [z|] eqn:Z.
    2:{ apply nth_error_None in Z. assert (nth_error ms0 k <> None) as Y by congruence. apply nth_error_Some in Y. lia. }
    destruct (slot_view _ _ _ _ _ _ _ _ (SL k t z K Z)) as [(NI & EX)|[(label & A & NI & EX)|[(i & label & w & A & B & Y & EM & SN & EX)|[(i & label & w & A & B & Y & NV & SN & EX)|(i & label & t1 & w & A & B & T0 & Y & W0 & CA)]]]]; try congruence.
    cbn [vempty] in M. rewrite forallb_forall in M. apply nth_error_In in Y. rewrite (M w Y) in W0. destruct W0; discriminate.
Qed.

Lemma evolve_back strict sn t : tables_ok strict t -> forall t' v v', tables_ok strict t' -> extends t t' -> has_ty t v = true -> faithful sn t v ->
  carries sn t v t' v' -> carries sn t' v' t (persist t v).
Proof.
  induction t as [p|p| | |t IHt|ms g IH] using ty_ind2; intros T t' v v' T' E V F C.
  - inversion E; subst. inversion F; subst. inversion C as [? ? ? ? ? ? ? ? HA HB PC| | | | | |]; subst. inversion HA; subst. inversion HB; subst.
    assert (x' = x); [|subst; exact C].
    pose proof (prim_carries_interp _ _ _ _ (pzero p) PC) as Q. rewrite prim_back in Q by assumption. congruence.
  - inversion E; subst. inversion F; subst. inversion C as [? ? ? ? ? ? ? ? HA HB PC| | | | | |]; subst. inversion HA; subst. inversion HB; subst.
    assert (x' = x); [|subst; exact C].
    pose proof (prim_carries_interp _ _ _ _ (pzero p) PC) as Q. rewrite prim_back in Q by assumption. congruence.
  - inversion E; subst. inversion F; subst. inversion C as [? ? ? ? ? ? ? ? HA HB PC| | | | | |]; subst; [inversion HA|]. exact C.
  - inversion E; subst. inversion F; subst. inversion C as [? ? ? ? ? ? ? ? HA HB PC| | | | | |]; subst; [inversion HA|]. exact C.
  - inversion E as [? Q _|? ? E'|]; subst; [now exfalso; apply Q|]. inversion F; subst.
    inversion C as [? ? ? ? ? ? ? ? HA HB PC| | | | |? ? ? l' L HE|]; subst; [inversion HA|]. cbn [persist]. cbn [has_ty] in V. rewrite forallb_forall in V.
    apply ca_rep; [now rewrite map_length|]. intros i x' y X' Y. rewrite nth_error_map' in Y.
    destruct (nth_error l i) as [x|] eqn:X; [|discriminate]. injection Y as <-.
    pose proof (nth_error_In _ _ X) as IX. apply IHt; eauto.
  - inversion E as [? _ Q| |? ? ms' g' E']; subst; [now exfalso; apply Q|].
    inversion F as [| | | | |? ? vs LV FM]; subst.
    inversion C as [? ? ? ? ? ? ? ? HA HB PC| | | | | |? ? ? ? ? vs' L L' SL]; subst; [inversion HA|]. cbn [persist].
    apply tables_ok_msg in T' as ((ND1' & ND2' & CL' & NP') & TM').
    assert (T0 := T). apply tables_ok_msg in T0 as ((ND1 & ND2 & CL & NPM) & TM). rewrite Forall_forall in IH, TM, TM'.
    apply ca_msg; [exact L'| |].
    { assert (X : forall k, nth_error (persist_members g 0 (map persist ms) (map dflt ms) vs) k = None <-> nth_error ms k = None).
      { intros k. rewrite persist_members_nth, !nth_error_map'. destruct (nth_error ms k) as [t|] eqn:K; [|split; reflexivity].
        destruct (nth_same ms vs k t (eq_sym L) K) as (x & ->). split; discriminate. }
      apply Nat.le_antisymm; apply Nat.nlt_ge; intros Q.
      - apply nth_error_Some in Q. apply Q, X, nth_error_None. lia.
      - apply nth_error_Some in Q. apply Q, X, nth_error_None. lia. }
    intros k t y K Y. rewrite persist_members_nth, !nth_error_map', K in Y. cbn [Nat.add] in Y.
    destruct (nth_same ms vs k t (eq_sym L) K) as (x & X). rewrite X in Y.
    destruct (written g k) eqn:WR; injection Y as <-.
    2:{ apply sl_transient. intros I. apply in_map_iff in I as ([k0 label] & Q & I). cbn [fst] in Q. subst k0.
        assert (written g k = true) by (apply written_in; eauto). congruence. }
    apply written_in in WR as (label & A). destruct (E' k label t A K) as (k' & t' & A' & K' & EX).
    destruct (nth_same ms' vs' k' t' (eq_sym L') K') as (x' & X').
    pose proof (nth_error_In _ _ K) as IK. pose proof (nth_error_In _ _ K') as IK'.
    assert (NP : forall p, t <> TPrim p) by (intros p ->; now apply (NPM p)).
    assert (SAME : forall l i, In (k', l) (g_write g') -> In (i, l) (g_write g) -> l = label /\ i = k).
    { intros l i P1 P2. assert (l = label) by exact (nodup_fst _ _ _ _ ND1' P1 A'). subst l. split; [reflexivity|].
      exact (nodup_snd _ _ _ _ ND2 P2 A). }
    pose proof (has_ty_nth _ _ _ _ _ _ V K X) as VX.
    destruct (slot_view _ _ _ _ _ _ _ _ (SL k' t' x' K' X')) as [(NI & Q)|[(l & B & NI & Q)|[(i & l & z & B & B' & Z & EM & SN & Q)|[(i & l & z & B & B' & Z & NV & SN & Q)|(i & l & t1 & z & B & B' & T1 & Z & W0 & CA)]]]].
    + exfalso. apply NI. now apply elem_In in A'.
    + exfalso. apply NI. assert (l = label) by exact (nodup_fst _ _ _ _ ND1' B A'). subst. now apply elem_In in A.
    + destruct (SAME _ _ B B') as [-> ->]. rewrite X in Z. injection Z as <-. subst x' sn.
      replace (persist t x) with (dflt t).
      * eapply sl_empty; eauto. apply dflt_empty.
      * destruct (FM k label t x A K X) as [Fx|[-> _]]; [|symmetry; apply persist_dflt].
        symmetry. eapply empty_persist; eauto.
    + destruct (SAME _ _ B B') as [-> ->]. rewrite X in Z. injection Z as <-.
      destruct (FM k label t x A K X) as [Fx|[-> SF]]; [now exfalso; apply (faithful_set _ _ _ Fx)|].
      destruct (SF SN) as (p & ->). inversion EX; subst.
      rewrite persist_dflt. apply (sl_null true ms' g' vs' g k' k label (dflt (TField p)) (TField p)); auto; reflexivity.
    + destruct (SAME _ _ B B') as [-> ->]. rewrite X in Z. injection Z as <-. rewrite K in T1. injection T1 as <-.
      destruct (FM k label t x A K X) as [Fx|[-> SF]].
      * assert (CB : carries sn t' x' t (persist t x)) by (apply IH; auto).
        destruct (Bool.bool_dec (sn || negb (vempty x')) true) as [W|W].
        -- eapply sl_value; eauto. destruct sn; [now left|right; now apply negb_true_iff].
        -- apply not_true_is_false, orb_false_elim in W as [-> W]. apply negb_false_iff in W.
           rewrite (extends_empty t t' EX x' _ CB W NP). eapply sl_empty; eauto.
      * rewrite dflt_empty in W0. destruct W0 as [->|W0]; [|discriminate]. destruct (SF eq_refl) as (p & ->).
        inversion CA as [? ? ? ? ? ? ? ? HA HB PC| | | | | |]; subst. inversion HA.
Qed.

Lemma dflt_jsonable ea strict t : (forall p, t <> TPrim p) -> tables_ok strict t -> jsonable ea strict t (dflt t).
Proof.
  induction t using ty_ind2; intros NP T; cbn [dflt].
  - exfalso; exact (NP _ eq_refl).
  - apply js_unset.
  - apply js_null. reflexivity.
  - apply js_b64.
  - apply js_rep. intros x [].
  - apply js_msg. apply tables_ok_msg in T as ((_ & _ & _ & NPM) & TM). rewrite Forall_forall in H, TM.
    intros k label t x A K X. rewrite nth_error_map', K in X. injection X as <-. pose proof (nth_error_In _ _ K) as IK.
    apply H; auto. intros p ->. now apply (NPM p).
Qed.

Lemma evolve_jsonable strict ea sn t : tables_ok strict t -> forall t' v v', tables_ok strict t' -> extends t t' -> has_ty t v = true -> faithful sn t v ->
  jsonable ea strict t v -> carries sn t v t' v' -> jsonable ea strict t' v'.
Proof.
  induction t as [p|p| | |t IHt|ms g IH] using ty_ind2; intros T t' v v' T' E V F J C.
  - inversion E; subst. inversion F; subst. inversion C as [? ? ? ? ? ? ? ? HA HB PC| | | | | |]; subst. inversion HA; subst. inversion HB; subst.
    pose proof (prim_carries_interp _ _ _ _ (pzero p) PC) as Q. rewrite prim_back in Q by assumption. injection Q as <-. exact J.
  - inversion E; subst. inversion F; subst. inversion C as [? ? ? ? ? ? ? ? HA HB PC| | | | | |]; subst. inversion HA; subst. inversion HB; subst.
    pose proof (prim_carries_interp _ _ _ _ (pzero p) PC) as Q. rewrite prim_back in Q by assumption. injection Q as <-. exact J.
  - inversion E; subst. inversion F; subst. inversion C as [? ? ? ? ? ? ? ? HA HB PC| | | | | |]; subst; [inversion HA|]. exact J.
  - inversion E; subst. inversion F; subst. inversion C as [? ? ? ? ? ? ? ? HA HB PC| | | | | |]; subst; [inversion HA|]. exact J.
  - inversion E as [? Q _|? ? E'|]; subst; [now exfalso; apply Q|]. inversion F; subst.
    inversion C as [? ? ? ? ? ? ? ? HA HB PC| | | | |? ? ? l' L HE|]; subst; [inversion HA|]. cbn [has_ty] in V. rewrite forallb_forall in V.
    inversion J as [| | | | | |? ? JE|]; subst. constructor. intros x' I. apply In_nth_error in I as (i & X').
    destruct (nth_same l' l i x' L X') as (x & X). pose proof (nth_error_In _ _ X) as IX. apply (IHt T t'0 x); eauto.
  - inversion E as [? _ Q| |? ? ms' g' E']; subst; [now exfalso; apply Q|].
    inversion F as [| | | | |? ? vs LV FM]; subst.
    inversion C as [? ? ? ? ? ? ? ? HA HB PC| | | | | |? ? ? ? ? vs' L L' SL]; subst; [inversion HA|].
    apply tables_ok_msg in T' as ((ND1' & ND2' & CL' & NP') & TM').
    assert (T0 := T). apply tables_ok_msg in T0 as ((ND1 & ND2 & CL & NPM) & TM). rewrite Forall_forall in IH, TM, TM'.
    inversion J as [| | | | | | |? ? ? JE]; subst. constructor. intros k' label t' x' A' K' X'.
    pose proof (nth_error_In _ _ K') as IK'.
    assert (D : jsonable ea strict t' (dflt t')) by (apply dflt_jsonable; auto; intros p ->; now apply (NP' p)).
    destruct (slot_view _ _ _ _ _ _ _ _ (SL k' t' x' K' X')) as [(NI & Q)|[(l & B & NI & Q)|[(i & l & z & B & B' & Z & EM & SN & Q)|[(i & l & z & B & B' & Z & NV & SN & Q)|(i & l & t1 & z & B & B' & T1 & Z & W0 & CA)]]]]; try (subst x'; exact D).
    + subst x'. destruct t'; try exact D. apply js_str; [|constructor]. intros _. constructor.
    + assert (l = label) by exact (nodup_fst _ _ _ _ ND1' B A'). subst l.
      destruct (E' i label t1 B' T1) as (k2 & t2 & A2 & K2 & EX). assert (k2 = k') by exact (nodup_snd _ _ _ _ ND2' A2 A'). subst k2.
      rewrite K' in K2. injection K2 as <-. pose proof (nth_error_In _ _ T1) as I1.
      destruct (FM i label t1 z B' T1 Z) as [Fx|[-> SF]].
      * apply (IH t1 I1) with (v := z); auto; [eapply has_ty_nth; eauto|eapply JE; eauto].
      * rewrite dflt_empty in W0. destruct W0 as [->|W0]; [|discriminate]. destruct (SF eq_refl) as (p & ->).
        inversion CA as [? ? ? ? ? ? ? ? HA HB PC| | | | | |]; subst. inversion HA.
Qed.

Lemma extends_evolves strict t : tables_ok strict t -> forall t', tables_ok strict t' -> extends t t' -> evolves t t'.
Proof.
  induction t as [p|p| | |t IHt|ms g IH] using ty_ind2; intros T t' T' E; try (inversion E as [? Q Q'| |]; subst; apply ev_scalar; auto; fail).
  - inversion E as [? Q _|? ? E'|]; subst; [now exfalso; apply Q|]. apply ev_rep. apply IHt; auto.
  - inversion E as [? _ Q| |? ? ms' g' E']; subst; [now exfalso; apply Q|].
    apply tables_ok_msg in T' as ((ND1' & ND2' & CL' & NP') & TM').
    apply tables_ok_msg in T as ((ND1 & ND2 & CL & NPM) & TM). rewrite Forall_forall in IH, TM, TM'.
    apply ev_msg. intros k k' label t t' A A' K K'. destruct (E' k label t A K) as (k2 & t2 & A2 & K2 & EX).
    assert (k2 = k') by exact (nodup_snd _ _ _ _ ND2' A2 A'). subst k2. rewrite K' in K2. injection K2 as <-.
    apply IH; auto; [|apply TM|apply TM']; eapply nth_error_In; eauto.
Qed.

Lemma faithful_no_nulls sn t v : faithful sn t v -> no_nulls t v.
Proof.
  revert v. induction t as [p|p| | |t IHt|ms g IH] using ty_ind2; intros v F; inversion F as [| | | |? ? H|? ? ? L H]; subst;
    try (apply nn_scalar; try (cbn [kind_of]; destruct (number p)); discriminate).
  - apply nn_rep. intros x I. split; [eapply faithful_set; eauto|auto].
  - rewrite Forall_forall in IH. apply nn_msg. intros k label t x A K X. pose proof (nth_error_In _ _ K) as IK.
    destruct (H k label t x A K X) as [Fx|[-> _]]; [apply IH; auto|]. clear.
    induction t as [p|p| | |t IHt|ms g IH] using ty_ind2; try (apply nn_scalar; try (cbn [kind_of]; destruct (number p)); discriminate).
    + apply nn_rep. intros x [].
    + rewrite Forall_forall in IH. apply nn_msg. intros k label t x _ K X. rewrite nth_error_map', K in X. injection X as <-.
      apply IH. eapply nth_error_In; eauto.
Qed.

(** Through a program with the extended type nothing is lost. *)
Lemma evolve_there_and_back t v t' po po2 : tables_ok false t -> tables_ok false t' -> lookup_ok t -> lookup_ok t' -> sized t -> sized t' ->
  extends t t' -> has_ty t v = true -> faithful (po_sn po) t v -> po_sn po2 = po_sn po ->
  jsonable (po_ea po) false t v -> jsonable (po_ea po2) false t v ->
  exists text v' text2, serialize t v po = (true, text, clear_params po) /\
    (forall po1, exists po1', deserialize t' (dflt t') text po1 = Some (true, v', po1')) /\
    serialize t' v' po2 = (true, text2, clear_params po2) /\
    (forall po1, exists po1', deserialize t (dflt t) text2 po1 = Some (true, persist t v, po1')).
Proof.
  intros T T' L L' Z Z' E V F SN J J2.
  destruct (evolve_total false (po_ea po) (po_sn po) t v t' T T' Z Z' (extends_evolves false t T t' T' E) V J (faithful_no_nulls _ _ _ F) (faithful_set _ _ _ F)) as (v' & C & V').
  destruct (evolve_reads t v t' v' po T T' L' V J C) as (text & S1 & R1).
  assert (C2 : carries (po_sn po2) t' v' t (persist t v)) by (rewrite SN; exact (evolve_back false _ _ T _ _ _ T' E V F C)).
  assert (JJ : jsonable (po_ea po2) false t' v') by exact (evolve_jsonable false _ _ _ T _ _ _ T' E V F J2 C).
  destruct (evolve_reads t' v' t (persist t v) po2 T' T L V' JJ C2) as (text2 & S2 & R2).
  exists text, v', text2. split; [exact S1|]. split; [|split; [exact S2|]].
  - intros po1. specialize (R1 [] [] po1 eq_refl eq_refl). cbn [app] in R1. now rewrite app_nil_r in R1.
  - intros po1. specialize (R2 [] [] po1 eq_refl eq_refl). cbn [app] in R2. now rewrite app_nil_r in R2.
Qed.
