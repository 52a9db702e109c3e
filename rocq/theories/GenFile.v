(** The whole generator: the file it makes, and when it makes none. *)
From Coq Require Import Lia.
From Verif Require Import Bytes BaseProofs Num Types Read ProtoLex ProtoParse Printer Codes Cpp Gen SpecPrint PrinterProofs SpecGen SpecCpp SpecFile SortProofs GenText.

(** ** Success *)
Lemma gput_plain s : plain_text s -> gput s [] = (detab s, GOk tt).
Proof.
  intros [D N]. apply gput_eq. pose proof (print_pieces [] [PText s]) as P. unfold format_text, format_out in P. cbn [map concat piece_text piece_out] in P.
  rewrite !app_nil_r in P. apply P; [reflexivity|]. repeat constructor; assumption.
Qed.

Lemma gwhen_plain (x : bool) s : plain_text s -> gwhen x (gput s []) = (if x then detab s else [], GOk tt).
Proof. intros P. destruct x; [now apply gput_plain|reflexivity]. Qed.

Lemma inclusions_eq cfg msgs : build_fine cfg -> gen_inclusions cfg msgs = (headers_text cfg (header_flags msgs), GOk (header_flags msgs)).
Proof.
  intros F. unfold build_fine in F. rewrite !Forall_cons_iff in F. destruct F as (F1 & F2 & F3 & F4 & F5 & F6 & _). unfold gen_inclusions. cbv zeta.
  erewrite gbind_eq; [|now apply gput_plain|]. 2:{ erewrite gbind_eq; [|now apply gput_plain|]. 2:{ erewrite gbind_eq; [|now apply gwhen_plain|].
    2:{ erewrite gbind_eq; [|now apply gwhen_plain|]. 2:{ erewrite gbind_eq; [|now apply gwhen_plain|]. 2:{ erewrite gbind_eq; [|now apply gwhen_plain|apply gret_eq]. reflexivity. }
    reflexivity. } reflexivity. } reflexivity. } reflexivity. }
  rewrite app_nil_r. reflexivity.
Qed.

Lemma uses_spec msgs (q : field -> bool) (P : field -> Prop) : (forall f, q f = true <-> P f) -> (any_field msgs q = true <-> uses msgs P).
Proof.
  intros H. unfold any_field, uses. rewrite existsb_exists. split.
  - intros (m & M & F). apply existsb_exists in F as (f & F & Q). exists m, f. now rewrite H in Q.
  - intros (m & f & M & F & Q). exists m. split; [exact M|]. apply existsb_exists. exists f. now rewrite H.
Qed.

Lemma flags_wanted msgs : wanted msgs (header_flags msgs).
Proof.
  unfold wanted, header_flags. cbn [h_array h_base64 h_number h_string]. refine (conj _ (conj _ (conj _ _))); apply uses_spec; intros f.
  - reflexivity.
  - rewrite andb_true_iff. destruct (f_type f); intuition congruence.
  - unfold numeric. destruct (f_type f); intuition congruence.
  - destruct (f_type f); intuition congruence.
Qed.

Lemma wanted_unique msgs h : wanted msgs h -> h = header_flags msgs.
Proof.
  pose proof (flags_wanted msgs) as W. intros H. destruct h as [a c d e], (header_flags msgs) as [a' c' d' e']. unfold wanted in *. cbn [h_array h_base64 h_number h_string] in *.
  assert (E : forall x y : bool, (x = true <-> y = true) -> x = y) by (intros [] [] [X Y]; auto; discriminate (X eq_refl) || discriminate (Y eq_refl)).
  f_equal; apply E; intuition.
Qed.

Lemma guard_eq file : make_guard file = guard_of file.
Proof. reflexivity. Qed.

Lemma g_header ver file g : gput CODE_HEADER [ver; file; g] = (head_text ver file g, GOk tt).
Proof. unfold head_text, license. apply gput_eq. unfold ln. cbn [map concat]. repeat rewrite <- app_assoc. vm_compute. reflexivity. Qed.

Lemma g_endif g : gput (b "#endif // $1$" ++ [LF]) [g] = (ln (b "#endif // " ++ g), GOk tt).
Proof. tpl. Qed.

Lemma refs_fine msgs m : refs_ok msgs -> In m msgs -> Forall (ref_fine msgs) (m_fields m).
Proof.
  intros R M. apply Forall_forall. intros f F T. destruct (R m f M F) as [V N]. destruct (f_ref f) as [k|] eqn:K; [|exfalso; now apply N].
  specialize (V k eq_refl). destruct (nth_error msgs k) as [m'|] eqn:E; [|apply nth_error_None in E; lia]. exists k, m'. auto.
Qed.

Lemma gen_order cfg p order : refs_ok (pr_messages p) -> (forall m, In m (pr_messages p) -> message_fine m) -> (forall k, In k order -> (k < length (pr_messages p))%nat) ->
  geach (fun k => m <-- nth_message (pr_messages p) k ;;; gen_message cfg (pr_messages p) (flag (pr_options p) (b "obfuscate_strings"))
    (flag (pr_options p) (b "cpp_use_lists")) (flag (pr_options p) (b "number_names")) m) order =
  (concat (map (class_text (b_naming cfg)) (classes_of p order)), GOk (classes_of p order)).
Proof.
  intros R F. induction order as [|k order IH]; intros K; [reflexivity|]. cbn [geach]. unfold classes_of. cbv zeta. cbn [map concat].
  destruct (nth_error (pr_messages p) k) as [m|] eqn:M.
  2:{ apply nth_error_None in M. specialize (K k (or_introl eq_refl)). lia. }
  erewrite gbind_eq.
  3:{ erewrite gbind_eq; [|apply IH; intros x X; apply K; now right|apply gret_eq]. reflexivity. }
  2:{ unfold nth_message. rewrite M. erewrite gbind_eq; [|apply gret_eq|apply gen_message_eq]; [reflexivity| |].
      - apply F. now apply nth_error_In in M.
      - apply refs_fine; [exact R|now apply nth_error_In in M]. }
  cbn [app map concat]. rewrite app_nil_r. reflexivity.
Qed.

Lemma generate_sorted cfg p order : build_fine cfg -> refs_ok (pr_messages p) -> proto_fine p ->
  sort_messages (pr_messages p) = ([], GOk order) -> well_ordered (pr_messages p) order ->
  generate cfg p = (output_text cfg (pr_file p) (header_flags (pr_messages p)) (classes_of p order), GOk (header_flags (pr_messages p), classes_of p order)).
Proof.
  intros B R (O & F & C) S W. unfold generate.
  erewrite gbind_eq; [|apply opt_bool_eq, O; now left|]. 2:{ erewrite gbind_eq; [|apply opt_bool_eq, O; right; now left|]. 2:{ erewrite gbind_eq; [|apply opt_bool_eq, O; right; right; now left|].
    2:{ erewrite gbind_eq; [|now apply inclusions_eq|]. 2:{ erewrite gbind_eq; [| |apply gret_eq]. 2:{ unfold gen_file. cbv zeta. rewrite guard_eq.
      erewrite gbind_eq; [|apply g_header|]. 2:{ erewrite gbind_eq; [|exact S|]. 2:{ erewrite gbind_eq; [|apply (gen_order cfg p); [exact R|exact F|]|].
        - reflexivity.
        - intros k K. now apply W.
        - erewrite gbind_eq; [|apply g_endif|apply gret_eq]. reflexivity. } reflexivity. } reflexivity. } reflexivity. } reflexivity. } reflexivity. } reflexivity. }
  cbn [app]. rewrite !app_nil_r. unfold output_text. repeat rewrite <- app_assoc. reflexivity.
Qed.

Lemma generate_ok cfg p : build_fine cfg -> refs_ok (pr_messages p) -> proto_fine p -> exists h order,
  wanted (pr_messages p) h /\ well_ordered (pr_messages p) order /\
  generate cfg p = (output_text cfg (pr_file p) h (classes_of p order), GOk (h, classes_of p order)).
Proof.
  intros B R F. destruct (sort_exact (pr_messages p) R) as [(order & S & W & _)|(e & _ & _ & X)]; [|now destruct F as (_ & _ & F)].
  exists (header_flags (pr_messages p)), order. split; [apply flags_wanted|]. split; [exact W|]. now apply generate_sorted.
Qed.

(** ** Failure *)
Definition outcome {A} (P : bytes -> Z -> Z -> Prop) (Q : A -> Prop) (m : G A) : Prop :=
  match snd m with GOk a => Q a | GThrow e l c => P e l c | GUndef | GFuel => False end.

Lemma outcome_bind {A B} P (Q : A -> Prop) (R : B -> Prop) m k : outcome P Q m -> (forall a, Q a -> outcome P R (k a)) -> outcome P R (gbind m k).
Proof. unfold outcome, gbind. destruct m as [t [a|e l c| |]]; cbn [fst snd]; intros H K; try exact H. exact (K a H). Qed.

Lemma outcome_weaken {A} (P P' : bytes -> Z -> Z -> Prop) (Q Q' : A -> Prop) m : (forall e l c, P e l c -> P' e l c) -> (forall a, Q a -> Q' a) -> outcome P Q m -> outcome P' Q' m.
Proof. unfold outcome. destruct (snd m); auto. Qed.

Lemma outcome_ret {A} P (Q : A -> Prop) a : Q a -> outcome P Q (gret a).
Proof. auto. Qed.

Lemma outcome_eq {A} P (Q : A -> Prop) m t a : m = (t, GOk a) -> Q a -> outcome P Q m.
Proof. intros ->. auto. Qed.

Lemma outcome_step {A B} P (R : B -> Prop) (m : G A) k t a : m = (t, GOk a) -> outcome P R (k a) -> outcome P R (gbind m k).
Proof. intros -> H. unfold outcome, gbind in *. exact H. Qed.

Lemma outcome_bool o n : outcome (fun e l c => exists x, o_find n o = Some x /\ o_type x <> OBoolean /\ e = b "The value for '" ++ n ++ b "' must be a boolean" /\ l = o_line x /\ c = 1)
  (fun t => t = flag o n /\ is_bool o n) (opt_bool o n false).
Proof.
  unfold outcome, opt_bool, flag, is_bool. destruct (o_find n o) as [x|]; [|cbn; auto]. destruct (o_type x) eqn:T; cbn; auto; exists x; repeat split; auto; congruence.
Qed.

Lemma outcome_transient f : outcome (field_failure f) (fun t => t = transient f /\ is_bool (f_options f) (b "transient")) (is_transient f).
Proof. eapply outcome_weaken; [| |apply outcome_bool]; [|auto]. intros e l c (x & H). left. exists x. exact H. Qed.

Lemma outcome_label numbers f : transient f = false -> outcome (field_failure f) (fun _ => name_fine f) (field_label numbers f).
Proof.
  intros T. unfold field_label, json_name. eapply outcome_bind; [|intros a H; apply outcome_ret; exact H].
  apply (outcome_bind _ (fun n => n = given_name f /\ match o_find (b "name") (f_options f) with None => True | Some e => o_type e = OString end)).
  - unfold outcome, opt_string, given_name. destruct (o_find (b "name") (f_options f)) as [x|] eqn:X; [|cbn; auto].
    destruct (o_type x) eqn:Y; cbn; auto; right; left; (split; [exact T|]); exists x; repeat split; auto; congruence.
  - intros n [-> S]. unfold outcome, name_fine. destruct (existsb is_quote (given_name f)) eqn:Q; cbn [gthrow gret snd].
    + right. right. split; [exact T|]. split; [|auto]. apply existsb_exists in Q as (c & I & Q). unfold is_quote in Q.
      apply orb_true_iff in Q as [Q|Q]; apply Ascii.eqb_eq in Q; subst; auto.
    + split; [exact S|]. split; intros I; (assert (existsb is_quote (given_name f) = true) by (apply existsb_exists; eexists; split; [exact I|reflexivity]); congruence).
Qed.

Lemma outcome_field {A} (Q : A -> Prop) m f l : In f l -> outcome (field_failure f) Q m -> outcome (fun e n c => exists f, In f l /\ field_failure f e n c) Q m.
Proof. intros I. apply outcome_weaken; [|auto]. intros e n c X. exists f. auto. Qed.

Lemma outcome_persist {B} (g : Z -> field -> G B) (R : field -> Prop) l :
  (forall i f, In f l -> transient f = false -> outcome (field_failure f) (fun _ => R f) (g i f)) -> forall i,
  outcome (fun e n c => exists f, In f l /\ field_failure f e n c)
    (fun _ => forall f, In f l -> is_bool (f_options f) (b "transient") /\ (transient f = false -> R f)) (gpersist g i l).
Proof.
  induction l as [|f l IH]; intros H i; [intros f []|]. cbn [gpersist].
  eapply outcome_bind; [eapply outcome_field; [|apply (outcome_transient f)]; now left|].
  intros t [-> T]. assert (IH' : forall i, outcome (fun e n c => exists f', In f' (f :: l) /\ field_failure f' e n c)
    (fun _ => forall f, In f l -> is_bool (f_options f) (b "transient") /\ (transient f = false -> R f)) (gpersist g i l)).
  { intros i'. eapply outcome_weaken; [| |apply IH]; [|auto|intros; apply H; [now right|assumption]]. intros e n c (f' & F' & X). exists f'. split; [now right|exact X]. }
  destruct (transient f) eqn:TR.
  - eapply outcome_weaken; [| |apply IH']; [auto|]. intros ys A f' [<-|F']; [|auto]. split; [exact T|congruence].
  - eapply outcome_bind; [eapply outcome_field; [|apply (H i f); [now left|exact TR]]; now left|].
    intros y0 RF. eapply outcome_bind; [apply IH'|]. intros ys A. apply outcome_ret. intros f' [<-|F']; [|auto]. split; auto.
Qed.

Lemma outcome_any l : outcome (fun e n c => exists f, In f l /\ field_failure f e n c)
  (fun x : bool => x = false -> forall f, In f l -> is_bool (f_options f) (b "transient") /\ transient f = true) (any_persistent l).
Proof.
  induction l as [|f l IH]; [intros _ f []|]. cbn [any_persistent].
  eapply outcome_bind; [eapply outcome_field; [|apply (outcome_transient f)]; now left|].
  intros t [-> T]. destruct (transient f) eqn:TR; [|apply outcome_ret; discriminate].
  eapply outcome_weaken; [| |apply IH].
  - intros e n c (f' & F' & X). exists f'. split; [now right|exact X].
  - intros x H E f' [<-|F']; auto.
Qed.

Section Message.
  Variable cfg : build.
  Variable msgs : list message.
  Variables obf lists numbers : bool.

  Lemma outcome_read m t x : outcome (message_failure m) (fun _ => True) (gen_read_field m t x).
  Proof.
    unfold gen_read_field. destruct (no_fields m || negb x).
    - eapply outcome_step; [apply g_read_empty|]. now apply outcome_ret.
    - eapply outcome_step; [apply g_read_header|]. eapply outcome_bind.
      + eapply outcome_weaken; [| |apply (outcome_persist _ (fun _ => True))]; [| |].
        * intros e n c H. right. exact H.
        * intros a _. exact I.
        * intros i f _ _. eapply outcome_step; [apply g_read_item|]. now apply outcome_ret.
      + intros cs _. eapply outcome_step; [apply g_read_footer|]. now apply outcome_ret.
  Qed.

  Lemma outcome_write m t x : (x = false -> forall f, In f (m_fields m) -> is_bool (f_options f) (b "transient") /\ transient f = true) ->
    outcome (message_failure m) (fun _ => Forall field_fine (m_fields m)) (gen_write cfg obf numbers m t x).
  Proof.
    intros A. unfold gen_write. destruct (no_fields m || negb x) eqn:C.
    - eapply outcome_step; [apply g_write_empty|]. apply outcome_ret.
      unfold no_fields in C. destruct (m_fields m) as [|f0 r0]; [constructor|]. destruct x; [discriminate|].
      apply Forall_forall. intros f F. destruct (A eq_refl f F). split; [assumption|congruence].
    - eapply outcome_step; [apply g_write_header|]. eapply outcome_bind.
      + eapply outcome_weaken; [| |apply (outcome_persist _ name_fine)].
        * intros e n c H. right. exact H.
        * intros a H. exact H.
        * intros i f _ T. eapply outcome_bind; [now apply outcome_label|]. intros l NF. eapply outcome_step; [apply label_text_eq|].
          eapply outcome_step; [apply g_write_item|]. now apply outcome_ret.
      + intros ws H. eapply outcome_step; [apply g_write_footer|]. apply outcome_ret.
        apply Forall_forall. intros f F. apply (H f F).
  Qed.

  Lemma outcome_index m x : outcome (message_failure m) (fun _ => True) (gen_index_fn obf numbers m x).
  Proof.
    unfold gen_index_fn. destruct (no_fields m || negb x).
    - eapply outcome_step; [apply (g_index_empty false)|]. now apply outcome_ret.
    - eapply outcome_step; [apply g_index_header|]. eapply outcome_bind.
      + eapply outcome_weaken; [| |apply (outcome_persist _ name_fine)].
        * intros e n c H. right. exact H.
        * intros a _. exact I.
        * intros i f _ T. eapply outcome_bind; [now apply outcome_label|]. intros l NF. cbv zeta.
          eapply outcome_step; [apply g_index_item|]. now apply outcome_ret.
      + intros cs _. eapply outcome_step; [apply g_index_footer|]. now apply outcome_ret.
  Qed.

  Lemma outcome_message m : Forall (ref_fine msgs) (m_fields m) ->
    outcome (message_failure m) (fun _ => message_fine m) (gen_message cfg msgs obf lists numbers m).
  Proof.
    intros R. unfold gen_message. destruct (64 <? Z.of_nat (length (m_fields m))) eqn:L.
    - apply Z.ltb_lt in L. left. split; [lia|auto].
    - apply Z.ltb_ge in L. eapply outcome_step; [apply g_title|].
      eapply outcome_step; [now apply (gen_model_eq cfg msgs obf lists numbers m)|].
      apply (outcome_bind _ (fun _ => Forall field_fine (m_fields m))).
      + unfold gen_wrapper. cbv zeta. eapply outcome_bind; [eapply outcome_weaken; [| |apply outcome_any]; [intros e n c H; right; exact H|intros a H; exact H]|]. intros x X.
        eapply outcome_step; [apply g_model_header|].
        eapply outcome_bind; [apply outcome_read|]. intros cs _. eapply outcome_bind; [apply outcome_write; exact X|]. intros ws W.
        eapply outcome_step; [apply gen_empty_eq|].
        eapply outcome_step; [apply gen_clear_eq|].
        eapply outcome_step; [apply gen_equal_eq|].
        eapply outcome_step; [apply gen_swap_eq|].
        eapply outcome_bind; [apply outcome_index|]. intros is _.
        eapply outcome_step; [apply g_model_footer|]. now apply outcome_ret.
      + intros c F. eapply outcome_step; [apply (gen_entity_eq cfg msgs obf lists numbers m)|]. apply outcome_ret. split; [lia|exact F].
  Qed.
End Message.

Lemma outcome_each {A B} (P : bytes -> Z -> Z -> Prop) (R : A -> Prop) (f : A -> G B) l :
  (forall x, In x l -> outcome P (fun _ => R x) (f x)) -> outcome P (fun _ => forall x, In x l -> R x) (geach f l).
Proof.
  induction l as [|x l IH]; intros H; [intros x []|]. cbn [geach]. eapply outcome_bind; [apply H; now left|]. intros y RX.
  eapply outcome_bind; [apply IH; intros z Z; apply H; now right|]. intros ys RL. apply outcome_ret. intros z [<-|Z]; auto.
Qed.

Lemma outcome_generate cfg p : build_fine cfg -> refs_ok (pr_messages p) -> outcome (failure p) (fun _ => proto_fine p) (generate cfg p).
Proof.
  intros B R. unfold generate.
  assert (O : forall n, In n file_flags -> outcome (failure p) (fun _ => is_bool (pr_options p) n) (opt_bool (pr_options p) n false)).
  { intros n N. eapply outcome_weaken; [| |apply outcome_bool]; [|intros a [_ H]; exact H]. intros e l c (o & H). left. exists n, o. tauto. }
  eapply outcome_bind; [apply O; now left|]. intros obf O1. eapply outcome_bind; [apply O; right; now left|]. intros lists O2.
  eapply outcome_bind; [apply O; right; right; now left|]. intros numbers O3.
  eapply outcome_step; [now apply inclusions_eq|].
  apply (outcome_bind _ (fun _ => (forall m, In m (pr_messages p) -> message_fine m) /\ ~ cyclic (pr_messages p))).
  - unfold gen_file. cbv zeta. eapply outcome_step; [apply g_header|].
    destruct (sort_exact (pr_messages p) R) as [(order & S & W & C)|(e & S & C & X)].
    + rewrite S. eapply outcome_bind; [eapply outcome_eq with (Q := eq order); reflexivity|]. intros o <-. eapply outcome_bind.
      * apply (outcome_each _ (fun k => forall m, nth_error (pr_messages p) k = Some m -> message_fine m)). intros k K. unfold nth_message.
        destruct (nth_error (pr_messages p) k) as [m|] eqn:M.
        -- eapply outcome_bind; [apply outcome_ret with (Q := eq m); reflexivity|]. intros m' <-.
           assert (IM : In m (pr_messages p)) by now apply nth_error_In in M.
           eapply outcome_weaken; [| |apply (outcome_message cfg (pr_messages p) obf lists numbers m)].
           ++ intros e l c H. right. right. exists m. auto.
           ++ intros a F m' E. now inversion E; subst.
           ++ now apply refs_fine.
        -- apply nth_error_None in M. apply W in K. lia.
      * intros cs F. eapply outcome_step; [apply g_endif|]. apply outcome_ret. split; [|exact C].
        intros m M. apply In_nth_error in M as (k & K). apply (F k); [|exact K]. apply W. apply nth_error_Some. congruence.
    + rewrite S. unfold outcome, gbind. cbn [fst snd]. right. left. auto.
  - intros cs [F C]. apply outcome_ret. split; [|split; assumption]. intros n [<-|[<-|[<-|[]]]]; assumption.
Qed.

(** [generate] succeeds exactly for a fine schema, with this file; otherwise it throws for one of the reasons. *)
Lemma generate_exact cfg p : build_fine cfg -> refs_ok (pr_messages p) ->
  (proto_fine p /\ exists h order, wanted (pr_messages p) h /\ well_ordered (pr_messages p) order /\
     generate cfg p = (output_text cfg (pr_file p) h (classes_of p order), GOk (h, classes_of p order))) \/
  (~ proto_fine p /\ exists t e l c, generate cfg p = (t, GThrow e l c) /\ failure p e l c).
Proof.
  intros B R. pose proof (outcome_generate cfg p B R) as O. unfold outcome in O. destruct (generate cfg p) as [t [a|e l c| |]] eqn:E; cbn [snd] in O; try contradiction.
  - left. split; [exact O|]. destruct (generate_ok cfg p B R O) as (h & order & W & S & G). exists h, order. rewrite <- E. auto.
  - right. split; [|exists t, e, l, c; auto]. intros F. destruct (generate_ok cfg p B R F) as (h & order & _ & _ & G). congruence.
Qed.
