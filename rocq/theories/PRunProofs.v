(** What every run of the parser satisfies. *)
From Verif Require Import Bytes BaseProofs Num ProtoLex ProtoParse SpecProto PLexProofs PNextProofs PSimProofs.

(** Tokens of the lexer. *)
Definition tok_wf (t : token) : Prop :=
  match t_code t with
  | KType FMessage => False
  | KName => ident (t_value t) /\ ~ In (t_value t) reserved_words
  | KQName => dotted (t_value t) /\ ~ In (t_value t) reserved_words
  | KMessage => t_value t = b "message"
  | KPackage => t_value t = b "package"
  | KInteger => t_value t <> [] /\ Forall pdigit (t_value t)
  | KString => Forall str_char (t_value t)
  | KTrue => t_value t = b "true"
  | KFalse => t_value t = b "false"
  | _ => True
  end.

Definition oentry_wf (e : oentry) : Prop :=
  plain_dotted (o_name e) /\
  match o_type e with
  | OBoolean => o_value e = b "true" \/ o_value e = b "false"
  | OIdentifier => plain_dotted (o_value e)
  | OInteger => o_value e <> [] /\ Forall pdigit (o_value e)
  | OString => Forall str_char (o_value e)
  end.
Definition omap_wf (m : omap) : Prop := Forall oentry_wf m /\ NoDup (map o_name m).

(** [ref_ok msgs f]: a reference that is set is the first message with the name. *)
Definition ref_ok (msgs : list message) (f : field) : Prop :=
  f_ref f = None \/ f_type f = FMessage /\ exists k, f_ref f = Some k /\ find_message msgs (f_qname f) = Some k.

Definition type_wf (pkg : bytes) (f : field) : Prop :=
  f_type f = FMessage /\ (exists w, plain_dotted w /\ f_qname f = type_qname pkg w) \/
  f_type f <> FMessage /\ f_qname f = [] /\ f_ref f = None.

Definition field_wf (msgs : list message) (pkg : bytes) (f : field) : Prop :=
  type_wf pkg f /\ ref_ok msgs f /\ member_name (f_name f) /\ number_ok (f_index f) /\ omap_wf (f_options f) /\
  (f_repeated f = true -> f_optional f = false).

Definition package_wf (p : bytes) : Prop := p = [] \/ plain_dotted p.

Definition message_wf (msgs : list message) (m : message) : Prop :=
  Forall (field_wf msgs (m_package m)) (m_fields m) /\ NoDup (map f_index (m_fields m)) /\
  omap_wf (m_options m) /\ member_name (m_name m) /\ package_wf (m_package m).

Lemma find_message_app l1 l2 q k : find_message l1 q = Some k -> find_message (l1 ++ l2) q = Some k.
Proof.
  revert k. induction l1 as [|m l1 IH]; intros k H; [discriminate|]. cbn in *.
  destruct (bytes_eqb (qualified m) q); [exact H|]. destruct (find_message l1 q) as [j|]; [|discriminate].
  now rewrite (IH j eq_refl).
Qed.

Lemma field_wf_app l1 l2 pkg f : field_wf l1 pkg f -> field_wf (l1 ++ l2) pkg f.
Proof.
  intros (A & B & C). split; [exact A|]. split; [|exact C].
  destruct B as [B|(T & k & B1 & B2)]; [now left|right]. split; [exact T|]. exists k. split; [exact B1|now apply find_message_app].
Qed.

Lemma message_wf_app l1 l2 m : message_wf l1 m -> message_wf (l1 ++ l2) m.
Proof.
  intros (A & B). split; [|exact B]. eapply Forall_impl; [|exact A]. intros f. apply field_wf_app.
Qed.

Lemma omap_wf_put e m : oentry_wf e -> omap_wf m -> omap_wf (o_put e m).
Proof.
  intros E [A B]. unfold o_put. split.
  - constructor; [exact E|]. clear B. induction A as [|x m X A IH]; cbn; [constructor|].
    destruct (negb _); [constructor; auto|exact IH].
  - cbn [map]. constructor.
    + rewrite in_map_iff. intros (x & X & H). apply filter_In in H. destruct H as [_ H].
      rewrite X, bytes_eqb_refl in H. discriminate.
    + clear A E. induction m as [|x m IH]; cbn [filter map]; [constructor|]. inversion B as [|? ? N B']; subst.
      destruct (negb _); [|auto]. cbn [map]. constructor; [|auto]. rewrite in_map_iff. intros (y & Y & H).
      apply filter_In in H. apply N. rewrite <- Y. now apply in_map.
Qed.

Section Run.
  Variable src : Type.
  Variable nxt : src -> pres (token * src).
  Variable inv : src -> Prop.
  Variable ms : src -> nat.
  Variables rtok fuelok : Prop.

  Hypothesis Hnxt : forall x, inv x ->
    match nxt x with
    | POk (t, y) => inv y /\ tok_wf t /\ ((ms y < ms x)%nat \/ t_code t = KEof /\ (ms y <= ms x)%nat)
    | PThrow m _ _ => lexer_error m
    | PRuntime => rtok
    | PFuel => fuelok
    end.

  Notation st := (pst src).
  Definition mu (s : st) : nat := (ms (p_src s) + if p_ung s then 1 else 0)%nat.
  Definition good (s : st) : Prop := inv (p_src s) /\ tok_wf (p_cur s).
  Definition ok (s : st) : Prop := good s /\ p_ung s = false.

  Definition wp {A} (Q : A -> st -> Prop) (r : pres (A * st)) : Prop :=
    match r with
    | POk (a, s) => Q a s
    | PThrow m _ _ => parse_error m
    | PRuntime => rtok
    | PFuel => fuelok
    end.

  Lemma wp_bind A B (m : M src A) (k : A -> M src B) P Q s :
    wp P (m s) -> (forall a s', P a s' -> wp Q (k a s')) -> wp Q (bind m k s).
  Proof. intros H K. unfold bind. destruct (m s) as [[a s']| | |]; cbn in *; auto. Qed.

  Lemma wp_impl A (P Q : A -> st -> Prop) r : wp P r -> (forall a s, P a s -> Q a s) -> wp Q r.
  Proof. destruct r as [[a s]| | |]; cbn; auto. Qed.

  Definition step (s : st) (t : token) (s' : st) : Prop :=
    ok s' /\ p_cur s' = t /\ tok_wf t /\ ((mu s' < mu s)%nat \/ t_code t = KEof /\ (mu s' <= mu s)%nat).

  Lemma next_step s : good s -> wp (step s) (p_next src nxt s).
  Proof.
    intros [I W]. unfold p_next. destruct (p_ung s) eqn:U.
    - cbn. split; [|split; [reflexivity|split; [exact W|]]]; [split; [split|]; auto|]. left. unfold mu. cbn. rewrite U. lia.
    - pose proof (Hnxt _ I) as H. destruct (nxt (p_src s)) as [[t y]| | |]; cbn; auto.
      + destruct H as (H1 & H2 & H3). split; [|split; [reflexivity|split; [exact H2|]]]; [split; [split|]; auto|].
        unfold mu. cbn. rewrite U, !Nat.add_0_r. exact H3.
      + now left.
  Qed.

  Lemma wp_next B (k : token -> M src B) Q s : good s ->
    (forall t s', step s t s' -> wp Q (k t s')) -> wp Q (bind (p_next src nxt) k s).
  Proof. intros G K. apply (wp_bind _ _ _ _ (step s)); [now apply next_step|exact K]. Qed.

  Lemma wp_current B (k : token -> M src B) Q s : wp Q (k (p_cur s) s) -> wp Q (bind p_current k s).
  Proof. auto. Qed.

  Lemma wp_throw A m (Q : A -> st -> Prop) s : existsb (bytes_eqb m) parser_errors = true -> wp Q (p_throw m s).
  Proof.
    intros H. right; left. apply existsb_exists in H. destruct H as (x & I & E). apply bytes_eqb_true in E. now subst.
  Qed.

  Lemma wp_unget B (k : unit -> M src B) Q s : ok s ->
    (forall s', good s' -> p_ung s' = true -> p_cur s' = p_cur s -> (mu s' = mu s + 1)%nat -> wp Q (k tt s')) ->
    wp Q (bind p_unget k s).
  Proof.
    intros [[I W] U] K. unfold bind, p_unget. rewrite U. apply K; cbn; auto.
    - split; auto.
    - unfold mu. cbn. rewrite U. lia.
  Qed.

  (** The code of a token read: not the end, so something was consumed. *)
  Lemma step_lt s t s' : step s t s' -> t_code t <> KEof -> (mu s' < mu s)%nat.
  Proof. intros (_ & _ & _ & [H|[H _]]); [auto|contradiction]. Qed.
  Lemma step_le s t s' : step s t s' -> (mu s' <= mu s)%nat.
  Proof. intros (_ & _ & _ & [H|[_ H]]); lia. Qed.
  Lemma step_good s t s' : step s t s' -> good s'.
  Proof. now intros ((G & _) & _). Qed.
  Lemma step_ok s t s' : step s t s' -> ok s'.
  Proof. now intros (G & _). Qed.
  Lemma step_wf s t s' : step s t s' -> tok_wf t.
  Proof. now intros (_ & _ & W & _). Qed.

  Ltac thr := simple apply wp_throw; vm_cast_no_check (eq_refl true).
  Ltac lt H := let L := fresh "L" in pose proof (step_lt _ _ _ H ltac:(congruence)) as L.

  Lemma option_wp s : good s ->
    wp (fun e s' => ok s' /\ (mu s' + 3 <= mu s)%nat /\ oentry_wf e) (parse_option src nxt s).
  Proof.
    intros G. unfold parse_option. apply wp_current. apply wp_next; [exact G|]. intros t1 s1 S1.
    assert (J : plain_dotted (t_value t1) -> (mu s1 < mu s)%nat ->
      wp (fun e s' => ok s' /\ (mu s' + 3 <= mu s)%nat /\ oentry_wf e)
       (bind (p_next src nxt) (fun t2 : token => match t_code t2 with
        | KEqual => bind (p_next src nxt) (fun t3 : token => match option_type (t_code t3) with
            | Some ty => ret (OE (t_value t1) ty (t_value t3) (t_line (p_cur s)))
            | None => p_throw (b "Invalid option value") end)
        | _ => p_throw (b "Expected '='") end) s1)).
    { intros D L1. apply wp_next; [eapply step_good; eassumption|]. intros t2 s2 S2.
      destruct (t_code t2) eqn:C2; try thr. lt S2.
      apply wp_next; [eapply step_good; eassumption|]. intros t3 s3 S3.
      pose proof (step_wf _ _ _ S3) as W3. unfold tok_wf in W3.
      destruct (t_code t3) eqn:C3; cbn [option_type]; try thr; lt S3;
        (cbn; split; [eapply step_ok; eassumption|]; split; [lia|]; split; [exact D|]; cbn; auto).
      destruct W3 as [W3 W3']. split; [now apply dot_one|exact W3']. }
    pose proof (step_wf _ _ _ S1) as W1. unfold tok_wf in W1.
    destruct (t_code t1) eqn:C1; try thr; lt S1; apply J; auto.
    destruct W1 as [W1 W1']. split; [now apply dot_one|exact W1'].
  Qed.

  Lemma field_options_wp n : forall s m, good s -> (mu s < n)%nat -> omap_wf m ->
    wp (fun m' s' => good s' /\ p_ung s' = true /\ t_code (p_cur s') = KRbracket /\ (mu s' <= mu s)%nat /\ omap_wf m')
       (parse_field_options src nxt n m s).
  Proof.
    induction n as [|n IH]; intros s m G L W; [lia|]. cbn [parse_field_options].
    apply wp_next; [exact G|]. intros t s1 S1.
    assert (J : wp (fun m' s' => good s' /\ p_ung s' = true /\ t_code (p_cur s') = KRbracket /\ (mu s' <= mu s)%nat /\ omap_wf m')
      (bind p_unget (fun _ => bind (parse_option src nxt) (fun o => bind (p_next src nxt) (fun t2 =>
         match t_code t2 with
         | KComma => parse_field_options src nxt n (o_put o m)
         | _ => bind p_unget (fun _ => parse_field_options src nxt n (o_put o m))
         end))) s1)).
    { apply wp_unget; [eapply step_ok; eassumption|]. intros s2 G2 U2 C2 M2. pose proof (step_le _ _ _ S1) as L1.
      eapply wp_bind; [apply option_wp; exact G2|]. intros o s3 ((G3 & U3) & L3 & O). 
      apply wp_next; [exact G3|]. intros t4 s4 S4. pose proof (step_le _ _ _ S4) as L4.
      assert (K : forall s5, good s5 -> (mu s5 <= mu s4 + 1)%nat -> wp (fun m' s' => good s' /\ p_ung s' = true /\ t_code (p_cur s') = KRbracket /\ (mu s' <= mu s)%nat /\ omap_wf m')
        (parse_field_options src nxt n (o_put o m) s5)).
      { intros s5 G5 L5. eapply wp_impl; [apply IH; [exact G5|lia|now apply omap_wf_put]|].
        intros m' s6 (A1 & A2 & A3 & A4 & A5). repeat (split; [solve [auto]|]). split; [lia|exact A5]. }
      destruct (t_code t4); try (apply K; [eapply step_good; eassumption|lia]);
        (apply wp_unget; [eapply step_ok; eassumption|]; intros s5 G5 U5 C5 M5; apply K; [exact G5|lia]). }
    destruct (t_code t) eqn:C; try exact J. clear J.
    lt S1. apply wp_unget; [eapply step_ok; eassumption|]. intros s2 G2 U2 C2 M2. cbn.
    split; [exact G2|]. split; [exact U2|]. split; [|split; [lia|exact W]].
    rewrite C2. destruct S1 as (_ & -> & _). exact C.
  Qed.

  Lemma standard_option_wp s m : good s -> omap_wf m ->
    wp (fun m' s' => ok s' /\ (mu s' + 4 <= mu s)%nat /\ omap_wf m') (parse_standard_option src nxt m s).
  Proof.
    intros G W. unfold parse_standard_option. eapply wp_bind; [apply option_wp; exact G|].
    intros o s1 ((G1 & U1) & L1 & O). apply wp_next; [exact G1|]. intros t s2 S2.
    destruct (t_code t) eqn:C; try thr. lt S2. cbn. split; [eapply step_ok; eassumption|]. split; [lia|now apply omap_wf_put].
  Qed.

  Lemma modifier_wp s : ok s ->
    wp (fun r s' => let '(t, rep, opt) := r in tok_wf t /\ ok s' /\ (mu s' <= mu s)%nat /\ (rep = true -> opt = false))
       (parse_modifier src nxt s).
  Proof.
    intros [G U]. unfold parse_modifier. apply wp_current.
    assert (J : wp (fun r s' => let '(t, rep, opt) := r in tok_wf t /\ ok s' /\ (mu s' <= mu s)%nat /\ (rep = true -> opt = false))
      (ret (p_cur s, false, false) s)).
    { cbn. split; [apply G|]. split; [now split|]. split; [lia|discriminate]. }
    destruct (t_code (p_cur s)); try exact J; clear J; (apply wp_next; [exact G|]; intros t s1 S1; cbn;
      split; [eapply step_wf; eassumption|]; split; [eapply step_ok; eassumption|]; split; [eapply step_le; eassumption|auto]).
  Qed.

  Lemma type_wp s msgs pkg t : ok s -> tok_wf t ->
    wp (fun r s' => let '(f, q, ref) := r in s' = s /\
          (f = FMessage /\ (exists w, plain_dotted w /\ q = type_qname pkg w) /\ ref = find_message msgs q \/
           f <> FMessage /\ q = [] /\ ref = None))
       (parse_type msgs pkg t s).
  Proof.
    intros G W. unfold parse_type, tok_wf in *. destruct (t_code t); try thr; cbn.
    - split; [reflexivity|]. left. split; [reflexivity|]. split; [|reflexivity]. exists (t_value t). split; [|reflexivity].
      destruct W as [W W']. split; [now apply dot_one|exact W'].
    - split; [reflexivity|]. right. split; [|auto]. intros ->. exact W.
    - split; [reflexivity|]. left. split; [reflexivity|]. split; [|reflexivity]. exists (t_value t). auto.
  Qed.

  Lemma bracket_wp F s t : ok s -> (mu s < F)%nat ->
    wp (fun m s' => ok s' /\ (mu s' <= mu s)%nat /\ omap_wf m) (parse_bracket src nxt F t s).
  Proof.
    intros [G U] L. unfold parse_bracket.
    assert (W0 : omap_wf []) by (split; constructor).
    destruct (t_code t); try (cbn; split; [now split|split; [lia|exact W0]]).
    eapply wp_bind; [apply field_options_wp; [exact G|exact L|exact W0]|].
    intros m s1 (G1 & U1 & C1 & L1 & W1). apply wp_next; [exact G1|]. intros t1 s2 S2.
    destruct (t_code t1) eqn:C2; try thr. apply wp_next; [eapply step_good; eassumption|]. intros t3 s3 S3.
    pose proof (step_le _ _ _ S2). pose proof (step_le _ _ _ S3). cbn.
    split; [eapply step_ok; eassumption|]. split; [lia|exact W1].
  Qed.

  Lemma name_code_member t : tok_wf t -> name_code (t_code t) = true -> member_name (t_value t).
  Proof.
    unfold tok_wf, member_name. intros W H. destruct (t_code t); try discriminate H; auto.
  Qed.

  Lemma bad_number_spec z : bad_number z = false <-> number_ok z.
  Proof. unfold bad_number, number_ok. lia. Qed.

  Lemma find_none_in z fs : find (fun x => f_index x =? z) fs = None -> ~ In z (map f_index fs).
  Proof.
    intros H I. apply in_map_iff in I. destruct I as (f & E & I). pose proof (find_none _ _ H f I) as N. cbn in N. lia.
  Qed.

  Lemma field_wp F s msgs pkg fs : ok s -> (mu s < F)%nat ->
    wp (fun fs' s' => ok s' /\ (mu s' <= mu s)%nat /\ exists f, fs' = fs ++ [f] /\ field_wf msgs pkg f /\
          ~ In (f_index f) (map f_index fs)) (parse_field src nxt F msgs pkg fs s).
  Proof.
    intros G L. unfold parse_field. eapply wp_bind; [apply modifier_wp; exact G|].
    intros [[t rep] opt] s1 (W1 & G1 & L1 & RO). eapply wp_bind; [apply type_wp; eassumption|].
    intros [[f q] ref] s1' [-> T]. apply wp_next; [apply G1|]. intros tn s2 S2.
    destruct (name_code (t_code tn)) eqn:Cn; cbn [negb]; [|thr].
    apply wp_next; [eapply step_good; eassumption|]. intros te s3 S3. destruct (t_code te) eqn:Ce; try thr.
    apply wp_next; [eapply step_good; eassumption|]. intros ti s4 S4. destruct (t_code ti) eqn:Ci; try thr.
    destruct (bad_number (field_number (t_value ti))) eqn:Bn; [thr|]. apply bad_number_spec in Bn.
    apply wp_next; [eapply step_good; eassumption|]. intros tb s5 S5.
    pose proof (step_le _ _ _ S2). pose proof (step_le _ _ _ S3). pose proof (step_le _ _ _ S4). pose proof (step_le _ _ _ S5).
    eapply wp_bind; [apply bracket_wp; [eapply step_ok; eassumption|lia]|].
    intros os s6 (G6 & L6 & W6). apply wp_current. destruct (t_code (p_cur s6)); try thr.
    destruct (find _ fs) as [x|] eqn:Fx.
    { cbn. right; right; left. exists (f_name x), (t_value tn). reflexivity. }
    cbn. split; [exact G6|]. split; [lia|]. eexists. split; [reflexivity|]. split; [|cbn; now apply find_none_in].
    split; [|split; [|split; [|split; [|split]]]]; cbn.
    - destruct T as [(-> & Q & R)|(N & -> & ->)]; [left|right]; auto.
    - destruct T as [(-> & Q & R)|(N & -> & ->)]; [|now left].
      destruct ref as [k|]; [right|now left]. split; [reflexivity|]. exists k. auto.
    - apply name_code_member; [eapply step_wf; eassumption|exact Cn].
    - exact Bn.
    - exact W6.
    - exact RO.
  Qed.

  Definition body_wf msgs pkg (fs : list field) (os : omap) : Prop :=
    Forall (field_wf msgs pkg) fs /\ NoDup (map f_index fs) /\ omap_wf os.

  Lemma body_wf_snoc msgs pkg fs os f : body_wf msgs pkg fs os -> field_wf msgs pkg f ->
    ~ In (f_index f) (map f_index fs) -> body_wf msgs pkg (fs ++ [f]) os.
  Proof.
    intros (A & B & C) W N. split; [|split; [|exact C]].
    - apply Forall_app. split; [exact A|]. constructor; [exact W|constructor].
    - rewrite map_app. cbn [map]. apply NoDup_Add with (a := f_index f) (l := map f_index fs).
      + pose proof (Add_app (f_index f) (map f_index fs) []) as H. rewrite app_nil_r in H. exact H.
      + split; [exact B|exact N].
  Qed.

  Lemma body_wp F n : forall s msgs pkg fs os, good s -> (mu s < n)%nat -> (mu s < F)%nat -> body_wf msgs pkg fs os ->
    wp (fun r s' => ok s' /\ (mu s' <= mu s)%nat /\ body_wf msgs pkg (fst r) (snd r))
       (parse_body src nxt F n msgs pkg fs os s).
  Proof.
    induction n as [|n IH]; intros s msgs pkg fs os G L LF W; [lia|]. cbn [parse_body].
    apply wp_next; [exact G|]. intros t s1 S1. pose proof (step_le _ _ _ S1) as L1.
    assert (J : t_code t <> KEof -> wp (fun r s' => ok s' /\ (mu s' <= mu s)%nat /\ body_wf msgs pkg (fst r) (snd r))
       (bind (parse_field src nxt F msgs pkg fs) (fun fs' => parse_body src nxt F n msgs pkg fs' os) s1)).
    { intros NE. pose proof (step_lt _ _ _ S1 NE). eapply wp_bind; [apply field_wp; [eapply step_ok; eassumption|lia]|].
      intros fs' s2 ((G2 & U2) & L2 & f & -> & Wf & Nf).
      eapply wp_impl; [apply IH; [exact G2|lia|lia|now apply body_wf_snoc]|].
      intros r s3 (A1 & A2 & A3). split; [exact A1|]. split; [lia|exact A3]. }
    destruct (t_code t) eqn:C; try (apply J; congruence); clear J.
    - cbn. split; [eapply step_ok; eassumption|]. split; [lia|exact W].
    - cbn. split; [eapply step_ok; eassumption|]. split; [lia|exact W].
    - eapply wp_bind; [apply standard_option_wp; [eapply step_good; eassumption|apply W]|].
      intros os' s2 ((G2 & U2) & L2 & W2).
      eapply wp_impl; [apply IH; [exact G2|lia|lia|]|].
      + destruct W as (A & B & _). split; [exact A|]. split; [exact B|exact W2].
      + intros r s3 (A1 & A2 & A3). split; [exact A1|]. split; [lia|exact A3].
  Qed.

  Definition messages_wf (msgs : list message) : Prop := Forall (message_wf msgs) msgs.

  Lemma message_wp F s pkg msgs : good s -> (mu s < F)%nat -> package_wf pkg -> messages_wf msgs ->
    wp (fun msgs' s' => ok s' /\ (mu s' <= mu s)%nat /\ messages_wf msgs') (parse_message src nxt F pkg msgs s).
  Proof.
    intros G L P W. unfold parse_message. apply wp_next; [exact G|]. intros tn s1 S1.
    destruct (name_code (t_code tn)) eqn:Cn; [|thr]. apply wp_next; [eapply step_good; eassumption|]. intros tb s2 S2.
    pose proof (step_le _ _ _ S1). pose proof (step_le _ _ _ S2).
    destruct (t_code tb) eqn:Cb; try thr. eapply wp_bind; [apply body_wp; [eapply step_good; eassumption|lia|lia|]|].
    { split; [constructor|]. split; [constructor|]. split; constructor. }
    intros [fs os] s3 (G3 & L3 & W3). cbn [fst snd] in W3. cbn. split; [exact G3|]. split; [lia|].
    unfold messages_wf. apply Forall_app. split.
    - eapply Forall_impl; [|exact W]. intros m. apply message_wf_app.
    - constructor; [|constructor]. destruct W3 as (A & B & C). split; [|split; [|split; [|split]]]; cbn; auto.
      + eapply Forall_impl; [|exact A]. intros f. apply field_wf_app.
      + apply name_code_member; [eapply step_wf; eassumption|exact Cn].
  Qed.

  Lemma package_wp s : good s -> wp (fun p s' => ok s' /\ (mu s' <= mu s)%nat /\ package_wf p) (parse_package src nxt s).
  Proof.
    intros G. unfold parse_package. apply wp_next; [exact G|]. intros t s1 S1. pose proof (step_wf _ _ _ S1) as W.
    pose proof (step_le _ _ _ S1). unfold tok_wf in W.
    destruct (t_code t); try thr; (apply wp_next; [eapply step_good; eassumption|]; intros t2 s2 S2; pose proof (step_le _ _ _ S2);
      destruct (t_code t2); try thr; cbn; split; [eapply step_ok; eassumption|]; split; [lia|]; right; auto).
    destruct W as [W W']. split; [now apply dot_one|exact W'].
  Qed.

  Lemma syntax_wp s : good s -> wp (fun _ s' => ok s' /\ (mu s' <= mu s)%nat) (parse_syntax src nxt s).
  Proof.
    intros G. unfold parse_syntax. apply wp_next; [exact G|]. intros t s1 S1. destruct (t_code t); try thr.
    apply wp_next; [eapply step_good; eassumption|]. intros t2 s2 S2. destruct (t_code t2); try thr.
    apply wp_next; [eapply step_good; eassumption|]. intros t3 s3 S3. destruct (t_code t3); try thr.
    pose proof (step_le _ _ _ S1). pose proof (step_le _ _ _ S2). pose proof (step_le _ _ _ S3).
    destruct (bytes_eqb _ _); [|thr]. cbn. split; [eapply step_ok; eassumption|lia].
  Qed.

  Lemma proto_wp F n : forall s pkg msgs os, good s -> (mu s < n)%nat -> (mu s < F)%nat -> package_wf pkg ->
    messages_wf msgs -> omap_wf os ->
    wp (fun r _ => messages_wf (fst r) /\ omap_wf (snd r)) (parse_proto src nxt F n pkg msgs os s).
  Proof.
    induction n as [|n IH]; intros s pkg msgs os G L LF P W O; [lia|]. cbn [parse_proto].
    apply wp_next; [exact G|]. intros t s1 S1.
    assert (J : forall s2 pkg msgs os, ok s2 -> (mu s2 < mu s)%nat -> package_wf pkg -> messages_wf msgs -> omap_wf os ->
      wp (fun r _ => messages_wf (fst r) /\ omap_wf (snd r))
        (bind p_more (fun more : bool => if more then parse_proto src nxt F n pkg msgs os else ret (msgs, os)) s2)).
    { intros s2 pkg2 msgs2 os2 [G2 U2] L2 P2 W2 O2. unfold bind at 1, p_more, bind, p_current, ret.
      destruct (t_code (p_cur s2)); try (apply IH; auto; lia). cbn. auto. }
    destruct (t_code t) eqn:C; try thr.
    - cbn. auto.
    - lt S1. eapply wp_bind; [apply message_wp; [eapply step_good; eassumption|lia|exact P|exact W]|].
      intros msgs' s2 (G2 & L2 & W2). apply J; auto. lia.
    - lt S1. eapply wp_bind; [apply syntax_wp; eapply step_good; eassumption|].
      intros [] s2 (G2 & L2). apply J; auto. lia.
    - lt S1. apply J; auto. eapply step_ok; eassumption.
    - lt S1. eapply wp_bind; [apply package_wp; eapply step_good; eassumption|].
      intros pkg' s2 (G2 & L2 & W2). apply J; auto. lia.
    - lt S1. eapply wp_bind; [apply standard_option_wp; [eapply step_good; eassumption|exact O]|].
      intros os' s2 (G2 & L2 & W2). apply J; auto. lia.
  Qed.
End Run.
