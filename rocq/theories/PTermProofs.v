(** Termination of the parser, its errors, and what it accepts (C26-C29). *)
From Verif Require Import Bytes BaseProofs Num ProtoLex ProtoParse SpecProto PLexProofs PNextProofs PSimProofs PRunProofs.

(** ** The tokens of the lexer are well-formed *)
Lemma keyword_cases l w : keyword l w = KName /\ ~ In w (map fst l) \/ exists c, In (w, c) l /\ keyword l w = c.
Proof.
  induction l as [|[k c] l IH]; cbn [keyword map fst]; [left; cbn; auto|].
  destruct (bytes_eqb w k) eqn:E.
  - apply bytes_eqb_true in E. subst k. right. exists c. split; [now left|reflexivity].
  - apply bytes_eqb_false in E. destruct IH as [[A B]|(c' & A & B)].
    + left. split; [exact A|]. cbn. intros [H|H]; [congruence|contradiction].
    + right. exists c'. split; [now right|exact B].
Qed.

Lemma has_dot_dotted w : dotted w -> has_dot w = false -> ident w.
Proof.
  intros D H. apply dotted_tail in D. destruct D as (u & r & -> & I & T). rewrite (has_dot_tail u r I T) in H.
  destruct r; [now rewrite app_nil_r|discriminate].
Qed.

Lemma reserved_no_dot w : In w reserved_words -> has_dot w = false.
Proof.
  intros H. assert (A : forallb (fun w => negb (has_dot w)) reserved_words = true) by (vm_compute; reflexivity).
  rewrite forallb_forall in A. apply A in H. now destruct (has_dot w).
Qed.

Lemma keywords_reserved : map fst keywords = reserved_words.
Proof. reflexivity. Qed.

Lemma keyword_wf w : dotted w -> has_dot w = false -> forall l c, tok_wf (Tok (keyword keywords w) w l c).
Proof.
  intros D H l c. destruct (keyword_cases keywords w) as [[A B]|(k & A & B)].
  - rewrite keywords_reserved in B. unfold tok_wf. cbn [t_code t_value]. rewrite A. split; [now apply has_dot_dotted|exact B].
  - unfold tok_wf. cbn [t_code t_value]. rewrite B. unfold keywords in A. cbn [In] in A.
    repeat (destruct A as [A|A]; [injection A as A1 A2; subst; first [exact I|reflexivity]|]). contradiction.
Qed.

Lemma piece_wf p l c : piece_ok p -> tok_wf (Tok (code_of p) (value_of p) l c).
Proof.
  destruct p as [w|ds|s|a]; cbn [piece_ok code_of value_of]; intros H.
  - destruct (has_dot w) eqn:D.
    + unfold tok_wf. cbn. split; [exact H|]. intros R. apply reserved_no_dot in R. congruence.
    + now apply keyword_wf.
  - exact H.
  - unfold tok_wf. cbn. exact H.
  - cbn [In b] in H. vm_compute in H. repeat (destruct H as [<-|H]; [exact I|]). contradiction.
Qed.

Lemma lexes_wf pre x r : lexes pre x r ->
  match r with POk (t, _, _) => tok_wf t | PThrow m _ _ => lexer_error m | _ => True end.
Proof.
  intros [sp p rest E S O M|sp w c rest E S O K|E|sp c rest E S K|sp w rest E S D K|sp body E S K|sp w E S K]; try exact I.
  - now apply piece_wf.
  - now left.
  - now right.
Qed.

Definition src_wf (y : lsrc) : Prop :=
  Forall tok_wf (fst y) /\ match snd y with TBad m _ _ => lexer_error m | _ => True end.

Lemma toks_wf pre x l e : toks pre x l e -> src_wf (l, e).
Proof.
  unfold src_wf. cbn [fst snd]. induction 1 as [pre x t pre' rest l e X L T IH|pre x O|pre x m line col X|pre x X].
  - destruct IH as [A B]. split; [|exact B]. constructor; [exact (lexes_wf _ _ _ X)|exact A].
  - split; [constructor|exact I].
  - split; [constructor|exact (lexes_wf _ _ _ X)].
  - split; [constructor|exact I].
Qed.

Lemma list_next_wf y : src_wf y ->
  match nxt_list y with
  | POk (t, z) => src_wf z /\ tok_wf t /\
      ((length (fst z) < length (fst y))%nat \/ t_code t = KEof /\ (length (fst z) <= length (fst y))%nat)
  | PThrow m _ _ => lexer_error m
  | PRuntime => snd y = TLoop
  | PFuel => False
  end.
Proof.
  destruct y as [[|t l] e]; intros [A B]; cbn [fst snd nxt_list] in *.
  - destruct e as [line col|m line col|]; auto.
    split; [split; [constructor|exact I]|]. split; [exact I|]. right. split; [reflexivity|cbn; lia].
  - inversion A; subst. split; [split; auto|]. split; [assumption|]. left. cbn. lia.
Qed.

(** ** The last loop *)
Definition field_done (msgs : list message) (pkg : bytes) (f : field) : Prop :=
  field_wf msgs pkg f /\ (f_type f = FMessage -> f_ref f <> None).

Lemma resolve_fields_spec msgs pkg fs : Forall (field_wf msgs pkg) fs ->
  match resolve_fields msgs fs with
  | POk fs' => Forall (field_done msgs pkg) fs' /\ map f_index fs' = map f_index fs
  | PThrow m l c => exists f, In f fs /\ f_type f = FMessage /\ find_message msgs (f_qname f) = None /\
      m = b "Unable to find message '" ++ f_qname f ++ b "'" /\ l = 0 /\ c = 0
  | PRuntime => False
  | PFuel => False
  end.
Proof.
  induction 1 as [|f fs W _ IH]; [cbn; auto|]. cbn [resolve_fields].
  assert (J : forall f', field_done msgs pkg f' -> f_index f' = f_index f ->
    match (let! r' := resolve_fields msgs fs in POk (f' :: r')) with
    | POk fs' => Forall (field_done msgs pkg) fs' /\ map f_index fs' = map f_index (f :: fs)
    | PThrow m l c => exists f0, In f0 (f :: fs) /\ f_type f0 = FMessage /\ find_message msgs (f_qname f0) = None /\
        m = b "Unable to find message '" ++ f_qname f0 ++ b "'" /\ l = 0 /\ c = 0
    | PRuntime => False
    | PFuel => False
    end).
  { intros f' D E. destruct (resolve_fields msgs fs) as [fs'|m l c| |]; cbn [pbind]; try contradiction.
    - destruct IH as [A B]. split; [constructor; auto|]. cbn [map]. now rewrite E, B.
    - destruct IH as (f0 & A & B). exists f0. split; [now right|exact B]. }
  pose proof W as (T & R & N & X & O & RO).
  destruct (f_type f) eqn:Ft; try (cbn [pbind]; apply J; [split; [exact W|congruence]|reflexivity]).
  destruct (f_ref f) as [k|] eqn:Fr.
  - cbn [pbind]. apply J; [|reflexivity]. split; [exact W|]. intros _. congruence.
  - destruct (find_message msgs (f_qname f)) as [k|] eqn:Fk.
    + cbn [pbind]. apply J; [|reflexivity]. split; [|discriminate]. split; [|split; [|auto]].
      * destruct T as [(T1 & w & T2)|(T1 & _)]; [|congruence]. left. cbn. split; [reflexivity|]. exists w. exact T2.
      * right. cbn. split; [reflexivity|]. exists k. auto.
    + cbn [pbind]. exists f. split; [now left|]. auto.
Qed.

Definition message_done (msgs : list message) (m : message) : Prop :=
  message_wf msgs m /\ Forall (field_done msgs (m_package m)) (m_fields m).

Lemma resolve_messages_spec msgs l : Forall (message_wf msgs) l ->
  match resolve_messages msgs l with
  | POk l' => Forall (message_done msgs) l' /\ map qualified l' = map qualified l
  | PThrow m ln c => exists x f, In x l /\ In f (m_fields x) /\ f_type f = FMessage /\ find_message msgs (f_qname f) = None /\
      m = b "Unable to find message '" ++ f_qname f ++ b "'" /\ ln = 0 /\ c = 0
  | PRuntime => False
  | PFuel => False
  end.
Proof.
  induction 1 as [|x l W _ IH]; [cbn; auto|]. cbn [resolve_messages]. destruct W as (A & B & C & D & E).
  pose proof (resolve_fields_spec msgs (m_package x) (m_fields x) A) as H.
  destruct (resolve_fields msgs (m_fields x)) as [fs|m ln c| |]; cbn [pbind]; try contradiction.
  - destruct H as [H1 H2]. destruct (resolve_messages msgs l) as [l'|m ln c| |]; cbn [pbind]; try contradiction.
    + destruct IH as [I1 I2]. split.
      * constructor; [|exact I1]. split; [|exact H1]. split; [|split; [cbn; now rewrite H2|auto]].
        eapply Forall_impl; [|exact H1]. intros f [F _]. exact F.
      * cbn [map]. now rewrite I2.
    + destruct IH as (x0 & f & I1 & I2). exists x0, f. split; [now right|exact I2].
  - destruct H as (f & H1 & H2). exists x, f. split; [now left|auto].
Qed.

(** The name decides the search. *)
Lemma find_message_names l l' q : map qualified l' = map qualified l -> find_message l' q = find_message l q.
Proof.
  revert l. induction l' as [|m l' IH]; intros [|m2 l] H; try discriminate; [reflexivity|]. cbn in *.
  injection H as H1 H2. now rewrite H1, (IH l H2).
Qed.

Lemma field_wf_names l l' pkg f : map qualified l' = map qualified l -> field_wf l pkg f -> field_wf l' pkg f.
Proof.
  intros E (A & B & C). split; [exact A|]. split; [|exact C]. unfold ref_ok in *. now rewrite (find_message_names _ _ _ E).
Qed.

Definition proto_wf (p : proto) : Prop := Forall (message_done (pr_messages p)) (pr_messages p) /\ omap_wf (pr_options p).

Definition result_wf (r : pres proto) : Prop :=
  match r with POk p => proto_wf p | PThrow m _ _ => parse_error m | PRuntime => True | PFuel => True end.

Lemma source_wf {src} (nxt : src -> pres (token * src)) (inv : src -> Prop) ms (rtok fuelok : Prop) :
  (forall x, inv x ->
    match nxt x with
    | POk (t, y) => inv y /\ tok_wf t /\ ((ms y < ms x)%nat \/ t_code t = KEof /\ (ms y <= ms x)%nat)
    | PThrow m _ _ => lexer_error m
    | PRuntime => rtok
    | PFuel => fuelok
    end) ->
  forall F x file, inv x -> (ms x < F)%nat ->
  match parse_source nxt F x file with
  | POk p => proto_wf p /\ pr_file p = file
  | PThrow m _ _ => parse_error m
  | PRuntime => rtok
  | PFuel => fuelok
  end.
Proof.
  intros H F x file I L. unfold parse_source.
  assert (W : wp src rtok fuelok (fun r _ => messages_wf (fst r) /\ omap_wf (snd r))
    (parse_proto src nxt F F [] [] [] (PS x token0 false))).
  { apply (proto_wp src nxt inv ms rtok fuelok H); [split; [exact I|exact Logic.I]| | |now left|constructor|split; constructor];
      unfold mu; cbn; lia. }
  unfold wp in W. destruct (parse_proto src nxt F F [] [] [] _) as [[[msgs os] s]|m l c| |]; auto.
  destruct W as [W O]. cbn [fst snd] in W, O.
  pose proof (resolve_messages_spec msgs msgs W) as R.
  destruct (resolve_messages msgs msgs) as [l'|m l c| |]; cbn [pbind]; try contradiction.
  - destruct R as [R1 R2]. split; [|reflexivity]. split; [|exact O]. cbn [pr_messages].
    eapply Forall_impl; [|exact R1]. intros m [(A & B) C]. split; [split; [|exact B]|].
    + eapply Forall_impl; [|exact A]. intros f. now apply field_wf_names.
    + eapply Forall_impl; [|exact C]. intros f [F1 F2]. split; [|exact F2]. eapply field_wf_names; eassumption.
  - destruct R as (x0 & f & _ & _ & _ & _ & -> & _). right; right; right. now exists (f_qname f).
Qed.

(** ** Fuel *)
Lemma parse_list_total l e file F : src_wf (l, e) -> (length l < F)%nat ->
  match parse_list F l e file with
  | POk p => proto_wf p /\ pr_file p = file
  | PThrow m _ _ => parse_error m
  | PRuntime => e = TLoop
  | PFuel => False
  end.
Proof.
  intros W L. unfold parse_list.
  apply (source_wf nxt_list (fun y => src_wf y /\ snd y = e) (fun y => length (fst y)) (e = TLoop) False); [|auto|exact L].
  intros y [Wy Ey]. pose proof (list_next_wf y Wy) as H. subst e.
  destruct (nxt_list y) as [[t z]| | |] eqn:E; auto. destruct H as (H1 & H2 & H3). split; [|auto]. split; [exact H1|].
  destruct y as [[|? ?] []]; cbn in E; try discriminate; now injection E as <- <-.
Qed.

(** The list of tokens with endless loops as exhausted fuel. *)
Definition nxt_list2 (s : lsrc) : pres (token * lsrc) :=
  match nxt_list s with PRuntime => PFuel | r => r end.

Lemma lexer_below2 F s y : R0 s y -> ap false R0 (t_next F F s) (nxt_list2 y).
Proof.
  intros H. pose proof (lexer_below F s y H) as A. destruct A as [A|[[A _]|A]]; [now left|discriminate|].
  unfold nxt_list2. destruct H as (F0 & H). apply (Rl_mono F0 (Nat.max F F0)) in H; [|lia].
  pose proof (next_list_exact _ _ _ H) as X.
  assert (L : (F <= Nat.max F F0)%nat) by lia.
  destruct (next_mono F (Nat.max F F0) F (Nat.max F F0) s L L) as [E|E]; [left; exact E|]. rewrite <- E in X.
  destruct (nxt_list y) as [[t' y']| | |]; try (right; right; exact A).
  destruct (t_next F F s) as [[t s']|m l c| |]; try contradiction.
Qed.

Lemma parse_no_runtime F text file : match parse_with F text file with
  | POk p => proto_wf p /\ pr_file p = file
  | PThrow m _ _ => parse_error m
  | PRuntime => False
  | PFuel => True
  end.
Proof.
  destruct (toks_total text []) as (l & e & T & L). unfold parse_with.
  destruct (approx_source _ _ (t_next F F) nxt_list2 R0 false (lexer_below2 F) F (F + length text + 3) (i_start text) (l, e) file) as [E|[[E _]|E]];
    [lia| |now rewrite E|discriminate E|].
  { exists (length text + 2)%nat, [], text. split; [apply at_start|]. split; [lia|exact T]. }
  rewrite E.
  apply (source_wf nxt_list2 src_wf (fun y => length (fst y)) False True).
  - intros y Wy. pose proof (list_next_wf y Wy) as H. unfold nxt_list2. destruct (nxt_list y); auto.
  - exact (toks_wf _ _ _ _ T).
  - cbn. lia.
Qed.

Inductive outcome (text file : bytes) : Prop :=
  | oc_loops : (forall F, parse_with F text file = PFuel) -> parse text file = PFuel ->
      (exists l, toks [] text l TLoop) -> outcome text file
  | oc_ends D : D <> PFuel -> D <> PRuntime -> parse text file = D ->
      (forall F, parse_with F text file = PFuel \/ parse_with F text file = D) ->
      (forall F, (length text + 3 <= F)%nat -> parse_with F text file = D) -> outcome text file.

Lemma outcomes text file l e : toks [] text l e -> (length l <= length text)%nat ->
  let D := parse_list (length text + 3) l e file in
  D <> PFuel /\
  (D = PRuntime -> e = TLoop /\ forall F, parse_with F text file = PFuel) /\
  (D <> PRuntime -> (forall F, parse_with F text file = PFuel \/ parse_with F text file = D) /\
      (forall F, (length text + 3 <= F)%nat -> parse_with F text file = D)).
Proof.
  intros T L D.
  assert (TT := parse_list_total l e file (length text + 3) (toks_wf _ _ _ _ T)). fold D in TT.
  assert (LL : (length l < length text + 3)%nat) by lia. specialize (TT LL).
  assert (S : D <> PFuel) by (intros E; now rewrite E in TT). split; [exact S|].
  assert (Sf : forall F, (length text + 3 <= F)%nat -> parse_list F l e file = D).
  { intros F LF'. apply parse_list_mono; [exact LF'|exact S]. }
  assert (B : forall F, parse_with F text file = PFuel \/ parse_with F text file = D).
  { intros F. destruct (parse_below F (F + length text + 3) text file l e) as [E|E]; [lia|exact T|now left|right].
    rewrite E. apply Sf. lia. }
  split.
  - intros E. rewrite E in TT. split; [exact TT|]. intros F. destruct (B F) as [B1|B1]; [exact B1|].
    pose proof (parse_no_runtime F text file) as N. rewrite B1, E in N. contradiction.
  - intros N. split; [exact B|]. intros F LF'. rewrite <- (Sf F LF'). apply parse_exact; [lia|exact T| |]; now rewrite Sf.
Qed.

Lemma parse_outcome text file : outcome text file.
Proof.
  destruct (toks_total text []) as (l & e & T & L). destruct (outcomes text file l e T L) as (A & B & C).
  assert (DD : {parse_list (length text + 3) l e file = PRuntime} + {parse_list (length text + 3) l e file <> PRuntime}).
  { destruct (parse_list (length text + 3) l e file); [right|right|left|right]; congruence. }
  destruct DD as [E|E].
  - destruct (B E) as [B1 B2]. apply oc_loops; [exact B2|apply B2|]. exists l. now rewrite <- B1.
  - destruct (C E) as [C1 C2]. eapply oc_ends; [exact A|exact E| |exact C1|exact C2]. apply C2. lia.
Qed.

(** ** C26 *)
Lemma toks_loop_suffix pre x l : toks pre x l TLoop ->
  exists p q, x = p ++ q /\
   ((exists body, q = b "//" ++ body /\ ~ In LF body) \/ (exists w, q = chr 34 :: w /\ Forall str_char w)).
Proof.
  remember TLoop as e eqn:E. induction 1 as [pre x t pre' rest l e X L T IH|pre x O|pre x m line col X|pre x X]; try discriminate.
  - destruct (IH E) as (p & q & -> & Q).
    inversion X as [sp pc r Ex S O M|sp w c r Ex S O K|O| | | |]; subst.
    + exists (sp ++ spelling pc ++ p), q. split; [now rewrite <- !app_assoc|exact Q].
    + exists (sp ++ chr 34 :: w ++ c :: p), q. split; [|exact Q]. repeat (rewrite <- app_assoc; cbn [app]). reflexivity.
    + destruct p, q; try discriminate. destruct Q as [(body & Q & _)|(w & Q & _)]; discriminate Q.
  - inversion X as [| | | | |sp body Ex S K|sp w Ex S K]; subst; exists sp; eexists; (split; [reflexivity|]).
    + left. exists body. auto.
    + right. exists w. auto.
Qed.

Lemma loop_text text file : parse text file = PFuel ->
  exists p q, text = p ++ q /\
   ((exists body, q = b "//" ++ body /\ ~ In LF body) \/
    (exists w, q = chr 34 :: w /\ Forall (fun c => c <> LF /\ c <> NUL /\ code c <> 34) w)).
Proof.
  intros H. destruct (parse_outcome text file) as [A B (l & C)|D A B C]; [|congruence]. exact (toks_loop_suffix _ _ _ C).
Qed.

Lemma parse_ends_lf u file : parse (u ++ [LF]) file <> PFuel.
Proof.
  intros H. destruct (loop_text _ _ H) as (p & q & E & Q).
  assert (K : q <> [] -> exists q', q = q' ++ [LF]).
  { intros N. destruct (exists_last N) as (q' & c & ->). rewrite app_assoc in E. apply app_inj_tail in E.
    destruct E as [_ ->]. now exists q'. }
  destruct Q as [(body & -> & N)|(w & -> & N)].
  - destruct K as (q' & K); [discriminate|]. destruct (exists_last (l := "/"%char :: body)) as (r & c & Er); [discriminate|].
    change (b "//" ++ body) with ("/"%char :: "/"%char :: body) in K. rewrite Er in K.
    change ("/"%char :: r ++ [c]) with (("/"%char :: r) ++ [c]) in K. apply app_inj_tail in K. destruct K as [_ ->].
    assert (I : In LF ("/"%char :: body)) by (rewrite Er; apply in_or_app; right; now left).
    destruct I as [I|I]; [discriminate I|contradiction].
  - destruct K as (q' & K); [discriminate|]. destruct w as [|c w].
    + destruct q' as [|? [|? ?]]; [|discriminate|discriminate]. apply (f_equal (fun l => match l with c :: _ => code c | [] => 0 end)) in K.
      vm_compute in K. discriminate.
    + destruct (exists_last (l := c :: w)) as (r & d & Er); [discriminate|]. rewrite Er in K, N.
      change (chr 34 :: r ++ [d]) with ((chr 34 :: r) ++ [d]) in K. apply app_inj_tail in K. destruct K as [_ ->].
      apply Forall_app in N. destruct N as [_ N]. inversion N as [|? ? [N1 _]]; subst. congruence.
Qed.

Lemma parse_fuel text file : (exists F, parse_with F text file <> PFuel) <-> parse text file <> PFuel.
Proof.
  split.
  - intros (F & H). destruct (parse_outcome text file) as [A B _|D A B C]; [now rewrite A in H|congruence].
  - intros H. exists (length text + 3)%nat. exact H.
Qed.

Lemma parse_enough F text file : (length text + 3 <= F)%nat -> parse_with F text file = parse text file.
Proof.
  intros L. destruct (parse_outcome text file) as [A B _|D A B C E G]; [now rewrite A, B|]. rewrite C. now apply G.
Qed.

Lemma parse_any_fuel F text file : parse_with F text file <> PFuel -> parse_with F text file = parse text file.
Proof.
  intros N. destruct (parse_outcome text file) as [A B _|D A B C E G]; [now rewrite A in N|]. rewrite C. now destruct (E F).
Qed.
