(** From the tokens to the text of the file: every file has a meaning, and the compiler does
    what it says (C60). *)
From Verif Require Import Bytes BaseProofs Num ProtoLex ProtoParse SpecPos PosProofs SpecProto SpecSchema PLexProofs PNextProofs PSimProofs PRunProofs PTermProofs PSchemaProofs PAcceptProofs SpecReads ReadsCode ReadsProofs.

(** ** Positions *)
Lemma npos_line_col pre : line_col pre (fst (npos pre)) (snd (npos pre)).
Proof.
  induction pre as [|c pre IH] using rev_ind.
  - split; [reflexivity|]. exists [], []. cbn. auto.
  - rewrite npos_snoc. unfold adv. destruct (Z.eqb_spec (code c) 10) as [E|E]; cbn [fst snd].
    + apply code_LF in E. subst c. eapply line_col_lf. exact IH.
    + apply line_col_char; [|exact IH]. intros ->. now apply E.
Qed.

Lemma last_line (q r q' r' : bytes) : q ++ r = q' ++ r' -> (q = [] \/ exists u, q = u ++ [LF]) ->
  (q' = [] \/ exists u, q' = u ++ [LF]) -> ~ In LF r -> ~ In LF r' -> (length r <= length r')%nat -> r = r'.
Proof.
  intros H Q Q' R R' L.
  assert (X : exists x, q = q' ++ x /\ r' = x ++ r).
  { clear - H L. revert q' H. induction q as [|a q IH]; intros [|a' q'] H; cbn [app] in H.
    - exists []. auto.
    - exfalso. rewrite H in L. cbn [length] in L. rewrite app_length in L. lia.
    - exists (a :: q). auto.
    - injection H as -> H. destruct (IH q' H) as (x & A & B). exists x. cbn. now rewrite A. }
  destruct X as (x & E1 & E2). destruct x as [|a x]; [now rewrite E2|]. exfalso. apply R'.
  destruct Q as [Q|(u & Q)]; [rewrite Q in E1; now apply app_cons_not_nil in E1|].
  rewrite Q in E1. assert (Nl : a :: x <> []) by discriminate. destruct (exists_last Nl) as (x' & z & Ex).
  rewrite Ex, app_assoc in E1. apply app_inj_tail in E1. destruct E1 as [_ <-].
  rewrite E2, Ex. apply in_or_app. left. apply in_or_app. right. now left.
Qed.

Lemma line_col_npos pre line col : line_col pre line col -> line = fst (npos pre) /\ col = snd (npos pre).
Proof.
  intros (A & q & r & E & Q & R & C). destruct (npos_line_col pre) as (A' & q' & r' & E' & Q' & R' & C').
  split; [congruence|]. rewrite C, C'. do 2 f_equal. rewrite E in E'.
  destruct (Nat.le_ge_cases (length r) (length r')) as [L|L].
  - f_equal. exact (last_line _ _ _ _ E' Q Q' R R' L).
  - f_equal. symmetry. symmetry in E'. exact (last_line _ _ _ _ E' Q' Q R' R L).
Qed.

(** ** References *)
Definition declares (ds : list (bytes * bytes * list sitem)) (q : bytes) : bool :=
  existsb (fun d => let '(p, n, _) := d in bytes_eqb (full_name p n) q) ds.
Definition lacks (ds : list (bytes * bytes * list sitem)) (pkg : bytes) (f : sfield) : list bytes :=
  match sf_type f with
  | SMessage w => if declares ds (full_name pkg w) then [] else [full_name pkg w]
  | _ => []
  end.

Lemma declares_in ds q : declares ds q = true <-> In q (map dname ds).
Proof.
  unfold declares. rewrite existsb_exists, in_map_iff. split.
  - intros ([[p n] i] & I1 & E). apply bytes_eqb_true in E. exists (p, n, i). auto.
  - intros ([[p n] i] & E & I1). exists (p, n, i). split; [exact I1|]. cbn in E. subst q. apply bytes_eqb_refl.
Qed.

Section Exact.
  Context (msgs : list message) (ds : list (bytes * bytes * list sitem)) (names : map qualified msgs = map dname ds).

  Lemma resolve_fields_exact pkg fs : forall ss, Forall2 (field_later msgs pkg) fs ss ->
    match flat_map (lacks ds pkg) ss with
    | [] => exists fs', resolve_fields msgs fs = POk fs'
    | q :: _ => resolve_fields msgs fs = PThrow (b "Unable to find message '" ++ q ++ b "'") 0 0
    end.
  Proof.
    induction fs as [|f fs IH]; intros ss H; inversion H as [|? s ? ss' H1 H2]; subst; clear H; [now exists []|].
    specialize (IH ss' H2). cbn [resolve_fields flat_map].
    assert (J : forall f', match flat_map (lacks ds pkg) ss' with
      | [] => exists fs', (let! r' := resolve_fields msgs fs in POk (f' :: r')) = POk fs'
      | q :: _ => (let! r' := resolve_fields msgs fs in POk (f' :: r')) = PThrow (b "Unable to find message '" ++ q ++ b "'") 0 0
      end).
    { intros f'. destruct (flat_map (lacks ds pkg) ss'); [destruct IH as (fs' & ->); cbn; eauto|now rewrite IH]. }
    destruct H1 as (msgs0 & r & E & T & Q & R & O & Nm & Ix & Op). rewrite T. unfold lacks at 1.
    destruct (sf_type s) as [| | | | | | | | | | | | | | |w] eqn:Ts; try (cbn [scalar_type pbind app]; apply J).
    cbn [scalar_type]. destruct Q as [Q1 Q2]. pose proof (find_named msgs ds (full_name pkg w) names) as Fn.
    destruct (f_ref f) as [k|] eqn:Fr.
    - symmetry in Q2. apply (find_message_app _ r) in Q2. rewrite <- E in Q2. rewrite Q2 in Fn.
      apply first_named_in, declares_in in Fn. rewrite Fn. cbn [pbind app]. apply J.
    - rewrite Q1. destruct (find_message msgs (full_name pkg w)) as [k|].
      + apply first_named_in, declares_in in Fn. rewrite Fn. cbn [pbind app]. apply J.
      + destruct (declares ds (full_name pkg w)) eqn:D; [apply declares_in in D; contradiction|]. reflexivity.
  Qed.

  Lemma resolve_messages_exact l : forall ds0, Forall2 (message_later msgs) l ds0 ->
    match flat_map (fun d : bytes * bytes * list sitem => let '(pkg, _, items) := d in flat_map (lacks ds pkg) (item_fields items)) ds0 with
    | [] => exists l', resolve_messages msgs l = POk l'
    | q :: _ => resolve_messages msgs l = PThrow (b "Unable to find message '" ++ q ++ b "'") 0 0
    end.
  Proof.
    induction l as [|x l IH]; intros ds0 H; inversion H as [|? d ? ds' H1 H2]; subst; clear H; [now exists []|].
    specialize (IH ds' H2). cbn [resolve_messages flat_map]. destruct d as [[pkg name] items]. destruct H1 as (A & B & C & D).
    pose proof (resolve_fields_exact pkg (m_fields x) (item_fields items) C) as R.
    destruct (flat_map (lacks ds pkg) (item_fields items)) as [|q r].
    - destruct R as (fs' & ->). cbn [pbind app].
      match goal with |- match ?l with _ => _ end => destruct l as [|q r] end.
      + destruct IH as (l' & ->). cbn. eauto.
      + now rewrite IH.
    - rewrite R. reflexivity.
  Qed.
End Exact.

Lemma finish_exact msgs os file decls : messages_raw msgs (messages_of [] decls) -> options_are os (decl_opts decls) ->
  match missing decls with
  | [] => exists p, finish msgs os file = POk p /\ proto_is p decls /\ pr_file p = file
  | q :: _ => finish msgs os file = PThrow (b "Unable to find message '" ++ q ++ b "'") 0 0
  end.
Proof.
  intros R O. pose proof (raw_later _ _ R []) as L. rewrite app_nil_r in L.
  pose proof (resolve_messages_exact msgs _ (raw_names _ _ R) msgs _ L) as F.
  pose proof (finish_is msgs os file decls R O) as G. unfold finish in *.
  change (missing decls) with (flat_map (fun d : bytes * bytes * list sitem => let '(pkg, _, items) := d in
    flat_map (lacks (messages_of [] decls) pkg) (item_fields items)) (messages_of [] decls)).
  match goal with |- match ?l with _ => _ end => destruct l as [|q r] end.
  - destruct F as (l' & E). rewrite E in *. cbn [pbind] in *. eauto.
  - now rewrite F.
Qed.

(** ** The tokens of a text *)
Inductive tape : bytes -> bytes -> list pt -> ending -> Prop :=
  | tp_piece pre sp p next l E : sep true sp -> piece_ok p -> may_follow p next ->
      tape (pre ++ sp ++ spelling p) next l E ->
      tape pre (sp ++ spelling p ++ next) ((p, fst (npos (pre ++ sp)), snd (npos (pre ++ sp))) :: l) E
  | tp_end pre x : at_end x -> tape pre x [] (EEof (fst (npos (pre ++ x))) (snd (npos (pre ++ x)) - 1))
  | tp_cut pre x : at_cut x -> tape pre x [] (EEof 1 1)
  | tp_symbol pre sp c next : sep true sp -> odd_char c ->
      tape pre (sp ++ c :: next) [] (EBad (b "Invalid symbol") (fst (npos (pre ++ sp))) (snd (npos (pre ++ sp))))
  | tp_ident pre sp w next : sep true sp -> dotted w -> match next with c :: _ => ~ pletter c | [] => True end ->
      tape pre (sp ++ w ++ "."%char :: next) [] (EBad (b "Invalid identifier") (fst (npos (pre ++ sp))) (snd (npos (pre ++ sp))))
  | tp_loop pre x : endless x -> tape pre x [] ELoop.

Lemma tape_ok pre x l E : tape pre x l E -> okl l.
Proof. induction 1; constructor; auto. Qed.

Lemma tape_toks pre x l E : tape pre x l E ->
  exists l0 e0, toks pre x (map mk l ++ l0) e0 /\ ends_as (l0, e0) E /\ (length (map mk l ++ l0) <= length x)%nat.
Proof.
  induction 1 as [pre sp p next l E S O M T IH|pre x N|pre x N|pre sp c next S O|pre sp w next S D O|pre x N].
  - destruct IH as (l0 & e0 & A & B & L). exists l0, e0. pose proof (spelling_pos p O) as Lp.
    assert (Ll : (length next < length (sp ++ spelling p ++ next))%nat) by (rewrite !app_length; lia).
    split; [|split; [exact B|cbn [map app length]; lia]]. cbn [map app]. unfold mk at 1.
    eapply tk_tok; [apply lex_piece; auto|exact Ll|exact A].
  - eexists [], _. split; [apply tk_end; exact N|]. split; [|cbn; lia]. eexists. reflexivity.
  - destruct N as (sp & w & c & rest & -> & S & W & C).
    destruct (toks_total rest (pre ++ sp ++ chr 34 :: w ++ [c])) as (l & e & T & L).
    assert (L2 : (length rest < length (sp ++ chr 34 :: w ++ c :: rest))%nat).
    { rewrite app_length. cbn [length]. rewrite app_length. cbn [length]. lia. }
    exists (token0 :: l), e. split; [|split; [eexists; reflexivity|cbn [map app length]; lia]].
    cbn [map app]. eapply tk_tok; [|exact L2|exact T]. eapply lex_cut; eauto.
  - eexists [], _. split; [apply tk_bad; eapply lex_sym; eauto|]. split; [reflexivity|cbn; lia].
  - eexists [], _. split; [apply tk_bad; eapply lex_ident; eauto|]. split; [reflexivity|cbn; lia].
  - eexists [], _. split; [apply tk_loop|split; [reflexivity|cbn; lia]].
    destruct N as [sp body -> S N|sp w -> S N]; [eapply lex_line; eauto|eapply lex_string; eauto].
Qed.

Lemma tape_total : forall x pre, exists l E, tape pre x l E.
Proof.
  intros x. remember (length x) as k eqn:K. revert x K. induction k as [k IH] using lt_wf_ind. intros x -> pre.
  destruct (lexes_total x pre) as (r & H).
  destruct H as [sp p rest -> S O M|sp w c rest -> S O K|N|sp c rest -> S N|sp w rest -> S D N|sp body -> S N|sp w -> S N].
  - assert (L : (length rest < length (sp ++ spelling p ++ rest))%nat).
    { rewrite !app_length. pose proof (spelling_pos p O). lia. }
    destruct (IH _ L rest eq_refl (pre ++ sp ++ spelling p)) as (l & E & T). eexists _, E. apply tp_piece; eauto.
  - eexists _, _. apply tp_cut. exists sp, w, c, rest. auto.
  - eexists _, _. apply tp_end. exact N.
  - eexists _, _. apply tp_symbol; auto.
  - eexists _, _. apply tp_ident; auto.
  - eexists _, _. apply tp_loop. eapply el_line; eauto.
  - eexists _, _. apply tp_loop. eapply el_string; eauto.
Qed.

(** ** The compiler on a tape *)
Definition outcome (file : bytes) (x : xres) (r : nat -> pres proto) (big : nat -> Prop) : Prop :=
  match x with
  | XOk decls =>
      match missing decls with
      | [] => exists p, (forall F, big F -> r F = POk p) /\ proto_is p decls /\ pr_file p = file
      | q :: _ => forall F, big F -> r F = PThrow (b "Unable to find message '" ++ q ++ b "'") 0 0
      end
  | XErr m ln c => forall F, big F -> r F = PThrow m ln c
  | XLoop => forall F, r F = PFuel
  end.

Lemma tape_run text file l E : tape [] text l E ->
  outcome file (scan [] AtDecl l E) (fun F => parse_with F text file) (fun F => (length text + 3 <= F)%nat).
Proof.
  intros T. pose proof (tape_ok _ _ _ _ T) as O. destruct (tape_toks _ _ _ _ T) as (l0 & e0 & T2 & HE & L).
  destruct (outcomes text file _ e0 T2 L) as (D1 & D2 & D3). cbv zeta in *.
  assert (Ll : (length l <= length text)%nat) by (rewrite app_length, map_length in L; lia).
  pose proof (proto_hits l0 e0 E HE (length text + 3) (length text + 3) [] [] [] l token0 (scan [] AtDecl l E) O) as P.
  specialize (P ltac:(lia) ltac:(lia) (mr_nil) options_nil eq_refl). cbn [package_after fold_left] in P. unfold At in P.
  unfold parse_list, parse_source in D1, D2, D3. unfold hits in P.
  match type of P with match ?t with _ => _ end => destruct t as [[[msgs os] st]|m ln c| |] end.
  - destruct P as (decls & -> & W & A). cbn [fst snd] in W, A. pose proof (finish_exact msgs os file decls W A) as Fi.
    unfold outcome. change (let! msgs' := resolve_messages msgs msgs in POk (Proto msgs' os file)) with (finish msgs os file) in *.
    destruct (missing decls) as [|q r].
    + destruct Fi as (p & E1 & E2 & E3). rewrite E1 in *. exists p. split; [|auto]. apply D3. discriminate.
    + rewrite Fi in *. apply D3. discriminate.
  - rewrite P. cbn [outcome]. apply D3. discriminate.
  - rewrite P. cbn [outcome]. apply D2. reflexivity.
  - contradiction.
Qed.

(** ** Meanings and tapes *)
Lemma laid_snoc ps x p sp next : laid true ps x (sp ++ spelling p ++ next) -> sep true sp -> piece_ok p -> may_follow p next ->
  laid true (ps ++ [p]) (x ++ sp ++ spelling p) next.
Proof.
  intros H S O M. remember (sp ++ spelling p ++ next) as y eqn:Y.
  induction H as [y|q qs s x y S1 O1 M1 _ IH]; subst.
  - cbn [app]. pose proof (laid_cons true p [] sp [] next S O M (laid_nil _ _)) as J. now rewrite app_nil_r in J.
  - specialize (IH eq_refl). cbn [app]. rewrite <- !app_assoc. apply laid_cons; auto.
    now rewrite <- !app_assoc.
Qed.

Lemma reads_snoc ps : forall s l s' p, reads s ps = Some (l, s') ->
  reads s (ps ++ [p]) = match step s' p with Go d t => Some (l ++ d, t) | Wrong _ => None end.
Proof.
  induction ps as [|q ps IH]; intros s l s' p H; cbn [reads app] in *.
  - injection H as <- <-. destruct (step s p); [now rewrite app_nil_r|reflexivity].
  - destruct (step s q) as [d t|]; [|discriminate H]. destruct (reads t ps) as [[l2 s2]|] eqn:R; [|discriminate H].
    injection H as <- <-. rewrite (IH _ _ _ p R). destruct (step s2 p); [now rewrite app_assoc|reflexivity].
Qed.

(** What [x] says about the rest. *)
Definition told (text : bytes) (x : xres) : Prop :=
  match x with
  | XOk decls =>
      match missing decls with
      | [] => meaning text (VSchema decls)
      | q :: _ => meaning text (VError (b "Unable to find message '" ++ q ++ b "'") 0 0)
      end
  | XErr m ln c => meaning text (VError m ln c)
  | XLoop => meaning text VLoop
  end.

Lemma tape_told text pre x l E : tape pre x l E -> forall acc s, reads_to text pre x acc s -> told text (scan acc s l E).
Proof.
  induction 1 as [pre sp p next l E S O M T IH|pre x N|pre x N|pre sp c next S O|pre sp w next S D O|pre x N]; intros acc s H; cbn [scan].
  - destruct (step s p) as [d s'|m] eqn:St.
    + apply IH. destruct H as (E1 & ps & A & B). split; [rewrite E1; now rewrite <- !app_assoc|].
      exists (ps ++ [p]). split; [now apply laid_snoc|]. now rewrite (reads_snoc _ _ _ _ p B), St.
    + eapply mn_token; eauto. apply npos_line_col.
  - cbn [at_stop]. destruct (closes s) as [d|] eqn:C.
    + cbn [told]. destruct (missing (acc ++ d)) as [|q r] eqn:Mi; [eapply mn_schema|eapply mn_missing]; eauto.
    + cbn [told]. eapply mn_end; eauto. destruct H as (-> & _). apply npos_line_col.
  - cbn [at_stop]. destruct (closes s) as [d|] eqn:C.
    + cbn [told]. destruct (missing (acc ++ d)) as [|q r] eqn:Mi; [eapply mn_schema|eapply mn_missing]; eauto.
    + cbn [told]. eapply mn_cut; eauto.
  - eapply mn_symbol; eauto. apply npos_line_col.
  - eapply mn_ident; eauto. apply npos_line_col.
  - eapply mn_loop; eauto.
Qed.

Lemma told_total text x : told text x -> exists v, meaning text v.
Proof. destruct x as [l|m ln c|]; cbn; [destruct (missing l)| |]; eauto. Qed.

Lemma meaning_total text : exists v, meaning text v.
Proof.
  destruct (tape_total text []) as (l & E & T). apply (told_total text (scan [] AtDecl l E)).
  apply (tape_told _ _ _ _ _ T). split; [reflexivity|]. exists []. split; [constructor|reflexivity].
Qed.

(** The tape of a text that is laid out. *)
Lemma laid_tape ps x next : laid true ps x next -> forall pre l E, tape (pre ++ x) next l E ->
  exists l', tape pre (x ++ next) (l' ++ l) E /\ map (fun q => fst (fst q)) l' = ps.
Proof.
  induction 1 as [next|p ps sp x next S O M _ IH]; intros pre l E T.
  - rewrite app_nil_r in T. exists []. auto.
  - destruct (IH (pre ++ sp ++ spelling p) l E) as (l' & A & B).
    { rewrite <- !app_assoc. exact T. }
    eexists (_ :: l'). rewrite <- !app_assoc. split; [cbn [app]; apply tp_piece; eauto|]. cbn. now rewrite B.
Qed.

Lemma scan_reads l' : forall s ps acc d s' l E, map (fun q => fst (fst q)) l' = ps -> reads s ps = Some (d, s') ->
  scan acc s (l' ++ l) E = scan (acc ++ d) s' l E.
Proof.
  induction l' as [|[[p ln] c] l' IH]; intros s ps acc d s' l E <- R; cbn [map fst reads app scan] in *.
  - injection R as <- <-. now rewrite app_nil_r.
  - destruct (step s p) as [d1 s1|]; [|discriminate R]. destruct (reads s1 _) as [[d2 s2]|] eqn:R2; [|discriminate R].
    injection R as <- <-. rewrite app_assoc. now apply (IH s1 _ (acc ++ d1) d2 s2 l E eq_refl).
Qed.

Lemma reads_to_tape text x next acc s l E : reads_to text x next acc s -> tape x next l E ->
  exists l', tape [] text (l' ++ l) E /\ scan [] AtDecl (l' ++ l) E = scan acc s l E.
Proof.
  intros (-> & ps & A & B) T. destruct (laid_tape _ _ _ A [] l E T) as (l' & C & D). exists l'. split; [exact C|].
  exact (scan_reads l' AtDecl ps [] acc s l E D B).
Qed.

(** The verdict of a tape. *)
Definition verdict_of (x : xres) : verdict :=
  match x with
  | XOk decls =>
      match missing decls with
      | [] => VSchema decls
      | q :: _ => VError (b "Unable to find message '" ++ q ++ b "'") 0 0
      end
  | XErr m ln c => VError m ln c
  | XLoop => VLoop
  end.

Lemma meaning_tape text v : meaning text v -> exists l E, tape [] text l E /\ verdict_of (scan [] AtDecl l E) = v.
Proof.
  assert (Run : forall x next acc s l E v, reads_to text x next acc s -> tape x next l E ->
    verdict_of (scan acc s l E) = v -> exists l E, tape [] text l E /\ verdict_of (scan [] AtDecl l E) = v).
  { clear v. intros x next acc s l E v R T V. destruct (reads_to_tape _ _ _ _ _ _ _ R T) as (l' & T2 & E2). exists (l' ++ l), E.
    now rewrite E2. }
  intros [x next l s l' R N C Mi|x next l s l' q r R N C Mi|x sp p next l s m line col R S O M St Lc|x next l s line col R N C Lc
    |x next l s R N C|x sp c next l s line col R S O Lc|x sp w next l s line col R S D O Lc|x next l s R N].
  - assert (T : exists ln c, tape x next [] (EEof ln c)) by (destruct N as [N|N]; eexists _, _; [apply tp_end|apply tp_cut]; exact N).
    destruct T as (ln & c & T). apply (Run _ _ _ _ _ _ _ R T). cbn [scan at_stop]. rewrite C. cbn [verdict_of]. now rewrite Mi.
  - assert (T : exists ln c, tape x next [] (EEof ln c)) by (destruct N as [N|N]; eexists _, _; [apply tp_end|apply tp_cut]; exact N).
    destruct T as (ln & c & T). apply (Run _ _ _ _ _ _ _ R T). cbn [scan at_stop]. rewrite C. cbn [verdict_of]. now rewrite Mi.
  - destruct (tape_total next (x ++ sp ++ spelling p)) as (l2 & E & T).
    apply (Run _ _ _ _ _ _ _ R (tp_piece x sp p next l2 E S O M T)). cbn [scan]. rewrite St.
    apply line_col_npos in Lc. destruct Lc as [-> ->]. reflexivity.
  - apply (Run _ _ _ _ _ _ _ R (tp_end x next N)). cbn [scan at_stop]. rewrite C.
    destruct R as (E & _). rewrite E in Lc. apply line_col_npos in Lc. destruct Lc as [-> ->]. reflexivity.
  - apply (Run _ _ _ _ _ _ _ R (tp_cut x next N)). cbn [scan at_stop]. rewrite C. reflexivity.
  - apply (Run _ _ _ _ _ _ _ R (tp_symbol x sp c next S O)). apply line_col_npos in Lc. destruct Lc as [-> ->]. reflexivity.
  - apply (Run _ _ _ _ _ _ _ R (tp_ident x sp w next S D O)). apply line_col_npos in Lc. destruct Lc as [-> ->]. reflexivity.
  - exact (Run _ _ _ _ _ _ _ R (tp_loop x next N) eq_refl).
Qed.

(** The result that a verdict announces. *)
Definition announced (file : bytes) (v : verdict) (r : nat -> pres proto) (big : nat -> Prop) : Prop :=
  match v with
  | VSchema decls => exists p, (forall F, big F -> r F = POk p) /\ proto_is p decls /\ pr_file p = file
  | VError m ln c => forall F, big F -> r F = PThrow m ln c
  | VLoop => forall F, r F = PFuel
  end.

Lemma meaning_announced text file v : meaning text v ->
  announced file v (fun F => parse_with F text file) (fun F => (length text + 3 <= F)%nat).
Proof.
  intros H. destruct (meaning_tape _ _ H) as (l & E & T & <-). pose proof (tape_run text file l E T) as R.
  destruct (scan [] AtDecl l E) as [d|m ln c|]; cbn [outcome verdict_of] in *; [destruct (missing d)| |]; exact R.
Qed.

(** ** A text has one meaning *)
Lemma at_rest s pre x pre' x' : at_ s pre x -> at_ s pre' x' -> x = x'.
Proof.
  unfold at_. destruct (i_ungot s).
  - intros (_ & -> & _) (_ & -> & _). reflexivity.
  - intros (-> & _) (-> & _). reflexivity.
Qed.

Definition agree (q1 q2 : pres (token * bytes * bytes)) : Prop :=
  match q1, q2 with
  | POk (t1, _, r1), POk (t2, _, r2) => t1 = t2 /\ r1 = r2
  | PThrow m1 l1 c1, PThrow m2 l2 c2 => m1 = m2 /\ l1 = l2 /\ c1 = c2
  | PFuel, PFuel => True
  | _, _ => False
  end.

Lemma lexes_agree pre x q1 q2 : lexes pre x q1 -> lexes pre x q2 -> agree q1 q2.
Proof.
  intros H1 H2. assert (R : forall q, lexes pre x q -> res_at (t_next (length x + 2) (length x + 2) (peeked pre x)) q).
  { intros q H. apply (next_lexes _ _ _ pre x q (at_peeked pre x)); auto; lia. }
  apply R in H1. apply R in H2. revert H1 H2. clear R.
  destruct (t_next (length x + 2) (length x + 2) (peeked pre x)) as [[t s]|m l c| |], q1 as [[[t1 p1] r1]|m1 l1 c1| |], q2 as [[[t2 p2] r2]|m2 l2 c2| |];
    cbn; try contradiction; auto.
  - intros [-> A1] [-> A2]. split; [reflexivity|]. eapply at_rest; eassumption.
  - intros (-> & -> & ->) (-> & -> & ->). auto.
Qed.

Lemma mk_inj p q l1 c1 l2 c2 : piece_ok p -> piece_ok q -> mk (p, l1, c1) = mk (q, l2, c2) -> p = q /\ l1 = l2 /\ c1 = c2.
Proof.
  intros O1 O2 H. unfold mk in H. injection H as C V L K. split; [|auto].
  assert (W : forall p, piece_ok p -> match p with
    | PcWord _ => code_of p <> KInteger /\ code_of p <> KString /\ forall c, piece_ok (PcSym c) -> code_of p <> code_of (PcSym c)
    | PcNum _ => code_of p = KInteger | PcStr _ => code_of p = KString
    | PcSym c => code_of p <> KInteger /\ code_of p <> KString end).
  { clear. intros p O. kinds p; try reflexivity;
      try (split; [|split]; [vm_compute; discriminate|vm_compute; discriminate|intros c Oc; syms Oc; vm_compute; discriminate]);
      try (rewrite KE; split; [|split]; [discriminate|discriminate|intros c Oc; syms Oc; vm_compute; discriminate]).
    syms O; split; vm_compute; discriminate. }
  pose proof (W p O1) as W1. pose proof (W q O2) as W2. clear W.
  destruct p as [w|ds|s|c], q as [w'|ds'|s'|c']; cbn [value_of] in V; try congruence;
    try (rewrite C in W1; rewrite W2 in W1; exfalso; intuition congruence);
    try (rewrite <- C in W2; rewrite W1 in W2; exfalso; intuition congruence);
    try (exfalso; destruct W1 as (_ & _ & W1); exact (W1 c' O2 C));
    try (exfalso; destruct W2 as (_ & _ & W2); exact (W2 c O1 (eq_sym C))).
  clear - O1 O2 C. syms O1; syms O2; try reflexivity; vm_compute in C; discriminate C.
Qed.

(** What the lexer finds at the start of a tape. *)
Definition head_is (pre x : bytes) (l : list pt) (E : ending) : Prop :=
  match l, E with
  | q :: r, _ => exists sp next, x = sp ++ spelling (fst (fst q)) ++ next /\ piece_ok (fst (fst q)) /\
      lexes pre x (POk (mk q, pre ++ sp ++ spelling (fst (fst q)), next)) /\
      tape (pre ++ sp ++ spelling (fst (fst q))) next r E
  | [], EEof ln c => exists v n, lexes pre x (POk (Tok KEof [] ln c, v, n))
  | [], EBad m ln c => lexes pre x (PThrow m ln c)
  | [], ELoop => lexes pre x PFuel
  end.

Lemma tape_head pre x l E : tape pre x l E -> head_is pre x l E.
Proof.
  intros [pre' sp p next l' E' S O M T|pre' x' N|pre' x' N|pre' sp c next S O|pre' sp w next S D O|pre' x' N]; cbn [head_is fst].
  - exists sp, next. split; [reflexivity|]. split; [exact O|]. split; [now apply lex_piece|exact T].
  - eexists _, _. apply lex_eof. exact N.
  - destruct N as (sp & w & c & rest & -> & S & W & C). eexists _, _. eapply lex_cut; eauto.
  - eapply lex_sym; eauto.
  - eapply lex_ident; eauto.
  - destruct N as [sp body -> S N|sp w -> S N]; [eapply lex_line; eauto|eapply lex_string; eauto].
Qed.

Lemma tape_fun pre x l1 E1 : tape pre x l1 E1 -> forall l2 E2, tape pre x l2 E2 -> l1 = l2 /\ E1 = E2.
Proof.
  revert pre x E1. induction l1 as [|[[p ln] c] l1 IH]; intros pre x E1 T1 l2 E2 T2;
    apply tape_head in T1; apply tape_head in T2.
  - destruct l2 as [|[[p2 ln2] c2] l2].
    + split; [reflexivity|].
      destruct E1 as [a1 b1|m1 a1 b1|], E2 as [a2 b2|m2 a2 b2|]; cbn [head_is] in *;
        try destruct T1 as (v1 & n1 & T1); try destruct T2 as (v2 & n2 & T2);
        pose proof (lexes_agree _ _ _ _ T1 T2) as A; cbn in A; try contradiction; try reflexivity.
      * destruct A as [A _]. injection A as -> ->. reflexivity.
      * destruct A as (-> & -> & ->). reflexivity.
    + exfalso. destruct T2 as (sp & next & _ & O & T2 & _). cbn [fst] in *.
      destruct E1 as [a1 b1|m1 a1 b1|]; cbn [head_is] in *; try destruct T1 as (v1 & n1 & T1);
        pose proof (lexes_agree _ _ _ _ T1 T2) as A; cbn in A; try contradiction.
      destruct A as [A _]. injection A as A _ _ _. now apply (not_eof p2 O).
  - destruct T1 as (sp & next & X1 & O1 & L1 & T1). cbn [fst] in *. destruct l2 as [|[[p2 ln2] c2] l2].
    + exfalso. destruct E2 as [a1 b1|m1 a1 b1|]; cbn [head_is] in *; try destruct T2 as (v1 & n1 & T2);
        pose proof (lexes_agree _ _ _ _ L1 T2) as A; cbn in A; try contradiction.
      destruct A as [A _]. injection A as A _ _ _. now apply (not_eof p O1).
    + destruct T2 as (sp2 & next2 & X2 & O2 & L2 & T2). cbn [fst] in *.
      pose proof (lexes_agree _ _ _ _ L1 L2) as A. cbn [agree] in A. destruct A as [A N].
      apply (mk_inj _ _ _ _ _ _ O1 O2) in A. destruct A as (-> & -> & ->). subst next2.
      rewrite X1 in X2. rewrite !app_assoc in X2. apply app_inv_tail in X2. apply app_inv_tail in X2. subst sp2.
      destruct (IH _ _ _ T1 _ _ T2) as [-> ->]. auto.
Qed.

Lemma meaning_fun text v1 v2 : meaning text v1 -> meaning text v2 -> v1 = v2.
Proof.
  intros H1 H2. destruct (meaning_tape _ _ H1) as (l1 & E1 & T1 & <-). destruct (meaning_tape _ _ H2) as (l2 & E2 & T2 & <-).
  destruct (tape_fun _ _ _ _ T1 _ _ T2) as [-> ->]. reflexivity.
Qed.

(** ** The statements *)
Lemma parse_big text file : parse text file = parse_with (length text + 3) text file.
Proof. reflexivity. Qed.

Lemma schema_result text file l : meaning text (VSchema l) -> exists p, parse text file = POk p /\ proto_is p l /\ pr_file p = file.
Proof.
  intros H. destruct (meaning_announced text file _ H) as (p & A & B). exists p. split; [|exact B]. apply A. apply Nat.le_refl.
Qed.
Lemma schema_iff text file : (exists p, parse text file = POk p) <-> (exists l, meaning text (VSchema l)).
Proof.
  split.
  - intros (p & P). destruct (meaning_total text) as ([l|m ln c|] & V); [eauto| |]; pose proof (meaning_announced text file _ V) as A; cbn in A.
    + rewrite parse_big, A in P by apply Nat.le_refl. discriminate P.
    + rewrite parse_big, A in P. discriminate P.
  - intros (l & H). destruct (schema_result text file l H) as (p & P & _). eauto.
Qed.
Lemma error_iff text file m line col : parse text file = PThrow m line col <-> meaning text (VError m line col).
Proof.
  split.
  - intros P. destruct (meaning_total text) as ([l|m' ln c|] & V); pose proof (meaning_announced text file _ V) as A; cbn in A.
    + destruct A as (p & A & _). rewrite parse_big, A in P by apply Nat.le_refl. discriminate P.
    + rewrite parse_big, A in P by apply Nat.le_refl. injection P as <- <- <-. exact V.
    + rewrite parse_big, A in P. discriminate P.
  - intros H. apply (meaning_announced text file _ H). apply Nat.le_refl.
Qed.
Lemma loop_iff text file : (forall F, parse_with F text file = PFuel) <-> meaning text VLoop.
Proof.
  split.
  - intros P. destruct (meaning_total text) as ([l|m' ln c|] & V); [| |exact V]; pose proof (meaning_announced text file _ V) as A; cbn in A.
    + destruct A as (p & A & _). specialize (P (length text + 3)%nat). rewrite A in P by apply Nat.le_refl. discriminate P.
    + specialize (P (length text + 3)%nat). rewrite A in P by apply Nat.le_refl. discriminate P.
  - intros H. exact (meaning_announced text file _ H).
Qed.
