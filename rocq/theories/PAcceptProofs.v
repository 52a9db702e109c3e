(** Accepted and rejected files (C26, C28-C30, C43). *)
From Verif Require Import Bytes BaseProofs Num SpecNum IntProofs ProtoLex ProtoParse SpecProto SpecSchema PLexProofs PNextProofs PSimProofs PRunProofs PTermProofs PSchemaProofs.

(** ** References *)
Definition dname (d : bytes * bytes * list sitem) : bytes := let '(p, n, _) := d in full_name p n.

Lemma qualified_full m : qualified m = full_name (m_package m) (m_name m).
Proof. unfold qualified, full_name. destruct (m_package m); reflexivity. Qed.

Lemma raw_names msgs ds : messages_raw msgs ds -> map qualified msgs = map dname ds.
Proof.
  induction 1 as [|msgs ds m [[p n] i] _ IH (A & B & _)]; [reflexivity|]. rewrite !map_app, IH. cbn [map dname].
  unfold qualified, full_name. rewrite A, B. destruct p; reflexivity.
Qed.

Lemma find_named msgs : forall ds q, map qualified msgs = map dname ds ->
  match find_message msgs q with
  | Some k => first_named ds q k
  | None => ~ In q (map dname ds)
  end.
Proof.
  induction msgs as [|m msgs IH]; intros [|[[p n] i] ds] q E; try discriminate; cbn [find_message map] in *; [auto|].
  injection E as E1 E2. specialize (IH ds q E2). cbn [dname] in *. destruct (bytes_eqb (qualified m) q) eqn:B.
  - apply bytes_eqb_true in B. split; [|lia]. exists p, n, i. split; [reflexivity|congruence].
  - apply bytes_eqb_false in B. destruct (find_message msgs q) as [k|]; cbn [option_map].
    + destruct IH as [(p' & n' & i' & A1 & A2) A3]. split.
      * exists p', n', i'. split; [exact A1|exact A2].
      * intros j p0 n0 i0 L N. destruct j as [|j]; cbn in N; [injection N as <- <- <-; congruence|].
        apply (A3 j p0 n0 i0); [lia|exact N].
    + intros [H|H]; [congruence|contradiction].
Qed.

Lemma first_named_fun ds q k k' : first_named ds q k -> first_named ds q k' -> k = k'.
Proof.
  intros [(p & n & i & A1 & A2) A3] [(p' & n' & i' & B1 & B2) B3].
  destruct (Nat.lt_trichotomy k k') as [L|[L|L]]; [|exact L|].
  - now elim (B3 k p n i L A1).
  - now elim (A3 k' p' n' i' L B1).
Qed.

Lemma first_named_in ds q k : first_named ds q k -> In q (map dname ds).
Proof.
  intros [(p & n & i & A & B) _]. apply nth_error_In in A. apply (in_map dname) in A. cbn in A. now rewrite B in A.
Qed.

Lemma in_first_named ds q : In q (map dname ds) -> exists k, first_named ds q k.
Proof.
  intros H. pose proof (find_named (map (fun d => let '(p, n, _) := d in Msg [] n p []) ds) ds q) as F.
  destruct (find_message _ q) as [k|]; [exists k; apply F|elim F; [|exact H]];
    rewrite map_map; apply map_ext; intros [[p n] i]; apply qualified_full.
Qed.

(** Messages before resolution, all against the final list. *)
Definition field_later (msgs : list message) (pkg : bytes) (f : field) (s : sfield) : Prop :=
  exists msgs0 r, msgs = msgs0 ++ r /\ field_raw msgs0 pkg f s.
Definition message_later (msgs : list message) (m : message) (d : bytes * bytes * list sitem) : Prop :=
  let '(pkg, name, items) := d in
  m_package m = pkg /\ m_name m = name /\ Forall2 (field_later msgs pkg) (m_fields m) (item_fields items) /\
  options_are (m_options m) (item_opts items).

Lemma Forall2_weaken {A B} (P Q : A -> B -> Prop) l1 l2 : Forall2 P l1 l2 -> (forall x y, P x y -> Q x y) -> Forall2 Q l1 l2.
Proof. intros H K. induction H; constructor; auto. Qed.

Lemma Forall2_in_r {A B} (P : A -> B -> Prop) l1 l2 y : Forall2 P l1 l2 -> In y l2 -> exists x, In x l1 /\ P x y.
Proof.
  induction 1 as [|x z l1 l2 H _ IH]; [contradiction|]. intros [->|I].
  - exists x. split; [now left|exact H].
  - destruct (IH I) as (x' & A1 & A2). exists x'. split; [now right|exact A2].
Qed.

Lemma raw_later msgs ds : messages_raw msgs ds -> forall r, Forall2 (message_later (msgs ++ r)) msgs ds.
Proof.
  induction 1 as [|msgs ds m [[p n] i] _ IH (A & B & C & D)]; intros r; [constructor|].
  rewrite <- app_assoc. apply Forall2_app; [apply IH|]. constructor; [|constructor]. repeat split; auto.
  eapply Forall2_weaken; [exact C|]. intros f s F. exists msgs, ([m] ++ r). auto.
Qed.

Section Resolve.
  Variable msgs : list message.
  Variable ds : list (bytes * bytes * list sitem).
  Hypothesis names : map qualified msgs = map dname ds.

  Definition declared (pkg : bytes) (s : sfield) : Prop :=
    forall w, sf_type s = SMessage w -> In (full_name pkg w) (map dname ds).

  Lemma resolve_fields_is pkg fs : forall ss, Forall2 (field_later msgs pkg) fs ss ->
    match resolve_fields msgs fs with
    | POk fs' => Forall2 (field_is ds pkg) fs' ss
    | PThrow m l c => exists s w, In s ss /\ sf_type s = SMessage w /\ ~ In (full_name pkg w) (map dname ds) /\
        m = b "Unable to find message '" ++ full_name pkg w ++ b "'" /\ l = 0 /\ c = 0
    | PRuntime => False
    | PFuel => False
    end.
  Proof.
    induction fs as [|f fs IH]; intros ss H; inversion H as [|? s ? ss' H1 H2]; subst; clear H; [constructor|].
    specialize (IH ss' H2). cbn [resolve_fields].
    assert (J : forall f', field_is ds pkg f' s ->
      match (let! r' := resolve_fields msgs fs in POk (f' :: r')) with
      | POk fs' => Forall2 (field_is ds pkg) fs' (s :: ss')
      | PThrow m l c => exists s0 w, In s0 (s :: ss') /\ sf_type s0 = SMessage w /\ ~ In (full_name pkg w) (map dname ds) /\
          m = b "Unable to find message '" ++ full_name pkg w ++ b "'" /\ l = 0 /\ c = 0
      | PRuntime => False
      | PFuel => False
      end).
    { intros f' D. destruct (resolve_fields msgs fs) as [fs'|m l c| |]; cbn [pbind]; try contradiction.
      - now constructor.
      - destruct IH as (s0 & w & A & B). exists s0, w. split; [now right|exact B]. }
    destruct H1 as (msgs0 & r & E & T & Q & R & O & Nm & Ix & Op). rewrite T.
    destruct (sf_type s) as [| | | | | | | | | | | | | | |w] eqn:Ts;
      try (cbn [scalar_type pbind]; apply J; unfold field_is; rewrite Ts; auto 10).
    cbn [scalar_type]. destruct Q as [Q1 Q2]. pose proof (find_named msgs ds (full_name pkg w) names) as Fn.
    destruct (f_ref f) as [k|] eqn:Fr.
    - cbn [pbind]. apply J. unfold field_is. rewrite Ts. symmetry in Q2. apply (find_message_app _ r) in Q2. rewrite <- E in Q2.
      rewrite Q2 in Fn. repeat split; auto. exists k. auto.
    - rewrite Q1. destruct (find_message msgs (full_name pkg w)) as [k|].
      + cbn [pbind]. apply J. unfold field_is. cbn. rewrite Ts. repeat split; auto. exists k. auto.
      + cbn [pbind]. exists s, w. split; [now left|]. auto.
  Qed.

  Lemma resolve_messages_is l : forall ds0, Forall2 (message_later msgs) l ds0 ->
    match resolve_messages msgs l with
    | POk l' => Forall2 (message_is ds) l' ds0
    | PThrow m ln c => exists pkg name items s w, In (pkg, name, items) ds0 /\ In s (item_fields items) /\ sf_type s = SMessage w /\
        ~ In (full_name pkg w) (map dname ds) /\
        m = b "Unable to find message '" ++ full_name pkg w ++ b "'" /\ ln = 0 /\ c = 0
    | PRuntime => False
    | PFuel => False
    end.
  Proof.
    induction l as [|x l IH]; intros ds0 H; inversion H as [|? d ? ds' H1 H2]; subst; clear H; [constructor|].
    specialize (IH ds' H2). cbn [resolve_messages]. destruct d as [[pkg name] items]. destruct H1 as (A & B & C & D).
    pose proof (resolve_fields_is pkg (m_fields x) (item_fields items) C) as R.
    destruct (resolve_fields msgs (m_fields x)) as [fs|m ln c| |]; cbn [pbind]; try contradiction.
    - destruct (resolve_messages msgs l) as [l'|m ln c| |]; cbn [pbind]; try contradiction.
      + constructor; [|exact IH]. cbn. auto.
      + destruct IH as (p & n & i & s & w & I1 & I2). exists p, n, i, s, w. split; [now right|exact I2].
    - destruct R as (s & w & R1 & R2). exists pkg, name, items, s, w. split; [now left|auto].
  Qed.
End Resolve.

(** ** Files that end after the tokens of a schema *)

(** What the lexer finds in [next] is the end of the file, or is taken for it. *)
Definition ends_file (l : list token) (e : tend) : Prop :=
  match l, e with
  | t :: _, _ => t_code t = KEof
  | [], TEnd _ _ => True
  | _, _ => False
  end.

Lemma next_ends B (k : token -> M lsrc B) l e cur : ends_file l e ->
  exists t s, t_code t = KEof /\ bind (p_next lsrc nxt_list) k (LS l e cur false) = k t (PS s t false).
Proof.
  destruct l as [|t l]; cbn.
  - destruct e as [ln c| |]; try contradiction. intros _. eexists _, _. split; [|reflexivity]. reflexivity.
  - intros H. exists t, (l, e). auto.
Qed.

Definition finish (msgs : list message) (os : omap) (file : bytes) : pres proto :=
  let! m := resolve_messages msgs msgs in POk (Proto m os file).

Lemma finish_is msgs os file decls : messages_raw msgs (messages_of [] decls) -> options_are os (decl_opts decls) ->
  match finish msgs os file with
  | POk p => proto_is p decls /\ pr_file p = file
  | PThrow m ln c => exists pkg name items s w, In (pkg, name, items) (messages_of [] decls) /\ In s (item_fields items) /\
      sf_type s = SMessage w /\ ~ In (full_name pkg w) (map dname (messages_of [] decls)) /\
      m = b "Unable to find message '" ++ full_name pkg w ++ b "'" /\ ln = 0 /\ c = 0
  | PRuntime => False
  | PFuel => False
  end.
Proof.
  intros R O. unfold finish. pose proof (raw_later _ _ R []) as L. rewrite app_nil_r in L.
  pose proof (resolve_messages_is msgs _ (raw_names _ _ R) msgs _ L) as F.
  destruct (resolve_messages msgs msgs) as [l'|m ln c| |]; cbn [pbind]; try contradiction.
  - split; [|reflexivity]. split; [exact F|exact O].
  - exact F.
Qed.

(** All the declarations, then possibly a message without its closing brace. *)
Inductive open_pieces (decls : list sdecl) : list piece -> list sdecl -> Prop :=
  | op_all : open_pieces decls (schema_pieces decls) decls
  | op_open name items : decl_ok (SDMessage name items) ->
      open_pieces decls (schema_pieces decls ++ message_head name items) (decls ++ [SDMessage name items]).

Lemma list_accepts decls ps decls' ts l e file F : open_pieces decls ps decls' -> Forall2 tok_of ps ts -> Forall decl_ok decls ->
  ends_file l e -> (length ts + 1 < F)%nat ->
  exists msgs os, parse_list F (ts ++ l) e file = finish msgs os file /\
    messages_raw msgs (messages_of [] decls') /\ options_are os (decl_opts decls').
Proof.
  intros P H O E L. unfold parse_list, parse_source. destruct P as [|name items Oi].
  - destruct (schema_run decls ts H O F F [] [] [] l e token0 [] []) as (n' & msgs & os & cur & R & W & A & L');
      [lia|lia|constructor|apply options_nil|].
    rewrite R. destruct n' as [|n']; [lia|]. cbn [parse_proto].
    match goal with |- context [bind (p_next lsrc nxt_list) ?k _] => destruct (next_ends _ k l e cur E) as (t & s & C & ->) end.
    rewrite C. exists msgs, os. cbn [ret]. auto.
  - apply Forall2_app_inv_l in H. destruct H as (ts1 & ts2 & H1 & H2 & ->). rewrite app_length in L. rewrite <- app_assoc.
    destruct (schema_run decls ts1 H1 O F F [] [] [] (ts2 ++ l) e token0 [] []) as (n' & msgs & os & cur & R & W & A & L');
      [lia|lia|constructor|apply options_nil|].
    rewrite R. destruct n' as [|n']; [lia|]. destruct Oi as (On & Oi & ND).
    unfold message_head in H2. cbn [app] in H2.
    inversion H2 as [|? t1 ? ? [C1 _] H3]; subst. inversion H3 as [|? t2 ? ? [C2 V2] H4]; subst.
    inversion H4 as [|? t3 ? ts3 [C3 V3] H5]; subst. clear H2 H3 H4. cbn [length] in L.
    set (pkg := package_after [] decls).
    destruct (body_run F items ts3 H5 Oi F [] msgs pkg [] [] l e t3) as (n2 & fs' & os' & cur' & E2 & B & L2);
      [lia|lia|exact ND|split; [constructor|apply options_nil]|]. cbn [app] in B.
    destruct n2 as [|n2]; [lia|].
    assert (X : exists t s, t_code t = KEof /\ parse_message lsrc nxt_list F pkg msgs (LS (t2 :: t3 :: ts3 ++ l) e t1 false) =
      POk (msgs ++ [Msg fs' name pkg os'], PS s t false)).
    { unfold parse_message. rewrite bind_next, C2, (code_member _ On), bind_next, C3.
      change (code_of (PcSym "{")) with KBegin. cbv iota. unfold bind at 1. rewrite E2. cbn [parse_body].
      match goal with |- context [bind (p_next lsrc nxt_list) ?k _] => destruct (next_ends _ k l e cur' E) as (t & s & C & ->) end.
      exists t, s. split; [exact C|]. rewrite C. unfold ret. rewrite V2. reflexivity. }
    destruct X as (t & s & C & X). exists (msgs ++ [Msg fs' name pkg os']), os. split; [|split].
    + cbn [parse_proto app]. rewrite bind_next, C1. change (code_of (PcWord (b "message"))) with KMessage. cbv iota.
      rewrite (bind_ok _ _ _ _ _ _ _ X). unfold bind at 1, p_more. rewrite bind_current. cbn [p_cur]. rewrite C. reflexivity.
    + rewrite messages_of_app. apply mr_snoc; [exact W|]. destruct B as [B1 B2]. cbn. auto.
    + unfold decl_opts in *. rewrite flat_map_app. cbn. rewrite app_nil_r. exact A.
Qed.

(** A text, and what follows it. *)
Lemma text_accepts stray decls ps decls' text next l e file : open_pieces decls ps decls' -> laid stray ps text next ->
  Forall decl_ok decls -> toks text next l e -> ends_file l e -> (length l <= length next)%nat ->
  exists msgs os, parse (text ++ next) file = finish msgs os file /\
    messages_raw msgs (messages_of [] decls') /\ options_are os (decl_opts decls').
Proof.
  intros P H O T E Ln. destruct (laid_toks _ _ _ _ H [] l e T) as (ts & T' & H2 & L).
  destruct (list_accepts decls ps decls' ts l e file (length (text ++ next) + 3) P H2 O E) as (msgs & os & R & W & A).
  { rewrite app_length. lia. }
  exists msgs, os. split; [|auto]. pose proof (finish_is _ _ file _ W A) as Fi.
  destruct (outcomes (text ++ next) file (ts ++ l) e T') as (D1 & D2 & D3).
  { rewrite !app_length. lia. }
  rewrite R in *. destruct D3 as [_ D3]; [destruct (finish msgs os file); [discriminate|discriminate|contradiction|discriminate]|].
  apply D3. lia.
Qed.

Lemma sep_end sp pre : sep true sp -> exists l e, toks pre sp l e /\ ends_file l e /\ (length l <= length sp)%nat.
Proof.
  intros S. eexists [], _. split; [|split; [|cbn; lia]]; [apply tk_end|exact I]. exists sp. auto.
Qed.

Lemma open_block_end sp body pre : sep true sp -> ~ occurs (b "*/") body ->
  exists l e, toks pre (sp ++ b "/*" ++ body) l e /\ ends_file l e /\ (length l <= length (sp ++ b "/*" ++ body))%nat.
Proof.
  intros S N. eexists [], _. split; [|split; [|cbn; lia]]; [apply tk_end|exact I]. exists sp. split; [exact S|].
  right; right. exists body. auto.
Qed.

Lemma open_slash_end sp pre : sep true sp ->
  exists l e, toks pre (sp ++ ["/"%char]) l e /\ ends_file l e /\ (length l <= length (sp ++ ["/"%char]))%nat.
Proof.
  intros S. eexists [], _. split; [|split; [|cbn; lia]]; [apply tk_end|exact I]. exists sp. auto.
Qed.

Lemma cut_string_end sp w c rest pre : sep true sp -> Forall str_char w -> c = LF \/ c = NUL ->
  exists l e, toks pre (sp ++ chr 34 :: w ++ c :: rest) l e /\ ends_file l e /\ (length l <= length (sp ++ chr 34 :: w ++ c :: rest))%nat.
Proof.
  intros S W C. destruct (toks_total rest (pre ++ sp ++ chr 34 :: w ++ [c])) as (l & e & T & L).
  assert (L2 : (length rest < length (sp ++ chr 34 :: w ++ c :: rest))%nat).
  { rewrite app_length. cbn [length]. rewrite app_length. cbn [length]. lia. }
  exists (token0 :: l), e. split; [|split; [reflexivity|cbn [length]; lia]].
  eapply tk_tok; [|exact L2|exact T]. eapply lex_cut; eauto.
Qed.

Lemma resolved_in decls : resolved (messages_of [] decls) ->
  forall pkg name items s w, In (pkg, name, items) (messages_of [] decls) -> In s (item_fields items) ->
  sf_type s = SMessage w -> In (full_name pkg w) (map dname (messages_of [] decls)).
Proof. intros R pkg name items s w A B C. destruct (R pkg name items s w A B C) as (k & K). eapply first_named_in, K. Qed.

Lemma rest_ends next pre : file_rest next -> exists l e, toks pre next l e /\ ends_file l e /\ (length l <= length next)%nat.
Proof.
  intros [S|sp -> S|sp body -> S N|sp w c rest -> S W C]; [now apply sep_end|now apply open_slash_end|now apply open_block_end|now apply cut_string_end].
Qed.

Lemma accepts stray decls ps decls' text next file : open_pieces decls ps decls' -> laid stray ps text next ->
  schema_ok decls' -> Forall decl_ok decls -> file_rest next ->
  exists p, parse (text ++ next) file = POk p /\ proto_is p decls' /\ pr_file p = file.
Proof.
  intros P H [O R] O' N. destruct (rest_ends next text N) as (l & e & T & E & L).
  destruct (text_accepts stray decls ps decls' text next l e file P H O' T E L) as (msgs & os & Q & W & A).
  pose proof (finish_is _ _ file _ W A) as Fi. rewrite Q. destruct (finish msgs os file) as [p|m ln c| |]; try contradiction.
  - exists p. auto.
  - destruct Fi as (pkg & name & items & s & w & F1 & F2 & F3 & F4 & _). elim F4. eapply resolved_in; eauto.
Qed.

Lemma rejects_unresolved stray decls text next file : laid stray (schema_pieces decls) text next ->
  Forall decl_ok decls -> file_rest next -> ~ resolved (messages_of [] decls) ->
  exists pkg name items s w, In (pkg, name, items) (messages_of [] decls) /\ In s (item_fields items) /\
    sf_type s = SMessage w /\ (forall k, ~ first_named (messages_of [] decls) (full_name pkg w) k) /\
    parse (text ++ next) file = PThrow (b "Unable to find message '" ++ full_name pkg w ++ b "'") 0 0.
Proof.
  intros H O N NR. destruct (rest_ends next text N) as (l & e & T & E & L).
  destruct (text_accepts stray decls _ decls text next l e file (op_all decls) H O T E L) as (msgs & os & Q & W & A).
  pose proof (finish_is _ _ file _ W A) as Fi. rewrite Q. destruct (finish msgs os file) as [p|m ln c| |]; try contradiction.
  - elim NR. destruct Fi as [[Fi _] _]. intros pkg name items s w I1 I2 I3.
    destruct (Forall2_in_r _ _ _ _ Fi I1) as (m & _ & _ & _ & K & _).
    destruct (Forall2_in_r _ _ _ _ K I2) as (f & _ & _ & M & _). rewrite I3 in M.
    destruct M as (_ & k & _ & M). now exists k.
  - destruct Fi as (pkg & name & items & s & w & F1 & F2 & F3 & F4 & -> & -> & ->).
    exists pkg, name, items, s, w. repeat split; auto. intros k K. apply F4. eapply first_named_in, K.
Qed.

(** ** Endless loops *)
Lemma list_loops decls ts file F : Forall2 tok_of (schema_pieces decls) ts -> Forall decl_ok decls ->
  (length ts + 1 < F)%nat -> parse_list F (ts ++ []) TLoop file = PRuntime.
Proof.
  intros H O L. unfold parse_list, parse_source.
  destruct (schema_run decls ts H O F F [] [] [] [] TLoop token0 [] []) as (n' & msgs & os & cur & R & W & A & L');
    [lia|lia|constructor|apply options_nil|].
  rewrite R. destruct n' as [|n']; [lia|]. reflexivity.
Qed.

Lemma text_loops stray decls text next file : laid stray (schema_pieces decls) text next ->
  Forall decl_ok decls -> endless next -> forall F, parse_with F (text ++ next) file = PFuel.
Proof.
  intros H O N.
  assert (T : toks text next [] TLoop).
  { apply tk_loop. destruct N as [sp body -> S K|sp w -> S K]; [now apply (lex_line _ _ sp body)|now apply (lex_string _ _ sp w)]. }
  destruct (laid_toks _ _ _ _ H [] [] TLoop T) as (ts & T' & H2 & L).
  destruct (outcomes (text ++ next) file (ts ++ []) TLoop T') as (D1 & D2 & D3).
  { rewrite !app_length. cbn. lia. }
  apply D2. apply list_loops with (decls := decls); [exact H2|exact O|]. rewrite app_length. lia.
Qed.

(** ** C28, C29 *)
Lemma accepted_numbers text file p m : parse text file = POk p -> In m (pr_messages p) ->
  NoDup (map f_index (m_fields m)) /\ forall f, In f (m_fields m) ->
    0 < f_index f < 2 ^ 29 - 1 /\ f_index f <> 19000 /\ f_index f <> 19999.
Proof.
  intros E I. pose proof (parse_no_runtime (length text + 3) text file) as W. fold (parse text file) in W. rewrite E in W.
  destruct W as [[W _] _]. rewrite Forall_forall in W. destruct (W m I) as [(A & B & _) _]. split; [exact B|].
  intros f J. rewrite Forall_forall in A. destruct (A f J) as (_ & _ & _ & N & _). exact N.
Qed.

Lemma accepted_refs text file p m f : parse text file = POk p -> In m (pr_messages p) -> In f (m_fields m) ->
  (f_type f = FMessage ->
    (exists w, dotted w /\ f_qname f = full_name (m_package m) w) /\
    exists k m', f_ref f = Some k /\ nth_error (pr_messages p) k = Some m' /\ full_name (m_package m') (m_name m') = f_qname f) /\
  (f_type f <> FMessage -> f_ref f = None).
Proof.
  intros E I J. pose proof (parse_no_runtime (length text + 3) text file) as W. fold (parse text file) in W. rewrite E in W.
  destruct W as [[W _] _]. rewrite Forall_forall in W. destruct (W m I) as [_ A]. rewrite Forall_forall in A.
  destruct (A f J) as [(T & R & _) D]. split.
  - intros Ft. split.
    + destruct T as [(_ & w & [T1 _] & T2)|(T & _)]; [|contradiction]. exists w. auto.
    + destruct R as [R|(_ & k & R1 & R2)]; [now elim (D Ft)|]. exists k.
      assert (K : exists m', nth_error (pr_messages p) k = Some m' /\ qualified m' = f_qname f).
      { clear - R2. revert k R2. generalize (pr_messages p). intros l. induction l as [|x l IH]; intros k R2; [discriminate|].
        cbn in R2. destruct (bytes_eqb (qualified x) (f_qname f)) eqn:B.
        - injection R2 as <-. exists x. split; [reflexivity|now apply bytes_eqb_true].
        - destruct (find_message l (f_qname f)) as [j|]; [|discriminate]. injection R2 as <-. exact (IH j eq_refl). }
      destruct K as (m' & K1 & K2). exists m'. rewrite <- qualified_full. auto.
  - intros Ft. destruct T as [(T & _)|(_ & _ & T)]; [contradiction|exact T].
Qed.

(** ** C30, C43 *)
Lemma recovers stray decls text next file : laid stray (schema_pieces decls) text next -> schema_ok decls -> sep stray next ->
  exists p, parse (text ++ next) file = POk p /\ proto_is p decls /\ pr_file p = file.
Proof.
  intros L O S. apply (accepts stray decls _ decls text next file (op_all _) L O (proj1 O)). apply fr_sep. eapply sep_any, S.
Qed.

Lemma schema_ok_app l1 l2 : schema_ok (l1 ++ l2) -> Forall decl_ok l1 /\ Forall decl_ok l2.
Proof. intros [A _]. now apply Forall_app in A. Qed.

Lemma open_accepts stray decls name items text next file : laid stray (schema_pieces decls ++ message_head name items) text next ->
  schema_ok (decls ++ [SDMessage name items]) -> file_rest next ->
  exists p, parse (text ++ next) file = POk p /\ proto_is p (decls ++ [SDMessage name items]).
Proof.
  intros L O R. destruct (schema_ok_app _ _ O) as [O1 O2]. inversion O2 as [|? ? O3 _]; subst.
  destruct (accepts stray decls _ _ text next file (op_open decls name items O3) L O O1 R) as (p & A & B & _). exists p. auto.
Qed.

Lemma open_message stray decls name items text next file : laid stray (schema_pieces decls ++ message_head name items) text next ->
  schema_ok (decls ++ [SDMessage name items]) -> sep stray next ->
  exists p, parse (text ++ next) file = POk p /\ proto_is p (decls ++ [SDMessage name items]).
Proof. intros L O S. eapply open_accepts; eauto. apply fr_sep. eapply sep_any, S. Qed.

Lemma open_comment stray decls text sp body file : laid stray (schema_pieces decls) text (sp ++ b "/*" ++ body) -> schema_ok decls ->
  sep stray sp -> ~ occurs (b "*/") body -> exists p, parse (text ++ sp ++ b "/*" ++ body) file = POk p /\ proto_is p decls.
Proof.
  intros L O S N. destruct (accepts stray decls _ _ text _ file (op_all _) L O (proj1 O)) as (p & A & B & _).
  - eapply fr_block; [reflexivity|eapply sep_any, S|exact N].
  - exists p. auto.
Qed.

Lemma cut_string stray decls text sp w c rest file : laid stray (schema_pieces decls) text (sp ++ chr 34 :: w ++ c :: rest) ->
  schema_ok decls -> sep stray sp -> Forall lit_char w -> c = LF \/ c = NUL ->
  exists p, parse (text ++ sp ++ chr 34 :: w ++ c :: rest) file = POk p /\ proto_is p decls.
Proof.
  intros L O S W C. destruct (accepts stray decls _ _ text _ file (op_all _) L O (proj1 O)) as (p & A & B & _).
  - eapply fr_string; [reflexivity|eapply sep_any, S|exact W|exact C].
  - exists p. auto.
Qed.

Lemma cut_string_in_message stray decls name items text sp w c rest file :
  laid stray (schema_pieces decls ++ message_head name items) text (sp ++ chr 34 :: w ++ c :: rest) ->
  schema_ok (decls ++ [SDMessage name items]) -> sep stray sp -> Forall lit_char w -> c = LF \/ c = NUL ->
  exists p, parse (text ++ sp ++ chr 34 :: w ++ c :: rest) file = POk p /\ proto_is p (decls ++ [SDMessage name items]).
Proof.
  intros L O S W C. eapply open_accepts; eauto. eapply fr_string; [reflexivity|eapply sep_any, S|exact W|exact C].
Qed.

Lemma Forall2_common {A B} (P : A -> B -> Prop) (Q : B -> B -> Prop) l l1 l2 : Forall2 P l l1 -> Forall2 P l l2 ->
  (forall x y z, P x y -> P x z -> Q y z) -> Forall2 Q l1 l2.
Proof.
  intros H. revert l2. induction H as [|x y l l1 X _ IH]; intros l2 H2 K; inversion H2; subst; constructor; eauto.
Qed.

Lemma same_options_of m l l' : options_are m l -> options_are m l' -> same_options l l'.
Proof.
  intros A B n. specialize (A n). specialize (B n).
  destruct (last_value l n) as [v|], (last_value l' n) as [v'|], (o_find n m) as [e|]; try contradiction; auto.
  f_equal. destruct A as (_ & A1 & A2), B as (_ & B1 & B2). rewrite A1 in B1. rewrite A2 in B2.
  destruct v as [[]|w|ds|s], v' as [[]|w'|ds'|s']; try discriminate B1; cbn in B2; try discriminate B2; congruence.
Qed.

Lemma full_name_inj pkg w w' : full_name pkg w = full_name pkg w' -> w = w'.
Proof.
  unfold full_name. destruct pkg as [|c r]; [auto|]. intros H. apply app_inv_head in H. now injection H.
Qed.

Lemma scalar_type_inj pkg (t t' : stype) : scalar_type t = scalar_type t' ->
  (forall w w', t = SMessage w -> t' = SMessage w' -> full_name pkg w = full_name pkg w') -> t = t'.
Proof.
  intros H K. destruct t, t'; try discriminate H; try reflexivity. f_equal. eapply full_name_inj, K; reflexivity.
Qed.

Lemma recovers_exactly p decls decls' : proto_is p decls -> proto_is p decls' ->
  Forall2 (fun d d' => let '(pkg, name, items) := d in let '(pkg', name', items') := d' in
    pkg = pkg' /\ name = name' /\
    Forall2 (fun s s' => sf_mod s = sf_mod s' /\ sf_type s = sf_type s' /\ sf_name s = sf_name s' /\
                         sf_number s = sf_number s' /\ same_options (sf_opts s) (sf_opts s'))
      (item_fields items) (item_fields items') /\
    same_options (item_opts items) (item_opts items'))
    (messages_of [] decls) (messages_of [] decls') /\
  same_options (decl_opts decls) (decl_opts decls').
Proof.
  intros [A1 A2] [B1 B2]. split; [|eapply same_options_of; eassumption].
  revert A1 B1. generalize (messages_of [] decls) at 1. intros all1. generalize (messages_of [] decls') at 1. intros all2.
  intros A B.
  assert (J : forall m d d', message_is all1 m d -> message_is all2 m d' ->
    let '(pkg, name, items) := d in let '(pkg', name', items') := d' in
    pkg = pkg' /\ name = name' /\
    Forall2 (fun s s' => sf_mod s = sf_mod s' /\ sf_type s = sf_type s' /\ sf_name s = sf_name s' /\
                         sf_number s = sf_number s' /\ same_options (sf_opts s) (sf_opts s'))
      (item_fields items) (item_fields items') /\
    same_options (item_opts items) (item_opts items')).
  { intros m [[pkg name] items] [[pkg' name'] items'] (M1 & M2 & M3 & M4) (N1 & N2 & N3 & N4).
    split; [congruence|]. split; [congruence|]. split; [|eapply same_options_of; eassumption].
    assert (EP : pkg' = pkg) by congruence. subst pkg'. clear M4 N4.
    revert M3 N3. generalize (m_fields m). generalize (item_fields items). generalize (item_fields items').
    intros l' l fs H. revert l'. induction H as [|f s fs l F _ IH]; intros l' H'; inversion H' as [|? s' ? l2 F' H2]; subst; constructor; auto.
    destruct F as (F1 & F2 & F3 & F4 & F5 & F6 & F7), F' as (G1 & G2 & G3 & G4 & G5 & G6 & G7).
    split; [|split; [|split; [congruence|split; [congruence|eapply same_options_of; eassumption]]]].
    - rewrite F3 in G3. rewrite F4 in G4. destruct (sf_mod s), (sf_mod s'); try discriminate; reflexivity.
    - apply (scalar_type_inj (m_package m)); [congruence|]. intros w w' E E'. rewrite E in F2. rewrite E' in G2.
      destruct F2 as [F2 _], G2 as [G2 _]. congruence. }
  revert A B. generalize (messages_of [] decls) as l1. generalize (messages_of [] decls') as l2. intros l2 l1 A. revert l2.
  induction A as [|m d ms l1 M _ IH]; intros l2 B; inversion B as [|? d' ? l2' M' B']; subst; constructor; auto.
  apply (J m); assumption.
Qed.
