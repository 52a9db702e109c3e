(** Proofs about reading from a [std::istream]. *)
From Verif Require Import Bytes BaseProofs Num Dbl Types Stream Tokenizer Write Read GenRead GenProofs StdIn
  SpecJson SpecErr SpecPos SpecInterp SpecTok SpecTakes SpecFollow LexView LexMono FuelMono LexJson Termination RelProofs ReadSim
  ApiProofs ErrProofs PosProofs TokRead TokRun TokComplete TokLex TokSim AcceptProofs SpecWrite WriteProofs Samples SampleProofs.
Local Open Scope nat_scope.

(** ** The stream behind the iterator *)
Section Std.
  Context (T0 : bytes).
  (** [T0] is what the stream has when the iterator is at the end. *)
  Definition RI (i : option ascii * std_in) (r : bytes) : Prop :=
    match r with
    | [] => i = (None, SIn T0 true false)
    | c :: r' => T0 = [] /\ i = (Some c, SIn r' false false)
    end.
  Definition last_it : option ascii * std_in := (None, SIn [] true false).

  Lemma RI_nil i : RI i [] -> it_eq si_iops i last_it = true.
  Proof. intros ->. reflexivity. Qed.

  Lemma RI_cons i c r : RI i (c :: r) ->
    it_eq si_iops i last_it = false /\ it_deref si_iops i = Some c /\ exists i', it_incr si_iops i = Some i' /\ RI i' r.
  Proof.
    intros [E ->]. split; [reflexivity|]. split; [reflexivity|]. eexists. split; [reflexivity|].
    unfold si_extract. cbn [snd si_failed si_skipws si_text]. destruct r as [|c' r]; cbn [RI]; [now rewrite E|auto].
  Qed.

  Lemma std_run pc fuel n ty0 v first inp e t r v' t' : plain pc -> RI first inp -> length inp < fuel ->
    tk_make n (mk_istream inp) e = Some t -> read n ty0 t v = Some (r, v', t') ->
    exists i g g', ii_make si_iops fuel first last_it = Some i /\ g_make (ii_ops pc si_iops fuel) n i e = Some g /\
      g_read pc (ii_ops pc si_iops fuel) n ty0 g v = Some (r, v', g') /\ gk_err g' = tk_err t' /\
      RI (ii_beg (gk_in g')) (is_rest (tk_in t')).
  Proof.
    intros Hpc H L M A. unfold ii_make.
    destruct (sim_skip si_iops last_it RI RI_nil RI_cons fuel fuel inp first 1%Z 1%Z H L (le_n _)) as (x & -> & B).
    assert (Hpeek : forall x s, RS last_it RI fuel x s -> exists z, so_peek (ii_ops pc si_iops fuel) x = Some z /\ alike z (is_peek s)).
    { clear - Hpc. intros x s (H & E & _ & _ & L). cbn [so_peek ii_ops]. unfold ii_peek, is_peek. rewrite E.
      destruct (is_rest s) as [|c r]; [rewrite (RI_nil _ H); eexists; split; [reflexivity|now left]|].
      destruct (RI_cons _ _ _ H) as (-> & -> & _). eexists. split; [reflexivity|now apply alike_plain]. }
    assert (Heof : forall x s, RS last_it RI fuel x s -> so_eof (ii_ops pc si_iops fuel) x = Some (is_eof s)).
    { clear. intros x s (H & E & _ & _ & L). cbn [so_eof ii_ops]. unfold ii_eof, is_eof. rewrite E.
      destruct (is_rest s) as [|c r]; [now rewrite (RI_nil _ H)|].
      destruct (RI_cons _ _ _ H) as (-> & _ & _). reflexivity. }
    assert (Hnext : forall x s, RS last_it RI fuel x s -> exists x', so_next (ii_ops pc si_iops fuel) x = Some x' /\ RS last_it RI fuel x' (is_next s)).
    { clear. intros x s (H & E & E1 & E2 & L). cbn [so_next ii_ops]. unfold ii_next, is_next. rewrite E, E1, E2.
      destruct (is_rest s) as [|c r] eqn:Q.
      + rewrite (RI_nil _ H). eexists. split; [reflexivity|].
        split; [|split; [|split; [|split]]]; rewrite ?Q; auto.
      + destruct (RI_cons _ _ _ H) as (-> & _ & i' & -> & H').
        apply (sim_skip si_iops last_it RI RI_nil RI_cons); simpl in L; auto; lia. }
    assert (Hline : forall x s, RS last_it RI fuel x s -> so_line (ii_ops pc si_iops fuel) x = is_line s).
    { clear. intros x s (_ & _ & A & _). exact A. }
    assert (Hcol : forall x s, RS last_it RI fuel x s -> so_col (ii_ops pc si_iops fuel) x = is_col s).
    { clear. intros x s (_ & _ & _ & A & _). exact A. }
    fold (mk_istream inp) in B. unfold tk_make in M. unfold g_make.
    assert (H0 : RT (RS last_it RI fuel) (GTK (Tok T_NONE [] 0 0) x e) (TK (Tok T_NONE [] 0 0) (mk_istream inp) e)) by (split; [|split]; auto).
    destruct (GenProofs.sim_next _ _ Hpeek Heof Hnext Hline Hcol n _ _ _ H0 M) as (g & Eg & Hg).
    destruct (GenProofs.sim_read pc Hpc _ _ Hpeek Heof Hnext Hline Hcol n ty0 _ _ _ _ _ _ Hg A) as (g1 & E1 & H1).
    exists x, g, g1. split; [reflexivity|]. split; [exact Eg|]. split; [exact E1|].
    destruct H1 as (_ & E & K). split; [exact E|]. apply K.
  Qed.
End Std.

(** ** Where the reader stops *)
Lemma drop_nolf l : drop_lf l = nolf l.
Proof. apply drop_lf_nolf. Qed.

Section Stop.
  Context (inp : bytes).

  (** The token that was read last, and the stream behind it. *)
  Definition halt (t : tokenizer) : Prop :=
    exists pre post m dn, inp = pre ++ post /\ tokens pre post dn /\ at_token post /\ wf_is (tk_in t) /\
      post = m ++ is_rest (tk_in t) /\
      ((tk_id t = T_NONE /\ lex (nolf post) = None) \/ (tk_id t = T_EOS /\ post = []) \/
       exists k, tk_id t = tid k /\ tok_text k (nolf m) (nolf (is_rest (tk_in t)))).

  Lemma at_token_nows post : at_token post -> match nolf post with c :: _ => is_ws_c c = false | [] => True end /\ (nolf post = [] -> post = []).
  Proof.
    unfold at_token. destruct post as [|c r]; [auto|]. intros T.
    assert (c <> LF). { intros ->. discriminate T. }
    simpl. unfold not_lf. destruct (Ascii.eqb_spec c LF); [contradiction|]. simpl. split; [|discriminate].
    revert T. unfold ws_char, is_ws_c, is_ws_z. num_z. lia.
  Qed.

  Lemma next_halt n t t1 pre dn : inp = pre ++ is_rest (tk_in t) -> tokens pre (is_rest (tk_in t)) dn -> wf_is (tk_in t) ->
    tk_next n t = Some t1 -> halt t1.
  Proof.
    intros E B W A. destruct (tk_next_any _ _ _ W A) as [P _].
    unfold tk_next in A. destruct (next_loop n (tk_in t)) as [[tok s']|] eqn:N; [|discriminate A].
    injection A as <-. apply next_loop_reach in N as (s1 & w & m & [R1 _] & Hw & W1 & T & [R2 _] & _); [|exact W].
    destruct P as [W' P]. unfold tk_id in P. cbn [tk_in tk_cur] in W', P.
    assert (V : vw (tk_in t) = nolf (w ++ is_rest s1)) by (unfold vw; now rewrite R1).
    rewrite V, lex_ws in P by exact Hw. destruct (at_token_nows _ T) as [NW NE].
    exists (pre ++ w), (is_rest s1), m, dn. unfold tk_id. cbn [tk_in tk_cur].
    split; [rewrite E, R1; apply app_assoc|]. split; [apply tokens_ws; [now rewrite <- R1|exact Hw]|].
    split; [exact T|]. split; [exact W'|]. split; [exact R2|].
    destruct (lex (nolf (is_rest s1))) as [[[id v] r]|] eqn:LX; [|left; auto]. right.
    destruct P as (-> & _ & P). pose proof LX as LX0.
    apply lex_tok in LX; [|exact NW|apply nolf_not_in].
    destruct LX as [X|(k & u & X & TT & TI & TV)].
    - left. split; [|auto]. rewrite X in LX0. cbn [lex] in LX0. congruence.
    - right. exists k. split; [auto|]. unfold vw in P. rewrite R2, nolf_app, P in X.
      apply app_inv_tail in X. rewrite P, X. exact TT.
  Qed.

  Lemma read_halt n ty0 t v r v' t' : halt t -> read n ty0 t v = Some (r, v', t') -> halt t'.
  Proof.
    intros H A. eapply (read_inv halt); [..|exact H|exact A]; clear.
    - intros n t t1 (pre & post & m & dn & E & B & T & W & M & Q) NN A.
      destruct Q as [[Q _]|[[Q Em]|(k & Q & TT)]]; [congruence| |].
      + rewrite Em in M, E, B. symmetry in M. apply app_eq_nil in M as [_ M].
        apply (next_halt n t t1 pre dn); rewrite ?M; auto.
      + apply (next_halt n t t1 (pre ++ m) (dn ++ [k])); auto; [rewrite E, M; apply app_assoc|].
        apply ts_tok; [now rewrite <- M|]. now rewrite !drop_nolf.
    - intros c msg t H. unfold tk_error. destruct (e_code (tk_err t)); exact H.
  Qed.
End Stop.

(** ** The end of a token sequence *)
Fixpoint run_lex (l : list jtok) (x : bytes) : option bytes :=
  match l with
  | [] => Some x
  | _ :: l' => match lex x with Some (_, _, r) => run_lex l' r | None => None end
  end.

Lemma run_lex_snoc l k : forall x, run_lex (l ++ [k]) x =
  match run_lex l x with Some y => match lex y with Some (_, _, r) => Some r | None => None end | None => None end.
Proof.
  induction l as [|a l IH]; intros x; cbn [app run_lex].
  - destruct (lex x) as [[[]]|]; reflexivity.
  - destruct (lex x) as [[[]]|]; [apply IH|reflexivity].
Qed.

Lemma tokens_run pre post l : tokens pre post l -> exists w, ws w /\ run_lex l (nolf (pre ++ post)) = Some (nolf (w ++ post)).
Proof.
  induction 1 as [x|pre c x l H IH W|pre u x l k H IH T].
  - exists []. split; reflexivity.
  - destruct IH as (w & Ww & R). exists (w ++ [c]). split.
    + apply ws_app; [exact Ww|]. unfold ws. simpl. now rewrite W.
    + rewrite <- !app_assoc. exact R.
  - destruct IH as (w & Ww & R). exists []. split; [reflexivity|].
    rewrite <- app_assoc, run_lex_snoc, R, lex_ws by exact Ww.
    rewrite !drop_nolf in T. rewrite nolf_app, (tok_lex _ _ _ T). reflexivity.
Qed.

Lemma ws_nolf d : ws (nolf d) -> ws d.
Proof.
  unfold ws. induction d as [|c d IH]; [auto|]. simpl. unfold not_lf. destruct (Ascii.eqb_spec c LF) as [->|N]; simpl.
  - auto.
  - intros H. apply andb_prop in H as [-> H]. auto.
Qed.
Lemma nolf_ws d : ws d -> ws (nolf d).
Proof.
  unfold ws. induction d as [|c d IH]; [auto|]. simpl. intros H. apply andb_prop in H as [A B].
  destruct (not_lf c); simpl; rewrite ?A; auto.
Qed.

Lemma split_two {A} (p1 p2 x1 x2 : list A) : p1 ++ x1 = p2 ++ x2 ->
  (exists d, p2 = p1 ++ d /\ x1 = d ++ x2) \/ (exists d, p1 = p2 ++ d /\ x2 = d ++ x1).
Proof.
  revert p2. induction p1 as [|a p1 IH]; intros p2 E.
  - left. exists p2. auto.
  - destruct p2 as [|c p2].
    + right. exists (a :: p1). auto.
    + injection E as <- E. destruct (IH _ E) as [(d & -> & ->)|(d & -> & ->)]; [left|right]; exists d; auto.
Qed.

(** The same tokens end at the same place, but for white space. *)
Lemma same_end p d x l : tokens p (d ++ x) l -> tokens (p ++ d) x l -> ws d.
Proof.
  intros A B. apply tokens_run in A as (w1 & W1 & A), B as (w2 & W2 & B). rewrite <- app_assoc, A in B.
  injection B as B. rewrite !nolf_app, app_assoc in B. apply app_inv_tail in B.
  apply ws_nolf. apply nolf_ws in W2. rewrite <- B in W2. unfold ws in *. rewrite forallb_app in W2. now apply andb_prop in W2.
Qed.

Lemma at_token_ws d x : ws d -> at_token (d ++ x) -> d = [].
Proof.
  destruct d as [|c d]; [auto|]. unfold ws, at_token. simpl. intros W T. apply andb_prop in W as [W _]. congruence.
Qed.

Lemma halt_follows inp t pre post toks l : halt inp t -> all_toks (nolf inp) (toks ++ l) -> cur inp (toks ++ l) t l ->
  inp = pre ++ post -> tokens pre post toks ->
  follows post (match is_rest (tk_in t) with [] => None | _ :: r => Some r end).
Proof.
  intros (p2 & x2 & m & dn & E & B & T & W & M & Q) HL C E1 B1.
  assert (D : dn = toks).
  { destruct (all_toks_exist (nolf x2) (nolf_not_in _)) as [rest AR].
    pose proof (tokens_all _ _ _ B _ AR) as F. rewrite <- E in F. pose proof (all_toks_fun _ _ HL _ F) as G.
    destruct C as [_ C]. destruct Q as [[Q LX]|[[Q ->]|(k & Q & TT)]].
    - destruct l as [|k' l]; [|destruct C as [C _]; rewrite Q in C; destruct k'; discriminate C].
      inversion AR as [x S|x k r l0 LX' AR']; subst; [now rewrite !app_nil_r in G|congruence].
    - destruct l as [|k' l]; [|destruct C as [C _]; rewrite Q in C; destruct k'; discriminate C].
      inversion AR as [x S|x k r l0 LX' AR']; subst; [now rewrite !app_nil_r in G|destruct k; discriminate LX'].
    - destruct l as [|k' l]; [rewrite Q in C; destruct C as [C|C]; destruct k; discriminate C|].
      destruct C as (_ & _ & _ & _ & d3 & p3 & D3 & E3 & _ & B3).
      destruct (all_toks_exist (nolf (is_rest (tk_in t))) (nolf_not_in _)) as [r3 AR3].
      pose proof (tokens_all _ _ _ B3 _ AR3) as F3. rewrite <- E3 in F3.
      pose proof (all_toks_fun _ _ HL _ F3) as G3. rewrite <- D3 in G3. apply app_inv_head in G3. subst r3.
      assert (AK : all_toks (nolf x2) (k :: l)).
      { rewrite M, nolf_app. econstructor; [apply tok_lex; exact TT|exact AR3]. }
      pose proof (all_toks_fun _ _ AR _ AK) as ->.
      change (k' :: l) with ([k'] ++ l) in G. change (k :: l) with ([k] ++ l) in G.
      rewrite !app_assoc in G. apply app_inv_tail in G. now apply app_inj_tail in G as [-> _]. }
  subst dn.
  assert (exists w, ws w /\ post = w ++ x2) as (w & Ww & ->).
  { rewrite E1 in E. destruct (split_two _ _ _ _ E) as [(d & -> & ->)|(d & -> & ->)].
    - exists d. split; [eapply same_end; eauto|reflexivity].
    - assert (ws d) by (eapply same_end; eauto). apply at_token_ws in T; [|assumption]. subst d. exists []. split; reflexivity. }
  assert (NL : no_lf_first (is_rest (tk_in t))) by exact W.
  destruct Q as [[Q LX]|[[Q ->]|(k & Q & TT)]].
  - rewrite M. apply fo_other; [exact Ww| |exact NL]. rewrite <- M. split.
    + revert T. unfold at_token. destruct x2; [discriminate LX|auto].
    + intros k u y -> TT. rewrite !drop_nolf in TT. rewrite nolf_app, (tok_lex _ _ _ TT) in LX. discriminate LX.
  - rewrite app_nil_r. symmetry in M. apply app_eq_nil in M as [_ ->]. now apply fo_end.
  - rewrite M. eapply fo_token; [exact Ww| |exact NL]. rewrite !drop_nolf. exact TT.
Qed.

(** ** The call *)
Lemma std_run_any ty0 v s po : exists n t t' r v',
  tk_make n (mk_istream (had s)) (p_err (ctx_params po)) = Some t /\ read n ty0 t v = Some (r, v', t') /\
  let po' := match r with PGR_OK => clear_params po | _ => params_set_err (clear_params po) (tk_err t') end in
  let ok := match r with PGR_OK => true | _ => false end in
  deserialize ty0 v (had s) po = Some (ok, v', po') /\
  forall pc, plain pc -> deserialize_std pc (S (length (si_text s))) (fuel_for (si_text s)) ty0 v s po = Some (ok, v', po', left_in s (match is_rest (tk_in t') with [] => None | _ :: r => Some r end)).
Proof.
  set (n := fuel_for (si_text s)).
  assert (A : exists ok v' po', deserialize_fuel n ty0 v (mk_istream (had s)) po = Some (ok, v', po') /\
                               deserialize ty0 v (had s) po = Some (ok, v', po')).
  { destruct (deserialize_total ty0 v (had s) po) as (ok & v' & po' & A). exists ok, v', po'. split; [|exact A].
    destruct (deserialize_fuel_total n ty0 v (had s) po) as (ok2 & v2 & po2 & A2).
    { unfold n, fuel_for, had. destruct (si_failed s); simpl; lia. }
    unfold deserialize in A. rewrite A2. f_equal. exact (deserialize_fuel_indep _ _ _ _ _ _ _ _ A2 A). }
  destruct A as (ok & v' & po' & A & D). unfold deserialize_fuel in A.
  destruct (tk_make n (mk_istream (had s)) (p_err (ctx_params po))) as [t|] eqn:M; [|discriminate A].
  destruct (read n ty0 t v) as [[[r x] t']|] eqn:R; [|discriminate A].
  exists n, t, t', r, x. split; [exact M|]. split; [exact R|].
  destruct s as [text failed skip]. unfold had in *. cbn [si_failed si_text si_skipws] in *.
  set (T0 := if failed then text else []).
  assert (RF : RI T0 (si_extract (SIn text failed false)) (if failed then [] else text)).
  { unfold si_extract, T0. cbn [si_failed si_skipws si_text]. destruct failed; [reflexivity|]. destruct text; [reflexivity|]. split; reflexivity. }
  assert (LF0 : length (if failed then [] else text) < S (length text)) by (destruct failed; simpl; lia).
  cbv zeta. split.
  { rewrite D. destruct r; injection A as <- <- <-; reflexivity. }
  intros pc Hpc. destruct (std_run T0 pc (S (length text)) n ty0 v _ _ _ _ _ _ _ Hpc RF LF0 M R) as (i & g & g' & E1 & E2 & E3 & E4 & E5).
  unfold deserialize_std. cbv zeta. unfold si_set_skipws at 1. cbn [si_text si_skipws si_failed]. fold n. fold last_it.
  rewrite E1, E2, E3, E4.
  assert (F : (if skip then si_set_skipws true (snd (ii_beg (gk_in g'))) else snd (ii_beg (gk_in g'))) =
              left_in (SIn text failed skip) (match is_rest (tk_in t') with [] => None | _ :: r => Some r end)).
  { unfold RI in E5. destruct (is_rest (tk_in t')) as [|c rr].
    - rewrite E5. destruct skip; reflexivity.
    - destruct E5 as [_ ->]. destruct skip; reflexivity. }
  rewrite F. destruct r; reflexivity.
Qed.

Lemma read_std_run ty0 v s po : exists n t t' r v',
  tk_make n (mk_istream (had s)) (p_err (ctx_params po)) = Some t /\ read n ty0 t v = Some (r, v', t') /\
  let po' := match r with PGR_OK => clear_params po | _ => params_set_err (clear_params po) (tk_err t') end in
  let ok := match r with PGR_OK => true | _ => false end in
  deserialize ty0 v (had s) po = Some (ok, v', po') /\
  read_std ty0 v s po = Some (ok, v', po', left_in s (match is_rest (tk_in t') with [] => None | _ :: r => Some r end)).
Proof.
  destruct (std_run_any ty0 v s po) as (n & t & t' & r & v' & M & R & D & A). exists n, t, t', r, v'.
  split; [exact M|]. split; [exact R|]. split; [exact D|]. apply A. now left.
Qed.

Lemma std_plain pc ty0 v s po : plain pc -> deserialize_std pc (S (length (si_text s))) (fuel_for (si_text s)) ty0 v s po = read_std ty0 v s po.
Proof.
  intros P. destruct (std_run_any ty0 v s po) as (n & t & t' & r & v' & _ & _ & _ & A). unfold read_std. rewrite (A pc P), (A schar (or_introl eq_refl)). reflexivity.
Qed.

Lemma std_value ty0 v s po : exists r v' po' s',
  deserialize ty0 v (had s) po = Some (r, v', po') /\ read_std ty0 v s po = Some (r, v', po', s').
Proof. destruct (read_std_run ty0 v s po) as (n & t & t' & r & v' & _ & _ & A & B). eauto 10. Qed.

Lemma std_left ty0 v s po pre post toks v' : has_ty ty0 v = true -> lookup_ok ty0 -> si_failed s = false ->
  si_text s = pre ++ post -> tokens pre post toks -> takes false ty0 v toks v' ->
  exists left, follows post left /\ read_std ty0 v s po = Some (true, v', clear_params po, left_in s left).
Proof.
  intros S LO NF E B T. apply has_ty_shape in S.
  destruct (read_std_run ty0 v s po) as (n & t & t' & r & x & M & R & D & F).
  unfold had in M, D. rewrite NF in M, D. rewrite E in M, D.
  destruct (all_toks_exist (nolf post) (nolf_not_in _)) as [rest AR].
  pose proof (tokens_all _ _ _ B _ AR) as HL.
  destruct (start_cur _ _ _ _ _ HL M) as [C _].
  destruct (TokSim.sim_read _ _ HL n ty0 LO t v _ S C _ _ _ R) as (s1 & l' & F1 & RO & C' & _).
  destruct (complete _ _ _ _ _ T LO _ _ _ _ _ F1) as (-> & -> & ->).
  destruct r; try contradiction RO.
  exists (match is_rest (tk_in t') with [] => None | _ :: r => Some r end). split; [|exact F].
  assert (H0 : halt (pre ++ post) t).
  { unfold tk_make in M. destruct (skip_lf_reach (pre ++ post) 1 1) as (k & Ek & _). fold (mk_istream (pre ++ post)) in Ek.
    apply (next_halt _ n (TK (Tok T_NONE [] 0 0) (mk_istream (pre ++ post)) (p_err (ctx_params po))) t (repeat LF k) []); cbn [tk_in]; auto.
    - change (repeat LF k) with ([] ++ repeat LF k). apply tokens_ws; [constructor|].
      unfold ws. clear. induction k; simpl; auto.
    - apply mk_istream_spec. }
  pose proof (read_halt _ _ _ _ _ _ _ _ H0 R) as H1.
  exact (halt_follows _ _ _ _ _ _ H1 HL C' eq_refl B).
Qed.

(** ** Documents of the JSON grammar *)
Lemma first_char_nows x y : x <> [] -> match x with c :: _ => ws_char c = false | [] => True end ->
  match nolf (x ++ y) with c :: _ => is_ws_c c = false | [] => True end /\ nolf (x ++ y) <> [].
Proof.
  intros N W. destruct x as [|c x]; [contradiction|]. destruct (at_token_nows ((c :: x) ++ y)) as [A B]; [exact W|].
  split; [exact A|]. intros K. specialize (B K). discriminate B.
Qed.

Lemma lexed_token pre x rest l id v : x <> [] -> match x with c :: _ => ws_char c = false | [] => True end ->
  lex (nolf (x ++ rest)) = Some (id, v, nolf rest) -> tokens pre (x ++ rest) l ->
  exists l2, tokens (pre ++ x) rest (l ++ l2).
Proof.
  intros N W LX B. destruct (first_char_nows x rest N W) as [NW NE].
  apply lex_tok in LX; [|exact NW|apply nolf_not_in]. destruct LX as [X|(k & u & X & TT & _)]; [contradiction|].
  rewrite nolf_app in X. apply app_inv_tail in X. subst u. exists [k].
  apply ts_tok; [exact B|]. now rewrite !drop_nolf.
Qed.

Lemma punct_token pre c rest l k : tok_text k [c] (drop_lf rest) -> c <> LF -> tokens pre (c :: rest) l ->
  tokens (pre ++ [c]) rest (l ++ [k]).
Proof.
  intros T N B. apply ts_tok; [exact B|]. unfold drop_lf at 1. simpl.
  assert (code c <> 10%Z). { intros E. apply N. rewrite <- (chr_code c), E. reflexivity. }
  destruct (Z.eqb_spec (code c) 10); [contradiction|exact T].
Qed.

Lemma string_token strict pre t s rest l : jstring strict t s -> tokens pre (t ++ rest) l ->
  exists l2, tokens (pre ++ t) rest (l ++ l2).
Proof.
  intros J B. eapply (lexed_token _ _ _ _ T_STRING s); [..|exact B].
  - destruct J as (x & -> & _). discriminate.
  - destruct J as (x & -> & _). reflexivity.
  - rewrite nolf_app, (jstring_nolf _ _ _ J). eapply lex_jstring; eauto.
Qed.

Lemma ws_cons_sep w c r : ws w -> In c [chr 44; chr 93; chr 125] -> follow (w ++ c :: r).
Proof.
  intros W H. exists w, c, r. split; [reflexivity|]. split; [exact W|].
  destruct H as [<-|[<-|[<-|[]]]]; unfold closer; tauto.
Qed.

Definition spans (x rest : bytes) : Prop := forall pre l, tokens pre (x ++ rest) l -> exists l2, tokens (pre ++ x) rest (l ++ l2).

Lemma spans_app x y rest : spans x (y ++ rest) -> spans y rest -> spans (x ++ y) rest.
Proof.
  intros A B pre l H. rewrite <- app_assoc in H. destruct (A _ _ H) as (l1 & H1). destruct (B _ _ H1) as (l2 & H2).
  exists (l1 ++ l2). now rewrite !app_assoc in *.
Qed.
Lemma spans_ws w rest : ws w -> spans w rest.
Proof. intros W pre l H. exists []. rewrite app_nil_r. now apply tokens_ws. Qed.
Lemma spans_char c k rest : (forall x, tok_text k [c] x) -> c <> LF -> spans [c] rest.
Proof. intros T N pre l H. exists [k]. apply punct_token; auto. Qed.
Lemma spans_str strict t s rest : jstring strict t s -> spans t rest.
Proof. intros J pre l H. eapply string_token; eauto. Qed.

Lemma jtext_spans strict :
  (forall j x, jtext strict j x -> forall rest, delim j rest -> spans x rest) /\
  (forall l u, jelems strict l u -> forall rest, spans u (chr 93 :: rest)) /\
  (forall l u, jmembers strict l u -> forall rest, spans u (chr 125 :: rest)).
Proof.
  assert (SC : forall j x, jtext strict j x -> composite j = false -> x <> [] -> match x with c :: _ => ws_char c = false | [] => True end ->
    forall rest, delim j rest -> spans x rest).
  { intros j x J C N W rest D pre l H. destruct (jtext_first _ _ _ _ J D) as (r & LX & E). rewrite (E C) in LX.
    eapply lexed_token; eauto. }
  apply jtext_jelems_jmembers_ind.
  - apply SC; [constructor|reflexivity|discriminate|reflexivity].
  - apply SC; [constructor|reflexivity|discriminate|reflexivity].
  - apply SC; [constructor|reflexivity|discriminate|reflexivity].
  - intros s H. assert (lax_number s) as (c & r & E & Hc & _) by (destruct strict; auto using json_number_lax).
    apply SC; [now constructor|reflexivity|subst s; discriminate|]. subst s.
    destruct Hc as [Hc| ->]; [|reflexivity]. revert Hc. unfold digit_char, ws_char. lia.
  - intros t s J rest _. eapply spans_str; eauto.
  - intros w W rest _. apply spans_app; [apply (spans_char _ KLBrack); [intros; constructor|discriminate]|].
    apply spans_app; [now apply spans_ws|]. apply (spans_char _ KRBrack); [intros; constructor|discriminate].
  - intros l t J IH rest _. apply spans_app; [apply (spans_char _ KLBrack); [intros; constructor|discriminate]|].
    apply spans_app; [apply IH|]. apply (spans_char _ KRBrack); [intros; constructor|discriminate].
  - intros w W rest _. apply spans_app; [apply (spans_char _ KLBrace); [intros; constructor|discriminate]|].
    apply spans_app; [now apply spans_ws|]. apply (spans_char _ KRBrace); [intros; constructor|discriminate].
  - intros l t J IH rest _. apply spans_app; [apply (spans_char _ KLBrace); [intros; constructor|discriminate]|].
    apply spans_app; [apply IH|]. apply (spans_char _ KRBrace); [intros; constructor|discriminate].
  - intros w1 w2 j t W1 W2 J IH rest. apply spans_app; [now apply spans_ws|]. apply spans_app; [|now apply spans_ws].
    apply IH. apply delim_follow, ws_cons_sep; simpl; auto.
  - intros w1 w2 j t l u W1 W2 J IH JL IHL rest. apply spans_app; [now apply spans_ws|].
    apply spans_app; [apply IH; rewrite <- !app_assoc; apply delim_follow, ws_cons_sep; simpl; auto|].
    apply spans_app; [now apply spans_ws|]. apply spans_app; [apply (spans_char _ KComma); [intros; constructor|discriminate]|]. apply IHL.
  - intros w1 w2 w3 w4 k kt j t W1 W2 W3 W4 K J IH rest. apply spans_app; [now apply spans_ws|].
    apply spans_app; [eapply spans_str; eauto|]. apply spans_app; [now apply spans_ws|].
    apply spans_app; [apply (spans_char _ KColon); [intros; constructor|discriminate]|]. apply spans_app; [now apply spans_ws|].
    apply spans_app; [|now apply spans_ws]. apply IH. apply delim_follow, ws_cons_sep; simpl; auto.
  - intros w1 w2 w3 w4 k kt j t l u W1 W2 W3 W4 K J IH JL IHL rest. apply spans_app; [now apply spans_ws|].
    apply spans_app; [eapply spans_str; eauto|]. apply spans_app; [now apply spans_ws|].
    apply spans_app; [apply (spans_char _ KColon); [intros; constructor|discriminate]|]. apply spans_app; [now apply spans_ws|].
    apply spans_app; [apply IH; rewrite <- !app_assoc; apply delim_follow, ws_cons_sep; simpl; auto|].
    apply spans_app; [now apply spans_ws|]. apply spans_app; [apply (spans_char _ KComma); [intros; constructor|discriminate]|]. apply IHL.
Qed.

Lemma start_halt n e inp t : tk_make n (mk_istream inp) e = Some t -> halt inp t.
Proof.
  unfold tk_make. intros M. destruct (skip_lf_reach inp 1 1) as (k & Ek & _). fold (mk_istream inp) in Ek.
  apply (next_halt _ n (TK (Tok T_NONE [] 0 0) (mk_istream inp) e) t (repeat LF k) []); cbn [tk_in]; auto.
  - change (repeat LF k) with ([] ++ repeat LF k). apply tokens_ws; [constructor|].
    unfold ws. clear. induction k; simpl; auto.
  - apply mk_istream_spec.
Qed.

Lemma std_document strict ty0 v s po w j x post v' : shape ty0 v = true -> lookup_ok ty0 -> si_failed s = false ->
  si_text s = w ++ x ++ post -> ws w -> jtext strict j x -> composite j = true -> interp ty0 v j = (RGood, v') ->
  exists left, follows post left /\ read_std ty0 v s po = Some (true, v', clear_params po, left_in s left).
Proof.
  intros S LO NF E W J CP I.
  destruct (read_std_run ty0 v s po) as (n0 & t & t' & r & y & M & R & D & F).
  unfold had in M, D. rewrite NF in M, D.
  assert (B : exists toks, tokens (w ++ x) post toks).
  { destruct (proj1 (jtext_spans strict) j x J post) with (pre := w) (l := @nil jtok) as (l2 & H).
    - unfold delim. now rewrite CP.
    - apply (tokens_ws []); [constructor|exact W].
    - exists l2. exact H. }
  destruct B as (toks & B). rewrite app_assoc in E.
  (* where the token reader is *)
  assert (P : r = PGR_OK /\ y = v' /\ pos t' (nolf post)).
  { set (n := Nat.max n0 (fuel_for (si_text s))).
    destruct (tk_make_pos n (si_text s) (p_err (ctx_params po))) as (t2 & M2 & P2).
    { unfold n, fuel_for. lia. }
    assert (t2 = t) as ->.
    { unfold tk_make in *. pose proof (tk_next_mono n0 n _ _ (Nat.le_max_l _ _) M). congruence. }
    rewrite E, <- app_assoc, pos_ws in P2 by assumption.
    destruct (read_sim strict) as [RS' _]. destruct (RS' j x J) as [_ RR].
    destruct (RR ty0 v S LO post t n) as (t3 & E3 & G & _); [unfold delim; now rewrite CP|exact P2| |].
    { unfold n, fuel_for. rewrite E. rewrite !app_length in *. lia. }
    rewrite I in E3, G. cbn [fst snd conv] in E3, G. pose proof (read_fuel _ _ _ _ _ _ _ R E3) as Q. injection Q as -> -> ->. auto. }
  destruct P as (-> & -> & P).
  exists (match is_rest (tk_in t') with [] => None | _ :: r => Some r end). split; [|exact F].
  destruct (all_toks_exist (nolf post) (nolf_not_in _)) as [rest AR].
  pose proof (tokens_all _ _ _ B _ AR) as HL. rewrite <- E in HL.
  destruct (start_cur _ _ _ _ _ HL M) as [C _].
  destruct (TokSim.sim_read _ _ HL n0 ty0 LO t v _ S C _ _ _ R) as (s1 & l' & _ & _ & C' & _).
  assert (l' = rest).
  { destruct C' as ((dn & _ & _ & DL & _) & C'). destruct P as [_ P].
    inversion AR as [z ST|z k r l0 LX AR']; subst.
    - destruct l' as [|k' l']; [reflexivity|exfalso]. destruct C' as (C' & _).
      unfold stop_lex in ST. destruct (lex (nolf post)) as [[[id u] r]|]; [destruct P as (P & _)|]; rewrite C' in P; destruct k'; cbn [tid] in P; congruence.
    - rewrite LX in P. destruct P as (P1 & _ & P3). destruct l' as [|k' l'].
      { exfalso. rewrite P1 in C'. destruct C' as [C'|C']; destruct k; discriminate C'. }
      destruct C' as (_ & _ & _ & _ & d3 & p3 & D3 & E3 & _ & B3).
      destruct (all_toks_exist (nolf (is_rest (tk_in t'))) (nolf_not_in _)) as [r3 AR3].
      pose proof (tokens_all _ _ _ B3 _ AR3) as F3. rewrite <- E3 in F3.
      pose proof (all_toks_fun _ _ HL _ F3) as G3. rewrite <- D3 in G3. apply app_inv_head in G3. subst r3.
      unfold vw in P3. rewrite P3 in AR3. pose proof (all_toks_fun _ _ AR3 _ AR') as ->.
      change (k' :: l0) with ([k'] ++ l0) in DL. change (k :: l0) with ([k] ++ l0) in DL.
      rewrite !app_assoc in DL. apply app_inv_tail in DL. apply app_inj_tail in DL as [_ ->]. reflexivity. }
  subst l'. pose proof (read_halt _ _ _ _ _ _ _ _ (start_halt _ _ _ _ M) R) as H1.
  exact (halt_follows _ _ _ _ _ _ H1 HL C' E B).
Qed.

(** ** One document after another *)
Lemma past_lf_all d x : nolf d = [] -> no_lf_first x -> past_lf (d ++ x) = x.
Proof.
  intros N F. induction d as [|c d IH].
  - destruct x as [|c x]; [reflexivity|]. cbn [app past_lf]. simpl in F. destruct (Ascii.eqb_spec c LF); [contradiction|reflexivity].
  - cbn [nolf filter] in N. unfold not_lf in N. cbn [app past_lf]. destruct (Ascii.eqb_spec c LF); [apply IH; exact N|discriminate N].
Qed.

Lemma nolf_first d x : nolf d = [] -> no_lf_first (d ++ x) -> d = [].
Proof.
  destruct d as [|c d]; [auto|]. simpl. unfold not_lf. destruct (Ascii.eqb_spec c LF); [contradiction|discriminate].
Qed.

Lemma mark_token p : mark p -> ws_char p = false /\ p <> LF /\ exists k, forall x, tok_text k [p] x.
Proof.
  unfold mark. intros [<-|[<-|[<-|[<-|[<-|[<-|[]]]]]]]; (split; [reflexivity|split; [discriminate|]]).
  - exists KLBrace. constructor.
  - exists KRBrace. constructor.
  - exists KLBrack. constructor.
  - exists KRBrack. constructor.
  - exists KColon. constructor.
  - exists KComma. constructor.
Qed.

Lemma ws_in w c : ws w -> In c w -> ws_char c = true.
Proof. unfold ws. rewrite forallb_forall. auto. Qed.

Lemma follows_mark w p y left : follows (w ++ p :: y) left -> ws w -> mark p ->
  left = match past_lf y with [] => None | _ :: r => Some r end.
Proof.
  intros H W MK. destruct (mark_token p MK) as (NW & NL & k & TK).
  assert (LX : lex (nolf (w ++ p :: y)) = Some (tid k, tval k, nolf y)).
  { rewrite lex_ws by exact W. change (p :: y) with ([p] ++ y). rewrite nolf_app.
    replace (nolf [p]) with [p]; [apply tok_lex, TK|]. cbn. unfold not_lf. destruct (Ascii.eqb_spec p LF); [contradiction|reflexivity]. }
  inversion H as [w' W' E|w' u k' x W' TT F E|w' m x W' NT F E]; subst.
  - exfalso. assert (ws_char p = true); [|congruence]. eapply ws_in; [exact W'|]. rewrite in_app_iff. right. now left.
  - rewrite <- E, lex_ws, nolf_app in LX by exact W'. rewrite !drop_nolf in TT. rewrite (tok_lex _ _ _ TT) in LX. injection LX as _ _ LX.
    change (p :: y) with ([p] ++ y) in E. rewrite !app_assoc in E.
    destruct (split_two _ _ _ _ E) as [(d & _ & ->)|(d & _ & ->)].
    + assert (N : nolf d = []) by (rewrite nolf_app in LX; apply (app_inv_tail (nolf y) (nolf d) []); exact LX).
      pose proof (nolf_first _ _ N F) as ->. cbn [app] in *. pose proof (past_lf_all [] y eq_refl F) as PL. cbn [app] in PL. rewrite PL. reflexivity.
    + assert (N : nolf d = []) by (rewrite nolf_app in LX; symmetry in LX; apply (app_inv_tail (nolf x) (nolf d) []); exact LX).
      rewrite past_lf_all by assumption. reflexivity.
  - exfalso. destruct NT as [NT1 NT2]. destruct (split_two _ _ _ _ E) as [(d & -> & E2)|(d & -> & E2)].
    + destruct d as [|c d].
      * cbn [app] in E2. apply (NT2 k [p] y); [exact E2|]. unfold drop_lf at 1. cbn [filter].
        assert (code p <> 10%Z). { intros Z0. apply NL. rewrite <- (chr_code p), Z0. reflexivity. }
        destruct (Z.eqb_spec (code p) 10); [contradiction|]. apply TK.
      * rewrite E2 in NT1. cbn [app] in NT1. assert (ws_char c = true); [|congruence].
        eapply ws_in; [exact W|]. rewrite in_app_iff. right. now left.
    + destruct d as [|c d].
      * cbn [app] in E2. rewrite <- E2 in NT1, NT2. apply (NT2 k [p] y); [reflexivity|]. unfold drop_lf at 1. cbn [filter].
        assert (code p <> 10%Z). { intros Z0. apply NL. rewrite <- (chr_code p), Z0. reflexivity. }
        destruct (Z.eqb_spec (code p) 10); [contradiction|]. apply TK.
      * cbn [app] in E2. injection E2 as <- _. assert (ws_char p = true); [|congruence].
        eapply ws_in; [exact W'|]. rewrite in_app_iff. right. now left.
Qed.

(** A document, a mark and one more character. *)
Lemma std_marked strict ty0 v s po w j x w2 p y v' : shape ty0 v = true -> lookup_ok ty0 -> si_failed s = false ->
  si_text s = w ++ x ++ w2 ++ p :: y -> ws w -> jtext strict j x -> composite j = true -> interp ty0 v j = (RGood, v') ->
  ws w2 -> mark p ->
  read_std ty0 v s po = Some (true, v', clear_params po, left_in s (match past_lf y with [] => None | _ :: r => Some r end)).
Proof.
  intros S LO NF E W J C I W2 MK.
  destruct (std_document strict ty0 v s po w j x (w2 ++ p :: y) v' S LO NF E W J C I) as (left & F & R).
  now rewrite (follows_mark _ _ _ _ F W2 MK) in R.
Qed.

Lemma std_many strict ty0 p c : lookup_ok ty0 -> mark p -> c <> LF ->
  forall docs : list (bytes * val), Forall (fun d => exists w j x, fst d = w ++ x /\ ws w /\ jtext strict j x /\ composite j = true /\ interp ty0 (dflt ty0) j = (RGood, snd d)) docs ->
  forall tail skip, read_many (length docs) ty0 (SIn (flat_map (fun d => fst d ++ [p; c]) docs ++ tail) false skip)
    = Some (map snd docs, SIn tail false skip).
Proof.
  intros LO MK NC docs F. induction F as [|d docs (w & j & x & E & W & J & C & I) F IH]; intros tail skip; [reflexivity|].
  cbn [length read_many flat_map map].
  rewrite (std_marked strict ty0 (dflt ty0) _ None w j x [] p (c :: flat_map (fun d => fst d ++ [p; c]) docs ++ tail) (snd d));
    auto; try reflexivity; [|apply dflt_shape|cbn [si_text]; rewrite E, <- !app_assoc; reflexivity].
  cbn [past_lf]. destruct (Ascii.eqb_spec c LF); [contradiction|]. unfold left_in. cbn [si_skipws]. rewrite IH. reflexivity.
Qed.

(** Whatever is read. *)
Lemma std_any ty0 v s po : exists r v' po' left, deserialize ty0 v (had s) po = Some (r, v', po') /\
  read_std ty0 v s po = Some (r, v', po', left_in s left) /\
  match left with Some x => exists m, m <> [] /\ had s = m ++ x | None => True end.
Proof.
  destruct (read_std_run ty0 v s po) as (n & t & t' & r & v' & M & R & A & B).
  do 4 eexists. split; [exact A|]. split; [exact B|].
  apply start_halt in M. apply (read_halt _ _ _ _ _ _ _ _ M) in R as (pre & post & m & dn & E & _ & _ & _ & E2 & _).
  destruct (is_rest (tk_in t')) as [|c x]; [constructor|].
  exists (pre ++ m ++ [c]). split; [intros X; apply app_eq_nil in X as [_ X]; apply app_eq_nil in X as [_ X]; discriminate X|].
  rewrite E, E2, <- !app_assoc. reflexivity.
Qed.

Lemma std_failed ty0 v s po : si_failed s = true -> exists r v' po', deserialize ty0 v [] po = Some (r, v', po') /\
  read_std ty0 v s po = Some (r, v', po', s).
Proof.
  intros F. destruct (std_any ty0 v s po) as (r & v' & po' & left & A & B & C).
  unfold had in A, C. rewrite F in A, C. exists r, v', po'. split; [exact A|]. rewrite B. destruct s as [x f k]. cbn [si_failed] in F. subst f.
  destruct left; [|reflexivity]. destruct C as (m & N & C). symmetry in C. apply app_eq_nil in C as [C _]. contradiction.
Qed.

Lemma composite_msg ea strict ms g sn v : jsonable ea strict (TMsg ms g) v -> composite (tojson sn (TMsg ms g) v) = true.
Proof. inversion 1. reflexivity. Qed.

Lemma std_written ms g po p c vs : let t := TMsg ms g in
  tables_ok false t -> lookup_ok t -> mark p -> c <> LF ->
  Forall (fun v => jsonable (po_ea po) false t v /\ faithful (po_sn po) t v) vs ->
  exists texts, Forall2 (fun v x => serialize t v po = (true, x, clear_params po)) vs texts /\
    forall tail skip, read_many (length vs) t (SIn (flat_map (fun x => x ++ [p; c]) texts ++ tail) false skip)
      = Some (map (persist t) vs, SIn tail false skip).
Proof.
  intros t T L MK NC F.
  assert (H : exists docs : list (bytes * val), length docs = length vs /\ map snd docs = map (persist t) vs /\
    Forall2 (fun v x => serialize t v po = (true, x, clear_params po)) vs (map fst docs) /\
    Forall (fun d => exists w j x, fst d = w ++ x /\ ws w /\ jtext false j x /\ composite j = true /\ interp t (dflt t) j = (RGood, snd d)) docs).
  { induction F as [|v vs [J FA] F (docs & E1 & E2 & E3 & E4)]; [exists []; repeat split; constructor|].
    destruct (serialize_jtext false t v po T J) as (text & E & JT).
    exists ((text, persist t v) :: docs). cbn [length map fst snd]. split; [now rewrite E1|]. split; [now rewrite E2|].
    split; [constructor; [exact E|exact E3]|]. constructor; [|exact E4].
    exists [], (tojson (po_sn po) t v), text. cbn [fst snd app]. split; [reflexivity|]. split; [reflexivity|]. split; [exact JT|].
    split; [eapply composite_msg; exact J|]. now apply (interp_back false). }
  destruct H as (docs & E1 & E2 & E3 & E4). exists (map fst docs). split; [exact E3|]. intros tail skip.
  rewrite <- E1, <- E2, <- (std_many false t p c L MK NC docs E4 tail skip). do 3 f_equal. clear.
  induction docs as [|d docs IH]; [reflexivity|]. cbn [map flat_map]. rewrite <- !app_assoc. now rewrite IH.
Qed.

(** As [std_document] and [std_marked], with [composite] spelled out. *)
Lemma std_doc strict ty0 v s po w j x post v' : shape ty0 v = true -> lookup_ok ty0 -> si_failed s = false ->
  si_text s = w ++ x ++ post -> ws w -> jtext strict j x -> match j with JArr _ | JObj _ => True | _ => False end ->
  interp ty0 v j = (RGood, v') ->
  exists left, follows post left /\ read_std ty0 v s po = Some (true, v', clear_params po, left_in s left).
Proof. intros A B C D E F G H. eapply std_document; eauto. destruct j; (reflexivity || contradiction). Qed.

Lemma marked_doc strict ty0 v s po w j x w2 p y v' : shape ty0 v = true -> lookup_ok ty0 -> si_failed s = false ->
  si_text s = w ++ x ++ w2 ++ p :: y -> ws w -> jtext strict j x -> match j with JArr _ | JObj _ => True | _ => False end ->
  interp ty0 v j = (RGood, v') -> ws w2 -> mark p ->
  read_std ty0 v s po = Some (true, v', clear_params po, left_in s (match past_lf y with [] => None | _ :: r => Some r end)).
Proof. intros A B C D E F G H W2 M. eapply std_marked; eauto. destruct j; (reflexivity || contradiction). Qed.

(** ** Messages one after another without a mark between them *)

(** message Odd { bool x = 1 [name = "{}"]; } *)
Definition odd_ty : ty := TMsg [TField PBool] (plain_tables [b "{}"]).
Definition odd_set (x : bool) : val := VMsg [VField (negb x) (VBool x)].

Lemma odd_fine : tables_ok false odd_ty /\ lookup_ok odd_ty.
Proof.
  split; [|apply plain_lookup_ok; repeat constructor].
  apply plain_tables_ok; try reflexivity; [nodup| |repeat constructor]. intros p [H|[]]; discriminate.
Qed.

Lemma odd_value x : jsonable false false odd_ty (odd_set x) /\ faithful false odd_ty (odd_set x) /\ persist odd_ty (odd_set x) = odd_set x.
Proof.
  split; [|split; [|destruct x; reflexivity]].
  - constructor. each_member. destruct x; constructor; [reflexivity|exact I].
  - constructor; [reflexivity|]. each_member. destruct x; [left; constructor; [reflexivity|exact I]|right; split; [reflexivity|discriminate]].
Qed.

Definition flag_val : val := VMsg [VField false (VBool true); VField true (VDbl (DZero false))].

Lemma flag_fine : tables_ok false inner_ty /\ lookup_ok inner_ty /\ jsonable false false inner_ty flag_val /\
  faithful false inner_ty flag_val /\ persist inner_ty flag_val = flag_val.
Proof.
  split; [apply inner_tables_ok|]. split; [apply inner_lookup_ok|]. split; [|split; [|reflexivity]].
  - constructor. each_member; [|constructor]. constructor; [reflexivity|exact I].
  - constructor; [reflexivity|]. each_member; [left; constructor; [reflexivity|exact I]|right; split; [reflexivity|discriminate]].
Qed.

Lemma std_lost : exists text, serialize inner_ty flag_val None = (true, text, None) /\
  forall sep, sep = [] \/ sep = [LF] -> exists s,
  read_many 2 inner_ty (SIn (text ++ sep ++ text) false true) = Some ([flag_val], s).
Proof.
  eexists. split; [reflexivity|]. intros sep [->| ->]; eexists; vm_compute; reflexivity.
Qed.

Lemma std_misread : exists text, serialize odd_ty (odd_set true) None = (true, text, None) /\
  forall sep, sep = [] \/ sep = [LF] -> exists s,
  read_many 2 odd_ty (SIn (text ++ sep ++ text) false true) = Some ([odd_set true; odd_set false], s).
Proof.
  eexists. split; [reflexivity|]. intros sep [->| ->]; eexists; vm_compute; reflexivity.
Qed.

Lemma hash_no_token : no_token (b "#;").
Proof.
  split; [reflexivity|]. intros k u y E T. rewrite !drop_nolf in T. apply tok_lex in T.
  rewrite <- nolf_app, <- E in T. vm_compute in T. discriminate T.
Qed.

(** ** What the caller extracts themself *)
Lemma blank_iff c : is_space_c c = true <-> blank c.
Proof.
  unfold is_space_c, blank. cbn [map In]. rewrite orb_true_iff, andb_true_iff, Z.eqb_eq, !Z.leb_le.
  split; [intros H|intros H; repeat (destruct H as [<-|H]; [rewrite code_chr_small by lia; lia|]); destruct H].
  rewrite <- (chr_code c). assert (code c = 32 \/ code c = 9 \/ code c = 10 \/ code c = 11 \/ code c = 12 \/ code c = 13)%Z as X by lia.
  repeat (destruct X as [-> |X]; [tauto|]). rewrite X. tauto.
Qed.
Lemma drop_split l : exists w, l = w ++ drop_spaces l /\ Forall blank w /\ match drop_spaces l with c :: _ => ~ blank c | [] => True end.
Proof.
  induction l as [|c l (w & E & F & N)]; [exists []; repeat split; constructor|]. cbn [drop_spaces]. destruct (is_space_c c) eqn:B.
  - exists (c :: w). split; [cbn [app]; now rewrite <- E|]. split; [constructor; [now apply blank_iff|exact F]|exact N].
  - exists []. split; [reflexivity|]. split; [constructor|]. intros X. apply blank_iff in X. congruence.
Qed.
Lemma std_extract s : si_failed s = false -> exists w r, si_text s = w ++ r /\
  (if si_skipws s then Forall blank w /\ match r with c :: _ => ~ blank c | [] => True end else w = []) /\
  si_extract s = match r with [] => (None, SIn [] true (si_skipws s)) | c :: x => (Some c, SIn x false (si_skipws s)) end.
Proof.
  intros F. unfold si_extract. rewrite F. destruct (si_skipws s).
  - destruct (drop_split (si_text s)) as (w & E & B & N). exists w, (drop_spaces (si_text s)). auto.
  - exists [], (si_text s). auto.
Qed.
