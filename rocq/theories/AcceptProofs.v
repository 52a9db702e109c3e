(** Exactly which documents are read, and where the others fail. *)
From Verif Require Import Bytes BaseProofs Num Dbl Types Stream Tokenizer Write Read
  SpecJson SpecErr SpecPos SpecInterp SpecTok SpecTakes LexView LexMono FuelMono LexJson Termination ReadSim
  ApiProofs ErrProofs PosProofs TokRead TokRun TokComplete TokLex TokSim.

Lemma start_cur inp L n e t : all_toks (nolf inp) L -> tk_make n (mk_istream inp) e = Some t ->
  cur inp L t L /\ tk_err t = e.
Proof.
  intros HL M. unfold tk_make in M. eapply (next_cur inp L HL n (TK _ _ _)); [|exact M].
  cbn [tk_in]. split; [apply mk_istream_spec|].
  destruct (skip_lf_reach inp 1 1) as (k & E & H). fold (mk_istream inp) in E, H.
  exists [], (repeat LF k). split; [reflexivity|]. split; [exact E|].
  assert (LC : line_col [] 1 1).
  { split; [reflexivity|]. exists [], []. repeat split; auto. }
  split; [exact (H [] LC)|]. apply (tokens_ws []); [constructor|].
  unfold ws. clear. induction k; simpl; auto.
Qed.

(** A run on the document is a run on its tokens. *)
Lemma deserialize_run ty0 v inp po r v' po' L : all_toks (nolf inp) L ->
  shape ty0 v = true -> lookup_ok ty0 -> deserialize ty0 v inp po = Some (r, v', po') ->
  exists n s l' t' s2 x2 l2,
    tread false n ty0 v L = Some (s, v', l') /\ cur inp L t' l' /\
    (r = true <-> s = TOk) /\
    po' = (if r then clear_params po else params_set_err (clear_params po) (tk_err t')) /\
    tread true n ty0 v L = Some (s2, x2, l2) /\
    match s2 with
    | TOk | TNil => s = s2 /\ l2 = l' /\ tk_err t' = err_clear
    | TErr c m => s = s2 /\ l2 = l' /\ record inp L (tk_err t') c m l'
    | TBad => record inp L (tk_err t') PGERR_INVALID_OBJECT (b "invalid base64 data") l2
    end.
Proof.
  intros HL S LO A. unfold deserialize, deserialize_fuel in A. set (n := fuel_for inp) in *.
  destruct (tk_make n (mk_istream inp) (p_err (ctx_params po))) as [t|] eqn:M; [|discriminate A].
  destruct (start_cur _ _ _ _ _ HL M) as [C E]. rewrite ctx_err in E.
  destruct (read n ty0 t v) as [[[r1 x] t']|] eqn:R; [|discriminate A].
  destruct (sim_read inp L HL n ty0 LO t v L S C _ _ _ R) as (s & l' & F & RO & C' & _ & Cl).
  destruct Cl as (s2 & x2 & l2 & F2 & K); [now rewrite E|].
  assert (x = v') by (destruct r1; injection A; auto). subst x.
  exists n, s, l', t', s2, x2, l2. split; [exact F|]. split; [exact C'|].
  split; [destruct r1; injection A as <- _; destruct s; try contradiction RO; split; congruence|].
  split; [destruct r1; injection A as <- <-; reflexivity|]. split; [exact F2|].
  rewrite E in K. destruct s2; tauto.
Qed.

Lemma accepts ty0 v inp po v' : has_ty ty0 v = true -> lookup_ok ty0 ->
  (exists po', deserialize ty0 v inp po = Some (true, v', po')) <->
  exists pre post toks, inp = pre ++ post /\ tokens pre post toks /\ takes false ty0 v toks v'.
Proof.
  intros S LO. apply has_ty_shape in S.
  destruct (all_toks_exist (nolf inp) (nolf_not_in _)) as [L HL]. split.
  - intros [po' A].
    destruct (deserialize_run _ _ _ _ _ _ _ _ HL S LO A) as (n & s & l' & t' & s2 & x2 & l2 & F & C & R & _).
    destruct R as [R _]. specialize (R eq_refl). subst s.
    destruct (run_ok _ _ _ _ _ _ _ LO S F) as (p & -> & T).
    destruct C as ((dn & pre & post & D & I & K & _) & _). apply app_inv_tail in D. subst dn. eauto 10.
  - intros (pre & post & toks & -> & K & T).
    destruct (deserialize_total ty0 v (pre ++ post) po) as (r & x & po' & A).
    destruct (all_toks_exist (nolf post) (nolf_not_in _)) as [rest AR].
    pose proof (all_toks_fun _ _ HL _ (tokens_all _ _ _ K _ AR)) as ->.
    destruct (deserialize_run _ _ _ _ _ _ _ _ HL S LO A) as (n & s & l' & t' & s2 & x2 & l2 & F & C & R & _).
    destruct (complete _ _ _ _ _ T LO _ _ _ _ _ F) as (-> & -> & _). destruct R as [_ R].
    rewrite (R eq_refl) in A. eauto.
Qed.

Lemma fails_where ty0 v inp p v' p' : has_ty ty0 v = true -> lookup_ok ty0 ->
  deserialize ty0 v inp (Some p) = Some (false, v', Some p') -> e_code (p_err p') <> PGERR_OK ->
  exists pre post toks, inp = pre ++ post /\ tokens pre post toks /\ at_token post /\
    (line_col pre (e_line (p_err p')) (e_col (p_err p')) \/
     (e_line (p_err p') = 0 /\ e_col (p_err p') = 0 /\ at_quote post)) /\
    ((viable true ty0 v toks /\
      forall k u x more v2, post = u ++ x -> tok_text k (drop_lf u) (drop_lf x) ->
        ~ takes false ty0 v (toks ++ k :: more) v2) \/
     (exists toks0 s, toks = toks0 ++ [KStr s] /\ viable true ty0 v toks0 /\
      (exists more v2, takes false ty0 v (toks ++ more) v2) /\
      (forall more v2, ~ takes true ty0 v (toks ++ more) v2) /\
      e_code (p_err p') = PGERR_INVALID_OBJECT /\ e_msg (p_err p') = b "invalid base64 data")).
Proof.
  intros S LO A NE. apply has_ty_shape in S.
  destruct (all_toks_exist (nolf inp) (nolf_not_in _)) as [L HL].
  destruct (deserialize_run _ _ _ _ _ _ _ _ HL S LO A) as (n & s & l' & t' & s2 & x2 & l2 & F & C & R & P & F2 & K).
  cbn [params_set_err clear_params] in P. injection P as ->. cbn [p_err] in *.
  destruct s2 as [| |c m|].
  - destruct K as (-> & _). destruct R as [_ R]. specialize (R eq_refl). discriminate R.
  - destruct K as (_ & _ & E). rewrite E in NE. now elim NE.
  - destruct K as (-> & -> & (_ & _ & _ & dn & pre & post & D & I & T & AT & LC)).
    destruct (run_stuck _ _ _ _ _ _ _ _ _ LO S F2) as (q & Q & V & _).
    destruct (run_stuck _ _ _ _ _ _ _ _ _ LO S F) as (q' & Q' & _ & DD).
    assert (q' = dn) as -> by (rewrite Q' in D; now apply app_inv_tail in D).
    assert (q = dn) as -> by (rewrite <- D in Q; now apply app_inv_tail in Q).
    exists pre, post, dn. do 4 (split; [assumption|]). left. split; [exact V|].
    intros k u x more v2 EP TT.
    assert (AL : all_toks (nolf post) l').
    { destruct (all_toks_exist (nolf post) (nolf_not_in _)) as [rest AR].
      pose proof (tokens_all _ _ _ T _ AR) as G. rewrite <- I in G.
      pose proof (all_toks_fun _ _ HL _ G) as G2. rewrite <- D in G2. apply app_inv_head in G2. now subst. }
    rewrite !drop_lf_nolf in TT. apply tok_lex in TT. rewrite <- nolf_app, <- EP in TT.
    inversion AL as [y ST E1 E2|y k2 r l3 LX AL2 E1 E2]; subst.
    + unfold stop_lex in ST. rewrite TT in ST. destruct k; discriminate ST.
    + rewrite LX in TT. injection TT as TI TV _.
      assert (k2 = k) as -> by (destruct k, k2; try discriminate TI; simpl in TV; congruence). apply DD.
  - destruct K as (EC & EM & _ & dn & pre & post & D & I & T & AT & LC).
    destruct (run_bad _ _ _ _ _ _ LO S F2) as (q & s0 & Q & V & X1 & X2).
    assert (DN : dn = q ++ [KStr s0]).
    { apply (app_inv_tail l2). rewrite D, Q, <- app_assoc. reflexivity. }
    exists pre, post, dn. do 4 (split; [assumption|]). right. exists q, s0. split; [exact DN|].
    split; [exact V|]. subst dn. split; [|split; [|split; assumption]].
    + destruct X1 as (more & v2 & X1). exists more, v2. rewrite <- app_assoc. exact X1.
    + intros more v2. rewrite <- app_assoc. apply X2.
Qed.

(** No error is recorded: the document is null. *)
Lemma fails_null ty0 v inp p v' p' : has_ty ty0 v = true -> lookup_ok ty0 ->
  deserialize ty0 v inp (Some p) = Some (false, v', Some p') ->
  (e_code (p_err p') = PGERR_OK <-> exists pre post, inp = pre ++ post /\ tokens pre post [KNull]) /\
  (e_code (p_err p') = PGERR_OK -> v' = nulled v).
Proof.
  intros S LO A. apply has_ty_shape in S.
  destruct (all_toks_exist (nolf inp) (nolf_not_in _)) as [L HL].
  destruct (deserialize_run _ _ _ _ _ _ _ _ HL S LO A) as (n & s & l' & t' & s2 & x2 & l2 & F & C & R & P & F2 & K).
  cbn [params_set_err clear_params] in P. injection P as ->. cbn [p_err] in *.
  assert (Fwd : e_code (tk_err t') = PGERR_OK -> s2 = TNil /\ s = TNil).
  { intros E. destruct s2 as [| |c m|].
    - destruct K as (-> & _). destruct R as [_ R]. specialize (R eq_refl). discriminate R.
    - now destruct K as (-> & _).
    - destruct K as (_ & _ & (EC & _ & NC & _)). congruence.
    - destruct K as (EC & _). congruence. }
  split; [split|].
  - intros E. apply Fwd in E as [-> ->].
    destruct (tread_nil _ _ _ _ _ _ _ F) as (-> & l0 & ->).
    destruct C as (_ & _ & _ & _ & _ & dn & pre & D & I & _ & T).
    assert (dn = [KNull]) as -> by (apply (app_inv_tail l0); exact D). eauto.
  - intros (pre & post & -> & T).
    destruct (all_toks_exist (nolf post) (nolf_not_in _)) as [rest AR].
    pose proof (all_toks_fun _ _ HL _ (tokens_all _ _ _ T _ AR)) as ->. cbn [app] in *.
    assert (s2 = TNil) as ->.
    { clear -F2 S. destruct ty0, v; try discriminate S; cbn [tread] in F2; try (injection F2 as <- _ _; reflexivity). }
    destruct K as (_ & _ & ->). reflexivity.
  - intros E. apply Fwd in E as [-> ->].
    destruct (tread_run _ _ _ LO v S _ _ _ _ F) as (q & _ & _ & _ & N). exact N.
Qed.
