(** The JSON reader runs as the token reader on the tokens of the document. *)
From Verif Require Import Bytes BaseProofs Num Dbl Types Stream Tokenizer Write Read
  SpecJson SpecErr SpecPos SpecInterp SpecTok SpecTakes LexView LexMono FuelMono LexJson Termination ReadSim
  ErrProofs PosProofs TokRead TokRun TokLex.

Lemma tokens_ws pre w x l : tokens pre (w ++ x) l -> ws w -> tokens (pre ++ w) x l.
Proof.
  revert pre. induction w as [|c w IH]; intros pre B W; [now rewrite app_nil_r|].
  unfold ws in W. simpl in W. apply andb_prop in W as [Wc W].
  change (c :: w) with ([c] ++ w). rewrite app_assoc. apply IH; [|exact W]. now apply ts_ws.
Qed.

Lemma cstr_id s : ~ In NUL s -> cstr s = s.
Proof.
  induction s as [|c s IH]; [reflexivity|]. intros N. cbn [cstr].
  destruct (Ascii.eqb_spec c NUL) as [->|K]; [elim N; now left|]. rewrite IH; [reflexivity|].
  intros I. apply N. now right.
Qed.

Section Sim.
  Context (inp : bytes) (L : list jtok) (HL : all_toks (nolf inp) L).

  (** The place in the document before the tokens [l]. *)
  Definition place (l : list jtok) (line col : Z) : Prop :=
    exists dn pre post, dn ++ l = L /\ inp = pre ++ post /\ tokens pre post dn /\ at_token post /\
      (line_col pre line col \/ (line = 0 /\ col = 0 /\ at_quote post)).

  Definition stands (s : istream) (l : list jtok) : Prop :=
    wf_is s /\ exists dn pre, dn ++ l = L /\ inp = pre ++ is_rest s /\
      line_col pre (is_line s) (is_col s) /\ tokens pre (is_rest s) dn.

  Definition cur (t : tokenizer) (l : list jtok) : Prop :=
    place l (t_line (tk_cur t)) (t_col (tk_cur t)) /\
    match l with
    | [] => tk_id t = T_NONE \/ tk_id t = T_EOS
    | k :: rest => tk_id t = tid k /\ t_val (tk_cur t) = tval k /\
                   match k with KStr s => ~ In NUL s | _ => True end /\ stands (tk_in t) rest
    end.

  Lemma next_cur n t l t1 : stands (tk_in t) l -> tk_next n t = Some t1 -> cur t1 l /\ tk_err t1 = tk_err t.
  Proof.
    intros (W & dn & pre & D & E & LC & B) A.
    destruct (tk_next_any _ _ _ W A) as [P Er]. split; [|exact Er].
    unfold tk_next in A. destruct (next_loop n (tk_in t)) as [[tok s']|] eqn:N; [|discriminate A].
    injection A as <-. cbn [tk_err tk_in tk_cur] in *.
    apply next_loop_reach in N as (s1 & w & m & [R1 L1] & Hw & W1 & T & [R2 L2] & Q); [|exact W].
    assert (B1 : tokens (pre ++ w) (is_rest s1) dn).
    { apply tokens_ws; [|exact Hw]. now rewrite <- R1. }
    specialize (L1 _ LC).
    assert (AL : all_toks (nolf (is_rest s1)) l).
    { destruct (all_toks_exist (nolf (is_rest s1)) (nolf_not_in _)) as [rest AR].
      pose proof (tokens_all _ _ _ B1 _ AR) as F. rewrite <- app_assoc, <- R1, <- E in F.
      pose proof (all_toks_fun _ _ HL _ F) as G. rewrite <- D in G. apply app_inv_head in G. now subst. }
    assert (Pl : place l (t_line tok) (t_col tok)).
    { exists dn, (pre ++ w), (is_rest s1). split; [exact D|]. split; [rewrite E, R1; now rewrite app_assoc|].
      split; [exact B1|]. split; [exact T|].
      destruct Q as [[-> ->]|Q]; [left; exact L1|right; tauto]. }
    split; [exact Pl|]. destruct P as [W' P]. cbn [tk_in tk_cur] in W', P. unfold tk_id in *. cbn [tk_cur tk_in] in *.
    assert (V : vw (tk_in t) = nolf (w ++ is_rest s1)) by (unfold vw; now rewrite R1).
    rewrite V, lex_ws in P by exact Hw.
    inversion AL as [x S Ex El|x k r l0 LX AL' Ex El]; [subst x|subst x l].
    - unfold stop_lex in S. destruct (lex (nolf (is_rest s1))) as [[[id v] r]|]; [|now left]. destruct P as (-> & _). now right.
    - rewrite LX in P. destruct P as (-> & -> & P). split; [reflexivity|]. split; [reflexivity|].
      assert (X0 : lex (nolf (is_rest s1)) = Some (tid k, tval k, nolf (is_rest s'))).
      { rewrite LX, <- P. reflexivity. }
      apply lex_tok in X0; [| |apply nolf_not_in].
      2:{ unfold wf_is, at_token in W1, T. destruct (is_rest s1) as [|c rr]; [exact I|].
          simpl. unfold not_lf. destruct (Ascii.eqb_spec c LF); [contradiction|]. simpl.
          revert T. unfold ws_char, is_ws_c, is_ws_z. num_z. lia. }
      destruct X0 as [X0|(k2 & u & X & TT & TI & TV)].
      { exfalso. rewrite X0 in LX. destruct k; discriminate LX. }
      assert (k2 = k) as -> by (destruct k, k2; try discriminate TI; simpl in TV; congruence).
      split; [eapply tok_nonul; exact TT|]. split; [exact W'|].
      exists (dn ++ [k]), ((pre ++ w) ++ m). split; [now rewrite <- app_assoc|].
      split; [rewrite E, R1, R2, <- !app_assoc; reflexivity|]. split; [now apply L2|].
      apply ts_tok; [now rewrite <- R2|]. rewrite !drop_lf_nolf.
      rewrite R2, nolf_app in X. apply app_inv_tail in X. now rewrite X.
  Qed.

  Lemma cur_next n t k l t1 : cur t (k :: l) -> tk_next n t = Some t1 -> cur t1 l /\ tk_err t1 = tk_err t.
  Proof. intros (_ & _ & _ & _ & S). now apply next_cur. Qed.

  Lemma cur_id t l id : cur t l -> id <> T_NONE -> id <> T_EOS ->
    tid_eqb (tk_id t) id = match l with k :: _ => tid_eqb (tid k) id | [] => false end.
  Proof.
    intros (_ & C) N1 N2. destruct l as [|k l].
    - destruct C as [-> | ->]; destruct id; try reflexivity; congruence.
    - destruct C as (-> & _). reflexivity.
  Qed.

  (** ** Simulation *)
  Definition record (e : errinfo) (c : error_code) (m : bytes) (l : list jtok) : Prop :=
    e_code e = c /\ e_msg e = m /\ c <> PGERR_OK /\ place l (e_line e) (e_col e).

  Definition res_of (r : pgr) (s : tres) : Prop :=
    match r, s with
    | PGR_OK, TOk | PGR_NIL, TNil => True
    | PGR_ERROR, TErr _ _ => True
    | _, _ => False
    end.

  Definition sim {A} (e0 : errinfo) (c : rres A) (f : bool -> option (tres * A * list jtok)) : Prop :=
    forall r x t', c = Some (r, x, t') ->
    exists s l', f false = Some (s, x, l') /\ res_of r s /\ cur t' l' /\
      (e_code e0 <> PGERR_OK -> tk_err t' = e0) /\
      (e_code e0 = PGERR_OK -> exists s2 x2 l2, f true = Some (s2, x2, l2) /\
        match s2 with
        | TOk | TNil => s = s2 /\ x2 = x /\ l2 = l' /\ tk_err t' = e0
        | TErr c m => s = s2 /\ x2 = x /\ l2 = l' /\ record (tk_err t') c m l'
        | TBad => record (tk_err t') PGERR_INVALID_OBJECT (b "invalid base64 data") l2
        end).

  Lemma sim_fail {A} c m (x : A) t l : cur t l -> c <> PGERR_OK ->
    sim (tk_err t) (rfail c m x t) (fun _ => Some (TErr c m, x, l)).
  Proof.
    intros C NC r y t' H. unfold rfail in H. injection H as <- <- <-.
    exists (TErr c m), l. split; [reflexivity|]. split; [exact I|].
    assert (CE : cur (tk_error c m t) l).
    { unfold tk_error. destruct (e_code (tk_err t)); exact C. }
    split; [exact CE|]. unfold tk_error. split.
    - intros N. destruct (e_code (tk_err t)) eqn:E; (reflexivity || congruence).
    - intros E. rewrite E. eexists _, _, _. split; [reflexivity|]. split; [reflexivity|].
      split; [reflexivity|]. split; [reflexivity|]. destruct C as (P & _). repeat split; auto.
  Qed.

  Lemma sim_ret {A} r s (x : A) t l e0 : cur t l -> tk_err t = e0 -> res_of r s -> is_err s = false ->
    sim e0 (Some (r, x, t)) (fun _ => Some (s, x, l)).
  Proof.
    intros C E R N r' y t' H. injection H as <- <- <-.
    exists s, l. split; [reflexivity|]. split; [exact R|]. split; [exact C|]. split; [auto|].
    intros _. exists s, x, l. split; [reflexivity|]. destruct s; try discriminate N; auto.
  Qed.

  Lemma sim_none {A} e0 (f : bool -> option (tres * A * list jtok)) : sim e0 None f.
  Proof. intros r x t' H. discriminate H. Qed.

  Lemma sim_ext {A} e0 (c : rres A) f g : (forall w, f w = g w) -> sim e0 c f -> sim e0 c g.
  Proof. intros E S r x t' H. rewrite <- !E. now apply S. Qed.

  Lemma sim_bind {A B} e0 (c1 : rres A) f1 (k : pgr -> A -> tokenizer -> rres B)
      (g : bool -> tres -> A -> list jtok -> option (tres * B * list jtok)) (h : A -> B) :
    sim e0 c1 f1 ->
    (forall w c m x l, g w (TErr c m) x l = Some (TErr c m, h x, l)) ->
    (forall w x l, g w TBad x l = Some (TBad, h x, l)) ->
    (forall x t1, k PGR_ERROR x t1 = Some (PGR_ERROR, h x, t1)) ->
    (forall r s x t1 l1, res_of r s -> r <> PGR_ERROR -> cur t1 l1 -> f1 false = Some (s, x, l1) ->
       sim (tk_err t1) (k r x t1) (fun w => g w s x l1)) ->
    sim e0 (match c1 with None => None | Some (r, x, t1) => k r x t1 end)
           (fun w => match f1 w with None => None | Some (s, x, l) => g w s x l end).
  Proof.
    intros S1 GE GB KE S2 r y t' H. destruct c1 as [[[r1 x1] t1]|]; [|discriminate H].
    destruct (S1 _ _ _ eq_refl) as (s1 & l1 & F1 & R1 & C1 & Dy & Cl). rewrite F1.
    destruct (is_err s1) eqn:IE.
    - destruct s1 as [| |c m|]; try discriminate IE; [|destruct r1; contradiction].
      destruct r1; try contradiction. rewrite KE in H. injection H as <- <- <-. rewrite GE.
      exists (TErr c m), l1. split; [reflexivity|]. split; [exact I|]. split; [exact C1|]. split; [exact Dy|].
      intros E. destruct (Cl E) as (s2 & x2 & l2 & F2 & M). rewrite F2. destruct s2 as [| |c2 m2|].
      + destruct M as (K & _). discriminate K.
      + destruct M as (K & _). discriminate K.
      + destruct M as (K & -> & -> & M). rewrite GE. injection K as <- <-. eexists _, _, _.
        split; [reflexivity|]. do 3 (split; [reflexivity|]). exact M.
      + rewrite GB. eexists _, _, _. split; [reflexivity|]. exact M.
    - assert (RE : r1 <> PGR_ERROR) by (destruct r1, s1; try discriminate; try contradiction; discriminate IE).
      destruct (S2 _ _ _ _ _ R1 RE C1 F1 _ _ _ H) as (s3 & l3 & F3 & R3 & C3 & Dy3 & Cl3).
      exists s3, l3. split; [exact F3|]. split; [exact R3|]. split; [exact C3|]. split.
      + intros N. pose proof (Dy N) as EE. rewrite <- EE in N. rewrite <- EE. exact (Dy3 N).
      + intros E. destruct (Cl E) as (s2 & x2 & l2 & F2 & M). rewrite F2.
        destruct s2 as [| |c2 m2|].
        * destruct M as (-> & -> & -> & EE). rewrite <- EE. apply Cl3. now rewrite EE.
        * destruct M as (-> & -> & -> & EE). rewrite <- EE. apply Cl3. now rewrite EE.
        * destruct M as (-> & _). discriminate IE.
        * rewrite GB. eexists _, _, _. split; [reflexivity|].
          rewrite Dy3; [exact M|]. destruct M as (-> & _). discriminate.
  Qed.

  (** The current token is consumed if it is the one expected. *)
  Lemma sim_expect {A} n id t l (kt : tokenizer -> rres A) (kf : tokenizer -> rres A)
      (gt : jtok -> list jtok -> bool -> option (tres * A * list jtok)) (gf : bool -> option (tres * A * list jtok)) :
    cur t l -> id <> T_NONE -> id <> T_EOS ->
    (forall t1 k l1, l = k :: l1 -> tid k = id -> cur t1 l1 -> tk_err t1 = tk_err t -> sim (tk_err t) (kt t1) (gt k l1)) ->
    (match l with k :: _ => tid k <> id | [] => True end -> sim (tk_err t) (kf t) gf) ->
    sim (tk_err t)
      (match tk_expect n id t with None => None | Some (true, t1) => kt t1 | Some (false, t1) => kf t1 end)
      (match l with
       | k :: l1 => if tid_eqb (tid k) id then gt k l1 else gf
       | [] => gf
       end).
  Proof.
    intros C N1 N2 ST SF. unfold tk_expect. rewrite (cur_id _ _ _ C N1 N2). destruct l as [|k l]; [now apply SF|].
    destruct (tid_eqb (tid k) id) eqn:E.
    - destruct (tk_next n t) as [t1|] eqn:Nx; [|apply sim_none]. destruct (cur_next _ _ _ _ _ C Nx) as [C1 E1].
      apply ST; auto. now apply tid_eqb_true.
    - apply SF. intros K. rewrite K in E. destruct id; discriminate E.
  Qed.
  (** ** Skipped values *)
  Definition igu (c : option (pgr * tokenizer)) : rres unit :=
    match c with Some (r, t) => Some (r, tt, t) | None => None end.

  Lemma sim_ign_fail m t l : cur t l ->
    sim (tk_err t) (igu (ign_fail m t)) (fun _ => Some (ign_err m, tt, l)).
  Proof. intros C. apply (sim_fail PGERR_IGNORE_FAILED m tt t l C). discriminate. Qed.

  Lemma sim_close n id m t l : cur t l -> id <> T_NONE -> id <> T_EOS ->
    sim (tk_err t)
      (igu match tk_expect n id t with
           | None => None
           | Some (true, t') => Some (PGR_OK, t')
           | Some (false, t') => ign_fail m t'
           end)
      (fun _ => match l with
                | k :: r => if tid_eqb (tid k) id then Some (TOk, tt, r) else Some (ign_err m, tt, l)
                | [] => Some (ign_err m, tt, l)
                end).
  Proof.
    intros C N1 N2. unfold tk_expect. rewrite (cur_id _ _ _ C N1 N2). destruct l as [|k l].
    - now apply sim_ign_fail.
    - destruct (tid_eqb (tid k) id); [|now apply sim_ign_fail].
      destruct (tk_next n t) as [t1|] eqn:Nx; [|apply sim_none]. destruct (cur_next _ _ _ _ _ C Nx) as [C1 E1].
      apply (sim_ret PGR_OK TOk); auto. exact I.
  Qed.

  Lemma sim_ignore n :
    (forall t l, cur t l -> sim (tk_err t) (igu (ignore_value n t)) (fun _ => tign n l)) /\
    (forall t l, cur t l -> sim (tk_err t) (igu (ignore_array_loop n t)) (fun _ => tign_arr n l)) /\
    (forall t l, cur t l -> sim (tk_err t) (igu (ignore_object_loop n t)) (fun _ => tign_obj n l)).
  Proof.
    induction n as [|n (IHv & IHa & IHo)]; [repeat split; intros; apply sim_none|]. split; [|split].
    - intros t l C. pose proof C as (_ & D). cbn [ignore_value tign]. destruct l as [|k l].
      + destruct D as [-> | ->]; now apply sim_ign_fail.
      + destruct D as (-> & _).
        assert (Scalar : sim (tk_err t)
          (igu match tk_next n t with
               | None => None
               | Some t1 => match tk_id t1 with
                            | T_NONE | T_EOS => ign_fail (b "end of stream") t1
                            | _ => Some (PGR_OK, t1)
                            end
               end)
          (fun _ => match l with [] => Some (ign_err (b "end of stream"), tt, l) | _ => Some (TOk, tt, l) end)).
        { destruct (tk_next n t) as [t1|] eqn:Nx; [|apply sim_none]. destruct (cur_next _ _ _ _ _ C Nx) as [C1 <-].
          pose proof C1 as (_ & D1). destruct l as [|k1 l].
          - destruct D1 as [-> | ->]; now apply sim_ign_fail.
          - destruct D1 as (-> & _).
            destruct k1; (apply (sim_ret PGR_OK TOk); [exact C1|reflexivity|exact I|reflexivity]). }
        assert (Bad : sim (tk_err t) (igu (ign_fail (b "invalid value") t))
                          (fun _ => Some (ign_err (b "invalid value"), tt, k :: l))) by now apply sim_ign_fail.
        destruct k; cbn [tid]; try exact Scalar; try exact Bad.
        * destruct (tk_next n t) as [t1|] eqn:Nx; [|apply sim_none]. destruct (cur_next _ _ _ _ _ C Nx) as [C1 <-].
          now apply IHo.
        * destruct (tk_next n t) as [t1|] eqn:Nx; [|apply sim_none]. destruct (cur_next _ _ _ _ _ C Nx) as [C1 <-].
          now apply IHa.
    - intros t l C. cbn [ignore_array_loop]. cbv zeta.
      assert (Fin : forall t l, cur t l -> sim (tk_err t)
        (igu match tk_expect n T_ARRE t with
             | None => None
             | Some (true, t') => Some (PGR_OK, t')
             | Some (false, t') => ign_fail (b "invalid array") t'
             end)
        (fun _ => match l with KRBrack :: r => Some (TOk, tt, r) | _ => Some (ign_err (b "invalid array"), tt, l) end)).
      { clear t l C. intros t l C. eapply sim_ext; [|apply (sim_close n T_ARRE); [exact C|discriminate..]].
        intros w0. cbv beta. destruct l as [|[] l]; reflexivity. }
      rewrite (cur_id _ _ T_ARRE C) by discriminate.
      destruct (match l with KRBrack :: _ => true | _ => false end) eqn:Hd.
      + destruct l as [|[] l]; try discriminate Hd. cbn [tid tid_eqb]. eapply sim_ext; [|apply Fin; exact C].
        reflexivity.
      + replace (match l with k :: _ => tid_eqb (tid k) T_ARRE | [] => false end) with false
          by (destruct l as [|[] l]; try discriminate Hd; reflexivity).
        set (K := fun (r : pgr) (_ : unit) t1 => igu match r with
              | PGR_OK => match tk_expect n T_COMMA t1 with
                          | None => None
                          | Some (true, t2) => ignore_array_loop n t2
                          | Some (false, t2) => match tk_expect n T_ARRE t2 with
                                                | None => None
                                                | Some (true, t') => Some (PGR_OK, t')
                                                | Some (false, t') => ign_fail (b "invalid array") t'
                                                end
                          end
              | _ => Some (r, t1)
              end).
        set (G := fun (_ : bool) s (_ : unit) l1 => match s with
              | TOk => match l1 with
                       | KComma :: l2 => tign_arr n l2
                       | KRBrack :: l2 => Some (TOk, tt, l2)
                       | _ => Some (ign_err (b "invalid array"), tt, l1)
                       end
              | _ => Some (s, tt, l1)
              end).
        pose proof (sim_bind (tk_err t) (igu (ignore_value n t)) (fun _ => tign n l) K G (fun _ => tt)) as SB.
        assert (SB' : sim (tk_err t)
           match igu (ignore_value n t) with None => None | Some (r, x, t1) => K r x t1 end
           (fun w => match tign n l with None => None | Some (s, x, l) => G w s x l end)).
        { apply SB; try reflexivity; [now apply IHv|]. clear SB.
          intros r s [] t1 l1 R NE C1 F1. unfold K, G.
          destruct r, s; try contradiction; try congruence.
          - unfold tk_expect at 1. rewrite (cur_id _ _ T_COMMA C1) by discriminate.
            destruct (match l1 with KComma :: _ => true | _ => false end) eqn:Hc.
            + destruct l1 as [|[] l1]; try discriminate Hc. cbn [tid tid_eqb].
              destruct (tk_next n t1) as [t2|] eqn:Nx; [|apply sim_none]. destruct (cur_next _ _ _ _ _ C1 Nx) as [C2 <-].
              now apply IHa.
            + replace (match l1 with k :: _ => tid_eqb (tid k) T_COMMA | [] => false end) with false
                by (destruct l1 as [|[] l1]; try discriminate Hc; reflexivity).
              eapply sim_ext; [|apply Fin; exact C1]. intros w0. cbv beta. destruct l1 as [|[] l1]; try discriminate Hc; reflexivity.
          - apply (sim_ret PGR_NIL TNil); auto. }
        clear SB. revert SB'. unfold K, G. clear K G.
        assert (TA : tign_arr (S n) l = match tign n l with
          | None => None
          | Some (s, x, l1) => match s with
              | TOk => match l1 with
                       | KComma :: l2 => tign_arr n l2
                       | KRBrack :: l2 => Some (TOk, tt, l2)
                       | _ => Some (ign_err (b "invalid array"), tt, l1)
                       end
              | _ => Some (s, tt, l1)
              end
          end).
        { rewrite tign_arr_S. destruct l as [|[] l]; try discriminate Hd;
            (destruct (tign n _) as [[[[] []] l1]|]; reflexivity). }
        intros SB. eapply sim_ext; [intros w; symmetry; exact TA|]. clear TA.
        destruct (ignore_value n t) as [[[] t1]|]; exact SB.
    - intros t l C. cbn [ignore_object_loop]. cbv zeta.
      assert (Fin : forall t l, cur t l -> sim (tk_err t)
        (igu match tk_expect n T_OBJE t with
             | None => None
             | Some (true, t') => Some (PGR_OK, t')
             | Some (false, t') => ign_fail (b "invalid object") t'
             end)
        (fun _ => match l with KRBrace :: r => Some (TOk, tt, r) | _ => Some (ign_err (b "invalid object"), tt, l) end)).
      { clear t l C. intros t l C. eapply sim_ext; [|apply (sim_close n T_OBJE); [exact C|discriminate..]].
        intros w0. cbv beta. destruct l as [|[] l]; reflexivity. }
      rewrite (cur_id _ _ T_OBJE C) by discriminate.
      destruct (match l with KRBrace :: _ => true | _ => false end) eqn:Hd.
      { destruct l as [|[] l]; try discriminate Hd. cbn [tid tid_eqb]. eapply sim_ext; [|apply Fin; exact C].
        reflexivity. }
      replace (match l with k :: _ => tid_eqb (tid k) T_OBJE | [] => false end) with false
        by (destruct l as [|[] l]; try discriminate Hd; reflexivity).
      unfold tk_expect at 1. rewrite (cur_id _ _ T_STRING C) by discriminate.
      destruct (match l with KStr _ :: _ => true | _ => false end) eqn:Hs.
      2:{ replace (match l with k :: _ => tid_eqb (tid k) T_STRING | [] => false end) with false
            by (destruct l as [|[] l]; try discriminate Hs; reflexivity).
          eapply sim_ext; [|apply (sim_ign_fail (b "expected field name")); exact C].
          intros w0. cbv beta. destruct l as [|[] l]; try discriminate Hs; try discriminate Hd; reflexivity. }
      destruct l as [|[] l]; try discriminate Hs. cbn [tid tid_eqb].
      destruct (tk_next n t) as [t1|] eqn:Nx; [|apply sim_none]. destruct (cur_next _ _ _ _ _ C Nx) as [C1 <-].
      clear t C Nx Hd Hs. unfold tk_expect at 1. rewrite (cur_id _ _ T_COLON C1) by discriminate.
      destruct (match l with KColon :: _ => true | _ => false end) eqn:Hs.
      2:{ replace (match l with k :: _ => tid_eqb (tid k) T_COLON | [] => false end) with false
            by (destruct l as [|[] l]; try discriminate Hs; reflexivity).
          eapply sim_ext; [|apply (sim_ign_fail (b "expected colon")); exact C1].
          intros w0. cbv beta. destruct l as [|[] l]; try discriminate Hs; reflexivity. }
      destruct l as [|[] l]; try discriminate Hs. cbn [tid tid_eqb].
      destruct (tk_next n t1) as [t|] eqn:Nx; [|apply sim_none]. destruct (cur_next _ _ _ _ _ C1 Nx) as [C <-].
      clear t1 C1 Nx Hs.
      set (K := fun (r : pgr) (_ : unit) t1 => igu match r with
            | PGR_OK => match tk_expect n T_COMMA t1 with
                        | None => None
                        | Some (true, t2) => ignore_object_loop n t2
                        | Some (false, t2) => match tk_expect n T_OBJE t2 with
                                              | None => None
                                              | Some (true, t') => Some (PGR_OK, t')
                                              | Some (false, t') => ign_fail (b "invalid object") t'
                                              end
                        end
            | _ => Some (r, t1)
            end).
      set (G := fun (_ : bool) s (_ : unit) l1 => match s with
            | TOk => match l1 with
                     | KComma :: l2 => tign_obj n l2
                     | KRBrace :: l2 => Some (TOk, tt, l2)
                     | _ => Some (ign_err (b "invalid object"), tt, l1)
                     end
            | _ => Some (s, tt, l1)
            end).
      pose proof (sim_bind (tk_err t) (igu (ignore_value n t)) (fun _ => tign n l) K G (fun _ => tt)) as SB.
      assert (SB' : sim (tk_err t)
         match igu (ignore_value n t) with None => None | Some (r, x, t1) => K r x t1 end
         (fun w => match tign n l with None => None | Some (s, x, l) => G w s x l end)).
      { apply SB; try reflexivity; [now apply IHv|]. clear SB.
        intros r s0 [] t1 l1 R NE C1 F1. unfold K, G.
        destruct r, s0; try contradiction; try congruence.
        - unfold tk_expect at 1. rewrite (cur_id _ _ T_COMMA C1) by discriminate.
          destruct (match l1 with KComma :: _ => true | _ => false end) eqn:Hc.
          + destruct l1 as [|[] l1]; try discriminate Hc. cbn [tid tid_eqb].
            destruct (tk_next n t1) as [t2|] eqn:Nx; [|apply sim_none]. destruct (cur_next _ _ _ _ _ C1 Nx) as [C2 <-].
            now apply IHo.
          + replace (match l1 with k :: _ => tid_eqb (tid k) T_COMMA | [] => false end) with false
              by (destruct l1 as [|[] l1]; try discriminate Hc; reflexivity).
            eapply sim_ext; [|apply Fin; exact C1]. intros w0. cbv beta. destruct l1 as [|[] l1]; try discriminate Hc; reflexivity.
        - apply (sim_ret PGR_NIL TNil); auto. }
      clear SB. revert SB'. unfold K, G. clear K G.
      assert (TA : tign_obj (S n) (KStr s :: KColon :: l) = match tign n l with
        | None => None
        | Some (s, x, l1) => match s with
            | TOk => match l1 with
                     | KComma :: l2 => tign_obj n l2
                     | KRBrace :: l2 => Some (TOk, tt, l2)
                     | _ => Some (ign_err (b "invalid object"), tt, l1)
                     end
            | _ => Some (s, tt, l1)
            end
        end).
      { rewrite tign_obj_S. destruct (tign n _) as [[[[] []] l1]|]; reflexivity. }
      intros SB. eapply sim_ext; [intros w; symmetry; exact TA|]. clear TA.
      destruct (ignore_value n t) as [[[] t1]|]; exact SB.
  Qed.
  (** ** Scalars *)
  Ltac sim_cases C :=
    first [ apply sim_none
          | apply sim_fail; [exact C|discriminate]
          | apply (sim_ret PGR_NIL TNil); [exact C|reflexivity|exact I|reflexivity]
          | apply (sim_ret PGR_OK TOk); [exact C|reflexivity|exact I|reflexivity] ].

  Lemma sim_prim n p t v l : cur t l -> sim (tk_err t) (read_prim n p t v) (fun _ => Some (tprim p v l)).
  Proof.
    intros C. pose proof C as (_ & D). unfold read_prim. destruct l as [|k l].
    - destruct D as [-> | ->]; destruct p; cbn [tprim]; sim_cases C.
    - destruct D as (-> & V & _). rewrite V.
      destruct k; cbn [tid tval]; try (destruct p; cbn [tprim]; sim_cases C).
      + (* a numeral *)
        destruct p; cbn [tprim]; try (sim_cases C);
          (destruct (tk_next n t) as [t1|] eqn:Nx; [|apply sim_none];
           destruct (cur_next _ _ _ _ _ C Nx) as [C1 <-]; sim_cases C1).
      + destruct p; cbn [tprim]; try (sim_cases C).
        destruct (tk_next n t) as [t1|] eqn:Nx; [|apply sim_none].
        destruct (cur_next _ _ _ _ _ C Nx) as [C1 <-]; sim_cases C1.
      + destruct p; cbn [tprim]; try (sim_cases C).
        destruct (tk_next n t) as [t1|] eqn:Nx; [|apply sim_none].
        destruct (cur_next _ _ _ _ _ C Nx) as [C1 <-]; sim_cases C1.
  Qed.

  Lemma sim_bind_eq {A B} e0 (c : rres B) f (c1 : rres A) f1 (k : pgr -> A -> tokenizer -> rres B)
      (g : bool -> tres -> A -> list jtok -> option (tres * B * list jtok)) (h : A -> B) :
    sim e0 c1 f1 ->
    c = match c1 with None => None | Some (r, x, t1) => k r x t1 end ->
    (forall w, f w = match f1 w with None => None | Some (s, x, l) => g w s x l end) ->
    (forall w c m x l, g w (TErr c m) x l = Some (TErr c m, h x, l)) ->
    (forall w x l, g w TBad x l = Some (TBad, h x, l)) ->
    (forall x t1, k PGR_ERROR x t1 = Some (PGR_ERROR, h x, t1)) ->
    (forall r s x t1 l1, res_of r s -> r <> PGR_ERROR -> cur t1 l1 -> f1 false = Some (s, x, l1) ->
       sim (tk_err t1) (k r x t1) (fun w => g w s x l1)) ->
    sim e0 c f.
  Proof.
    intros S1 -> F GE GB KE S2. eapply sim_ext; [intros w; symmetry; apply F|]. eapply sim_bind; eauto.
  Qed.

  Lemma sim_field n p t e v l : cur t l ->
    sim (tk_err t) (read_fieldnum n p t e v) (fun _ => Some (tfield p e v l)).
  Proof.
    intros C. eapply (sim_bind_eq (tk_err t) _ _ (read_prim n p t (pzero p)) (fun _ => Some (tprim p (pzero p) l))
      (fun r x t1 => match r with PGR_NIL => Some (PGR_NIL, VField e v, t1) | _ => Some (r, VField false x, t1) end)
      (fun _ s x l1 => match s with TNil => Some (TNil, VField e v, l1) | _ => Some (s, VField false x, l1) end)
      (fun x => VField false x)); try reflexivity; [now apply sim_prim|..].
    all: try (unfold read_fieldnum; destruct (read_prim n p t (pzero p)) as [[[[] x] t1]|]; reflexivity).
    - intros w. unfold tfield. destruct (tprim p (pzero p) l) as [[[] x] l1]; reflexivity.
    - intros r s x t1 l1 R NE C1 _. destruct r, s; try contradiction; try congruence; sim_cases C1.
  Qed.

  Lemma sim_map {A B} (F : A -> B) e0 c f : sim e0 c f -> sim e0 (rmap F c) (fun w => tmap F (f w)).
  Proof.
    intros S. eapply (sim_bind_eq e0 _ _ c f (fun r x t => Some (r, F x, t)) (fun _ s x l => Some (s, F x, l)) F S);
      try reflexivity. intros r s x t1 l1 R NE C1 _. destruct r, s; try contradiction; try congruence; sim_cases C1.
  Qed.

  Lemma sim_str n t e v l : cur t l -> sim (tk_err t) (read_strfield n t e v) (fun _ => Some (tstr l)).
  Proof.
    intros C. pose proof C as (_ & D). unfold read_strfield, read_string, tk_expect.
    assert (Bad : forall id, id <> T_NIL -> id <> T_STRING -> tk_id t = id ->
      sim (tk_err t) match (match tk_id t with
           | T_NIL => Some (PGR_NIL, [], t)
           | _ => match (if tid_eqb (tk_id t) T_STRING then match tk_next n t with Some t' => Some (true, t') | None => None end
                         else Some (false, t)) with
                  | Some (true, t1) => Some (PGR_OK, t_val (tk_cur t), t1)
                  | Some (false, t1) => rfail PGERR_INVALID_VALUE (b "invalid string value") [] t1
                  | None => None
                  end
           end) with
         | Some (r, temp, t1) =>
             let is_nil := match r with PGR_NIL => true | _ => false end in
             let '(null', s') := sf_assign_string temp (sf_set_empty is_nil (e, v)) in Some (r, VStr null' s', t1)
         | None => None
         end (fun _ => Some (TErr PGERR_INVALID_VALUE (b "invalid string value"), VStr false [], l))).
    { intros id N1 N2 ->. destruct id; try congruence;
        (apply (sim_fail PGERR_INVALID_VALUE (b "invalid string value") (VStr false []) t l C); discriminate). }
    destruct l as [|k l].
    - destruct D as [K|K]; (eapply Bad; [| |exact K]; discriminate).
    - destruct D as (K & V & _). destruct k; try (eapply Bad; [| |exact K]; discriminate).
      + rewrite K, V. cbn [tid tval tid_eqb tstr].
        destruct (tk_next n t) as [t1|] eqn:Nx; [|apply sim_none].
        destruct (cur_next _ _ _ _ _ C Nx) as [C1 <-]; sim_cases C1.
      + rewrite K. cbn [tid tstr]. sim_cases C.
  Qed.

  Lemma sim_b64 n t v l : cur t l -> sim (tk_err t) (read_b64 n t v) (fun w => Some (tb64 w v l)).
  Proof.
    intros C. pose proof C as (_ & D). unfold read_b64. destruct l as [|k l].
    - destruct D as [-> | ->]; cbn [tb64]; sim_cases C.
    - destruct D as (-> & V & NN & _). destruct k; cbn [tid tb64]; try sim_cases C.
      rewrite V. cbn [tval]. rewrite cstr_id by exact NN.
      destruct (tk_next n t) as [t1|] eqn:Nx; [|apply sim_none]. destruct (cur_next _ _ _ _ _ C Nx) as [C1 <-].
      destruct (b64_decode s) as [o bad]. destruct bad; cbn [andb]; [|sim_cases C1].
      intros r x t' H. injection H as <- <- <-. exists TOk, l. split; [reflexivity|]. split; [exact I|].
      assert (C2 : cur (tk_error PGERR_INVALID_OBJECT (b "invalid base64 data") t1) l).
      { unfold tk_error. destruct (e_code (tk_err t1)); exact C1. }
      split; [exact C2|]. unfold tk_error. split.
      + intros N. destruct (e_code (tk_err t1)) eqn:E; (reflexivity || congruence).
      + intros E. rewrite E. eexists _, _, _. split; [reflexivity|]. cbv iota.
        destruct C1 as (P & _). repeat split; auto. discriminate.
  Qed.

  (** ** Arrays *)
  Definition rd_sim (n : nat) (ty0 : ty) : Prop := forall t v l, shape ty0 v = true -> cur t l ->
    sim (tk_err t) (read n ty0 t v) (fun w => tread w n ty0 v l).

  Lemma sim_close_rd {A} n nf id (k : jtok) c m t l (x : A) (y : tokenizer -> rres A) yl :
    cur t l -> tid k = id -> c <> PGERR_OK -> (forall k', tid k' = T_COMMA -> k' = KComma) ->
    (forall k', tid k' = id -> k' = k) -> k <> KComma ->
    (forall t1 l1, cur t1 l1 -> sim (tk_err t1) (y t1) (yl l1)) ->
    sim (tk_err t)
      match tk_expect nf T_COMMA t with
      | None => None
      | Some (true, t2) => y t2
      | Some (false, t2) =>
          match tk_expect n id t2 with
          | None => None
          | Some (true, t3) => Some (PGR_OK, x, t3)
          | Some (false, t3) => rfail c m x t3
          end
      end
      (fun w => match l with
                | KComma :: l2 => yl l2 w
                | k' :: l2 => if tid_eqb (tid k') id then Some (TOk, x, l2) else Some (TErr c m, x, l)
                | [] => Some (TErr c m, x, l)
                end).
  Proof.
    intros C TI NC UC UK NK Y. unfold tk_expect. rewrite (cur_id _ _ T_COMMA C) by discriminate.
    destruct l as [|k0 l].
    - rewrite (cur_id _ _ id C) by (subst id; destruct k; discriminate). now apply sim_fail.
    - destruct (tid_eqb (tid k0) T_COMMA) eqn:E1.
      + apply tid_eqb_true in E1. apply UC in E1. subst k0.
        destruct (tk_next nf t) as [t1|] eqn:Nx; [|apply sim_none]. destruct (cur_next _ _ _ _ _ C Nx) as [C1 <-].
        eapply sim_ext; [|apply Y; exact C1]. reflexivity.
      + rewrite (cur_id _ _ id C) by (subst id; destruct k; discriminate).
        destruct (tid_eqb (tid k0) id) eqn:E2.
        * destruct (tk_next n t) as [t1|] eqn:Nx; [|apply sim_none]. destruct (cur_next _ _ _ _ _ C Nx) as [C1 <-].
          eapply sim_ext; [|apply (sim_ret PGR_OK TOk x t1 l); [exact C1|reflexivity|exact I|reflexivity]].
          intros w. cbv beta. destruct k0; try discriminate E1; reflexivity.
        * eapply sim_ext; [|apply (sim_fail c m x t (k0 :: l) C NC)].
          intros w. cbv beta. destruct k0; try discriminate E1; reflexivity.
  Qed.

  Lemma sim_array_loop nf ty0 : rd_sim nf ty0 -> forall n t acc l, cur t l ->
    sim (tk_err t) (array_loop n nf (read nf ty0) (dflt ty0) t acc)
        (fun w => tarr n (tread w nf ty0) (dflt ty0) acc l).
  Proof.
    intros RD. induction n as [|n IH]; intros t acc l C; [apply sim_none|].
    eapply (sim_bind_eq (tk_err t) _ _ (read nf ty0 t (dflt ty0)) (fun w => tread w nf ty0 (dflt ty0) l)
      (fun r x t1 => match r with
         | PGR_ERROR => Some (PGR_ERROR, acc, t1)
         | _ => match tk_expect nf T_COMMA t1 with
                | None => None
                | Some (true, t2) => array_loop n nf (read nf ty0) (dflt ty0) t2
                                       (match r with PGR_OK => acc ++ [x] | _ => acc end)
                | Some (false, t2) =>
                    match tk_expect nf T_ARRE t2 with
                    | None => None
                    | Some (true, t3) => Some (PGR_OK, match r with PGR_OK => acc ++ [x] | _ => acc end, t3)
                    | Some (false, t3) => rfail PGERR_INVALID_ARRAY (b "invalid array")
                                            (match r with PGR_OK => acc ++ [x] | _ => acc end) t3
                    end
                end
         end)
      (fun w s x l1 => match s with
         | TErr c m => Some (TErr c m, acc, l1)
         | TBad => Some (TBad, acc, l1)
         | _ => match l1 with
                | KComma :: l2 => tarr n (tread w nf ty0) (dflt ty0) (match s with TOk => acc ++ [x] | _ => acc end) l2
                | KRBrack :: l2 => Some (TOk, match s with TOk => acc ++ [x] | _ => acc end, l2)
                | _ => Some (TErr PGERR_INVALID_ARRAY (b "invalid array"), match s with TOk => acc ++ [x] | _ => acc end, l1)
                end
         end)
      (fun _ => acc)); try reflexivity.
    - apply RD; [apply dflt_shape|exact C].
    - intros r s x t1 l1 R NE C1 _.
      assert (Cl : forall acc1, sim (tk_err t1)
        match tk_expect nf T_COMMA t1 with
        | None => None
        | Some (true, t2) => array_loop n nf (read nf ty0) (dflt ty0) t2 acc1
        | Some (false, t2) =>
            match tk_expect nf T_ARRE t2 with
            | None => None
            | Some (true, t3) => Some (PGR_OK, acc1, t3)
            | Some (false, t3) => rfail PGERR_INVALID_ARRAY (b "invalid array") acc1 t3
            end
        end
        (fun w => match l1 with
           | KComma :: l2 => tarr n (tread w nf ty0) (dflt ty0) acc1 l2
           | KRBrack :: l2 => Some (TOk, acc1, l2)
           | _ => Some (TErr PGERR_INVALID_ARRAY (b "invalid array"), acc1, l1)
           end)).
      { intros acc1. eapply sim_ext.
        2:{ apply (sim_close_rd nf nf T_ARRE KRBrack PGERR_INVALID_ARRAY (b "invalid array") t1 l1 acc1 _
              (fun l2 w => tarr n (tread w nf ty0) (dflt ty0) acc1 l2)); try exact C1; try discriminate; try reflexivity;
              try (intros [] KK; (discriminate KK || reflexivity)).
            intros t2 l2 C2. apply IH. exact C2. }
        intros w. cbv beta. destruct l1 as [|[] l1]; reflexivity. }
      destruct r, s; try contradiction; try congruence; apply Cl.
  Qed.

  Lemma sim_array n ty0 t acc l : rd_sim n ty0 -> cur t l ->
    sim (tk_err t) (read_array n (read n ty0) (dflt ty0) t acc)
        (fun w => tarray n (tread w n ty0) (dflt ty0) acc l).
  Proof.
    intros RD C. pose proof C as (_ & D). unfold read_array, tarray.
    assert (Bad : forall id, id <> T_NIL -> id <> T_ARRS -> tk_id t = id ->
      sim (tk_err t) (match tk_id t with
         | T_NIL => Some (PGR_NIL, acc, t)
         | _ => match tk_expect n T_ARRS t with
                | None => None
                | Some (false, t1) => rfail PGERR_INVALID_ARRAY (b "invalid array") acc t1
                | Some (true, t1) =>
                    match tk_expect n T_ARRE t1 with
                    | None => None
                    | Some (true, t2) => Some (PGR_OK, acc, t2)
                    | Some (false, t2) => array_loop n n (read n ty0) (dflt ty0) t2 acc
                    end
                end
         end) (fun _ => Some (TErr PGERR_INVALID_ARRAY (b "invalid array"), acc, l))).
    { intros id N1 N2 E. unfold tk_expect. rewrite E. destruct id; try congruence; sim_cases C. }
    destruct l as [|k l].
    - destruct D as [K|K]; (eapply Bad; [| |exact K]; discriminate).
    - destruct D as (K & V & _). destruct k; try (eapply Bad; [| |exact K]; discriminate).
      + clear Bad. rewrite K. cbn [tid]. unfold tk_expect at 1. rewrite K. cbn [tid tid_eqb].
        destruct (tk_next n t) as [t1|] eqn:Nx; [|apply sim_none]. destruct (cur_next _ _ _ _ _ C Nx) as [C1 <-].
        clear t C Nx K V. unfold tk_expect. rewrite (cur_id _ _ T_ARRE C1) by discriminate.
        destruct (match l with KRBrack :: _ => true | _ => false end) eqn:Hd.
        * destruct l as [|[] l]; try discriminate Hd. cbn [tid tid_eqb].
          destruct (tk_next n t1) as [t2|] eqn:Nx; [|apply sim_none]. destruct (cur_next _ _ _ _ _ C1 Nx) as [C2 <-].
          sim_cases C2.
        * replace (match l with k :: _ => tid_eqb (tid k) T_ARRE | [] => false end) with false
            by (destruct l as [|[] l]; try discriminate Hd; reflexivity).
          eapply sim_ext; [|apply sim_array_loop; [exact RD|exact C1]].
          intros w. cbv beta. destruct l as [|[] l]; try discriminate Hd; reflexivity.
      + rewrite K. cbn [tid]. sim_cases C.
  Qed.

  (** ** Messages *)
  Section Messages.
    Context (nf : nat) (ms : list ty) (g : gencode)
            (RD : Forall (rd_sim nf) ms) (LO : forall name, select_member g name = member_named (g_write g) name)
            (LOs : Forall lookup_ok ms).

    Lemma sim_member name t vs l : shapes ms vs -> cur t l ->
      sim (tk_err t) (read_member g (map (read nf) ms) name t vs)
          (fun w => tmember g (map (tread w nf) ms) name vs l).
    Proof.
      intros SV C. unfold read_member, tmember.
      destruct (select_member g name) as [k|]; [|sim_cases C].
      rewrite nth_error_map. destruct (nth_error ms k) as [ty0|] eqn:M.
      - cbn [option_map]. destruct (Forall2_nth_error _ _ _ _ _ SV M) as (v & V & Sv). rewrite V.
        rewrite Forall_forall in RD. specialize (RD _ (nth_error_In _ _ M) t v l Sv C).
        eapply (sim_bind_eq (tk_err t) _ _ _ _ (fun r x t1 => Some (r, set_nth k x vs, t1))
                 (fun _ s x l1 => Some (s, set_nth k x vs, l1)) (fun x => set_nth k x vs) RD); try reflexivity.
        + intros w. rewrite nth_error_map, M. reflexivity.
        + intros r s x t1 l1 R NE C1 _. destruct r, s; try contradiction; try congruence; sim_cases C1.
      - eapply sim_ext; [|apply (sim_ret PGR_NIL TNil vs t l); [exact C|reflexivity|exact I|reflexivity]].
        intros w. cbv beta. rewrite nth_error_map, M. reflexivity.
    Qed.

    Definition cvalue name t vs : rres (list val) :=
      match read_member g (map (read nf) ms) name t vs with
      | None => None
      | Some (PGR_NIL, vs1, t3) =>
          match ignore_value nf t3 with None => None | Some (r, t4) => Some (r, vs1, t4) end
      | Some (r, vs1, t3) => Some (r, vs1, t3)
      end.

    Lemma sim_value name t vs l : shapes ms vs -> cur t l ->
      sim (tk_err t) (cvalue name t vs) (fun w => tvalue nf (tmember g (map (tread w nf) ms)) name vs l).
    Proof.
      intros SV C.
      eapply (sim_bind_eq (tk_err t) _ _ _ _
        (fun r vs1 t3 => match r with
           | PGR_NIL => match ignore_value nf t3 with None => None | Some (r, t4) => Some (r, vs1, t4) end
           | _ => Some (r, vs1, t3)
           end)
        (fun _ s vs1 l1 => match s with
           | TNil => match tign nf l1 with None => None | Some (r, _, l2) => Some (r, vs1, l2) end
           | _ => Some (s, vs1, l1)
           end) (fun x => x) (sim_member name t vs l SV C)); try reflexivity.
      - intros w. unfold tvalue. destruct (tmember g (map (tread w nf) ms) name vs l) as [[[[] x] l1]|]; reflexivity.
      - intros r s x t1 l1 R NE C1 _. destruct r, s; try contradiction; try congruence; [sim_cases C1|].
        pose proof (proj1 (sim_ignore nf) t1 l1 C1) as SI.
        eapply (sim_bind_eq (tk_err t1) _ _ _ _ (fun r (_ : unit) t4 => Some (r, x, t4)) (fun _ s (_ : unit) l2 => Some (s, x, l2))
                 (fun _ => x) SI); try reflexivity.
        + destruct (ignore_value nf t1) as [[r2 t4]|]; reflexivity.
        + intros r s [] t2 l2 R2 NE2 C2 _. destruct r, s; try contradiction; try congruence; sim_cases C2.
    Qed.

    Lemma sim_object_loop : forall n t vs l, shapes ms vs -> cur t l ->
      sim (tk_err t) (object_loop n nf (read_member g (map (read nf) ms)) t vs)
          (fun w => tobj n nf (tmember g (map (tread w nf) ms)) vs l).
    Proof.
      induction n as [|n IH]; intros t vs l SV C; [apply sim_none|].
      cbn [object_loop]. cbv zeta. unfold tk_expect at 1. rewrite (cur_id _ _ T_STRING C) by discriminate.
      destruct (match l with KStr _ :: _ => true | _ => false end) eqn:Hs.
      2:{ replace (match l with k :: _ => tid_eqb (tid k) T_STRING | [] => false end) with false
            by (destruct l as [|[] l]; try discriminate Hs; reflexivity).
          eapply sim_ext; [|apply (sim_fail PGERR_INVALID_NAME (b "object key must be string") vs t l C); discriminate].
          intros w. cbv beta. rewrite tobj_S. destruct l as [|[] l]; try discriminate Hs; reflexivity. }
      destruct l as [|[] l]; try discriminate Hs. clear Hs. rename s into name. cbn [tid tid_eqb].
      pose proof C as (_ & _ & V & _). rewrite V. cbn [tval]. clear V.
      destruct (tk_next nf t) as [t1|] eqn:Nx; [|apply sim_none]. destruct (cur_next _ _ _ _ _ C Nx) as [C1 <-].
      clear t C Nx. unfold tk_expect at 1. rewrite (cur_id _ _ T_COLON C1) by discriminate.
      destruct (match l with KColon :: _ => true | _ => false end) eqn:Hs.
      2:{ replace (match l with k :: _ => tid_eqb (tid k) T_COLON | [] => false end) with false
            by (destruct l as [|[] l]; try discriminate Hs; reflexivity).
          eapply sim_ext; [|apply (sim_fail PGERR_INVALID_SEPARATOR (b "field name and value must be separated by ':'") vs t1 l C1); discriminate].
          intros w. cbv beta. rewrite tobj_S. destruct l as [|[] l]; try discriminate Hs; reflexivity. }
      destruct l as [|[] l]; try discriminate Hs. clear Hs. cbn [tid tid_eqb].
      destruct (tk_next nf t1) as [t|] eqn:Nx; [|apply sim_none]. destruct (cur_next _ _ _ _ _ C1 Nx) as [C <-].
      clear t1 C1 Nx.
      eapply (sim_bind_eq (tk_err t) _ _ _ _
        (fun r vs1 t4 => match r with
           | PGR_ERROR => Some (PGR_ERROR, vs1, t4)
           | _ => match tk_expect nf T_COMMA t4 with
                  | None => None
                  | Some (true, t5) => object_loop n nf (read_member g (map (read nf) ms)) t5 vs1
                  | Some (false, t5) =>
                      match tk_expect nf T_OBJE t5 with
                      | None => None
                      | Some (true, t6) => Some (PGR_OK, vs1, t6)
                      | Some (false, t6) => rfail PGERR_INVALID_OBJECT (b "invalid JSON object") vs1 t6
                      end
                  end
           end)
        (fun w s vs1 l1 => match s with
           | TOk => match l1 with
                    | KComma :: l3 => tobj n nf (tmember g (map (tread w nf) ms)) vs1 l3
                    | KRBrace :: l3 => Some (TOk, vs1, l3)
                    | _ => Some (TErr PGERR_INVALID_OBJECT (b "invalid JSON object"), vs1, l1)
                    end
           | _ => Some (s, vs1, l1)
           end) (fun x => x) (sim_value name t vs l SV C)); try reflexivity.
      - unfold cvalue. destruct (read_member g (map (read nf) ms) name t vs) as [[[[] vs1] t3]|]; try reflexivity.
        destruct (ignore_value nf t3) as [[[] t4]|]; reflexivity.
      - intros w. rewrite tobj_S.
        destruct (tvalue nf (tmember g (map (tread w nf) ms)) name vs l) as [[[[] x] l1]|]; reflexivity.
      - intros r s x t1 l1 R NE C1 F1.
        assert (RR : Forall (rd_run false nf) ms).
        { rewrite Forall_forall in *. intros ty0 H. apply tread_run. auto. }
        pose proof (tvalue_run false nf ms g name vs RR LO SV _ _ _ _ F1) as (p & _ & _ & O).
        destruct r, s; try contradiction; try congruence; [|destruct O as [_ []]].
        assert (SV1 : shapes ms x) by (eapply takes_member_shape; [exact O|exact SV]).
        eapply sim_ext.
        2:{ apply (sim_close_rd nf nf T_OBJE KRBrace PGERR_INVALID_OBJECT (b "invalid JSON object") t1 l1 x _
              (fun l2 w => tobj n nf (tmember g (map (tread w nf) ms)) x l2)); try exact C1; try discriminate; try reflexivity;
              try (intros [] KK; (discriminate KK || reflexivity)).
            intros t2 l2 C2. apply IH; [exact SV1|exact C2]. }
        intros w; cbv beta; destruct l1 as [|[] l1]; reflexivity.
    Qed.

    Lemma sim_object t vs l : shapes ms vs -> cur t l ->
      sim (tk_err t) (read_object nf (read_member g (map (read nf) ms)) t vs)
          (fun w => tobject nf (tmember g (map (tread w nf) ms)) vs l).
    Proof.
      intros SV C. pose proof C as (_ & D). unfold read_object, tobject.
      assert (Bad : forall id, id <> T_NIL -> id <> T_OBJS -> tk_id t = id ->
        sim (tk_err t) (match tk_id t with
           | T_NIL => Some (PGR_NIL, vs, t)
           | _ => match tk_expect nf T_OBJS t with
                  | None => None
                  | Some (false, t1) => rfail PGERR_INVALID_OBJECT (b "objects must start with '{'") vs t1
                  | Some (true, t1) =>
                      match tk_expect nf T_OBJE t1 with
                      | None => None
                      | Some (true, t2) => Some (PGR_OK, vs, t2)
                      | Some (false, t2) => object_loop nf nf (read_member g (map (read nf) ms)) t2 vs
                      end
                  end
           end) (fun _ => Some (TErr PGERR_INVALID_OBJECT (b "objects must start with '{'"), vs, l))).
      { intros id N1 N2 E. unfold tk_expect. rewrite E. destruct id; try congruence; sim_cases C. }
      destruct l as [|k l].
      - destruct D as [K|K]; (eapply Bad; [| |exact K]; discriminate).
      - destruct D as (K & V & _). destruct k; try (eapply Bad; [| |exact K]; discriminate).
        + clear Bad. rewrite K. cbn [tid]. unfold tk_expect at 1. rewrite K. cbn [tid tid_eqb].
          destruct (tk_next nf t) as [t1|] eqn:Nx; [|apply sim_none]. destruct (cur_next _ _ _ _ _ C Nx) as [C1 <-].
          clear t C Nx K V. unfold tk_expect. rewrite (cur_id _ _ T_OBJE C1) by discriminate.
          destruct (match l with KRBrace :: _ => true | _ => false end) eqn:Hd.
          * destruct l as [|[] l]; try discriminate Hd. cbn [tid tid_eqb].
            destruct (tk_next nf t1) as [t2|] eqn:Nx; [|apply sim_none]. destruct (cur_next _ _ _ _ _ C1 Nx) as [C2 <-].
            sim_cases C2.
          * replace (match l with k :: _ => tid_eqb (tid k) T_OBJE | [] => false end) with false
              by (destruct l as [|[] l]; try discriminate Hd; reflexivity).
            eapply sim_ext; [|apply sim_object_loop; [exact SV|exact C1]].
            intros w. cbv beta. destruct l as [|[] l]; try discriminate Hd; reflexivity.
        + rewrite K. cbn [tid]. sim_cases C.
    Qed.
  End Messages.

  Lemma sim_read n ty0 : lookup_ok ty0 -> rd_sim n ty0.
  Proof.
    induction ty0 using ty_ind2; intros LO t v l SV C; destruct v; try discriminate SV; cbn [read tread].
    - apply (sim_map VPrim _ _ _ (sim_prim n p t _ l C)).
    - now apply sim_field.
    - now apply sim_str.
    - now apply sim_b64.
    - apply (sim_map VList _ _ (fun w => tarray n (tread w n ty0) (dflt ty0) l0 l)). apply sim_array; [|exact C].
      now apply IHty0.
    - apply lookup_ok_msg in LO as [LO LOs].
      apply (sim_map VMsg _ _ (fun w => tobject n (tmember g (map (tread w n) ms)) l0 l)). apply sim_object; auto.
      + rewrite Forall_forall in *. intros ty1 Hy. apply H; auto.
      + now apply shape_msg in SV.
  Qed.
End Sim.
