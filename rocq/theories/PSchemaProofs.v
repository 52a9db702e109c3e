(** The parser on the text of a schema (C30, C43). *)
From Verif Require Import Bytes BaseProofs Num SpecNum IntProofs ProtoLex ProtoParse SpecProto SpecSchema PLexProofs PNextProofs PSimProofs PRunProofs PTermProofs.

(** ** Tokens of a laid out list of pieces *)
Definition tok_of (p : piece) (t : token) : Prop := t_code t = code_of p /\ t_value t = value_of p.

Lemma sep_any stray sp : sep stray sp -> sep true sp.
Proof.
  induction 1; [apply sep_nil|now apply sep_blank|now apply sep_line|now apply sep_block|now apply sep_stray].
Qed.

Lemma laid_toks stray ps text next : laid stray ps text next -> forall pre l e, toks (pre ++ text) next l e ->
  exists ts, toks pre (text ++ next) (ts ++ l) e /\ Forall2 tok_of ps ts /\ (length ts <= length text)%nat.
Proof.
  induction 1 as [next|p ps s text next S O M _ IH]; intros pre l e T.
  - rewrite app_nil_r in T. exists []. split; [exact T|]. split; [constructor|cbn; lia].
  - destruct (IH (pre ++ s ++ spelling p) l e) as (ts & A & B & L).
    { unfold bytes in *. repeat rewrite <- app_assoc. repeat rewrite <- app_assoc in T. exact T. }
    pose proof (spelling_pos p O) as L0.
    exists (Tok (code_of p) (value_of p) (fst (npos (pre ++ s))) (snd (npos (pre ++ s))) :: ts). split; [|split].
    + cbn [app]. refine (tk_tok _ _ _ _ (text ++ next) _ _ _ _ A).
      * apply lex_piece; [now rewrite <- !app_assoc|now apply sep_any in S|exact O|exact M].
      * rewrite !app_length. lia.
    + constructor; [split; reflexivity|exact B].
    + cbn [length]. rewrite !app_length. lia.
Qed.

(** ** Options *)
Definition entry_of (o : sopt) (e : oentry) : Prop :=
  o_name e = fst o /\ o_type e = value_type (snd o) /\ o_value e = value_text (snd o).

Lemma last_value_snoc l o n : last_value (l ++ [o]) n = if bytes_eqb (fst o) n then Some (snd o) else last_value l n.
Proof.
  induction l as [|[m v] l IH]; cbn [app last_value].
  - destruct o as [m v]. cbn. now destruct (bytes_eqb m n).
  - rewrite IH. now destruct (bytes_eqb (fst o) n).
Qed.

Lemma find_filter (e : oentry) m n : n <> o_name e ->
  o_find n (filter (fun x => negb (bytes_eqb (o_name x) (o_name e))) m) = o_find n m.
Proof.
  intros N. unfold o_find. induction m as [|x m IH]; [reflexivity|]. cbn [filter find].
  destruct (bytes_eqb (o_name x) (o_name e)) eqn:E; cbn [negb].
  - rewrite IH. destruct (bytes_eqb (o_name x) n) eqn:E2; [|reflexivity].
    apply bytes_eqb_true in E, E2. congruence.
  - cbn [find]. now rewrite IH.
Qed.

Lemma options_nil : options_are [] [].
Proof. intros n. exact I. Qed.

Lemma options_put m l o e : options_are m l -> entry_of o e -> options_are (o_put e m) (l ++ [o]).
Proof.
  intros A (B1 & B2 & B3) n. rewrite last_value_snoc. specialize (A n).
  destruct (bytes_eqb (fst o) n) eqn:E.
  - apply bytes_eqb_true in E. unfold o_put, o_find. cbn [find]. rewrite B1, E, bytes_eqb_refl. rewrite <- E. auto.
  - replace (o_find n (o_put e m)) with (o_find n m); [exact A|]. apply bytes_eqb_false in E.
    unfold o_put. rewrite <- (find_filter e m n) by congruence. unfold o_find at 2. cbn [find]. rewrite B1.
    destruct (bytes_eqb (fst o) n) eqn:E2; [apply bytes_eqb_true in E2; contradiction|]. reflexivity.
Qed.

Lemma code_dotted w : plain_dotted w -> code_of (PcWord w) = KName \/ code_of (PcWord w) = KQName.
Proof.
  intros [D N]. cbn [code_of]. destruct (has_dot w); [now right|]. left.
  destruct (keyword_cases keywords w) as [[A _]|(c & A & _)]; [exact A|].
  rewrite <- keywords_reserved in N. elim N. change w with (fst (w, c)). now apply in_map.
Qed.

Lemma code_member w : member_name w -> name_code (code_of (PcWord w)) = true.
Proof.
  intros [[I N]|[-> | ->]]; [|reflexivity|reflexivity].
  cbn [code_of]. rewrite (ident_no_dot w I).
  destruct (keyword_cases keywords w) as [[A _]|(c & A & _)]; [now rewrite A|].
  rewrite <- keywords_reserved in N. elim N. change w with (fst (w, c)). now apply in_map.
Qed.

Notation LS l e cur u := (PS ((l, e) : lsrc) cur u).

Lemma bind_next B (k : token -> M lsrc B) t l e cur :
  bind (p_next lsrc nxt_list) k (LS (t :: l) e cur false) = k t (LS l e t false).
Proof. reflexivity. Qed.
Lemma bind_next_ung B (k : token -> M lsrc B) s cur :
  bind (p_next lsrc nxt_list) k (PS s cur true) = k cur (PS s cur false).
Proof. reflexivity. Qed.
Lemma bind_unget B (k : unit -> M lsrc B) s cur :
  bind p_unget k (PS s cur false) = k tt (PS s cur true).
Proof. reflexivity. Qed.
Lemma bind_current B (k : token -> M lsrc B) (s : pst lsrc) : bind p_current k s = k (p_cur s) s.
Proof. reflexivity. Qed.
Lemma bind_ok A B (m : M lsrc A) (k : A -> M lsrc B) s a s' : m s = POk (a, s') -> bind m k s = k a s'.
Proof. unfold bind. now intros ->. Qed.

Ltac inv2 H := match type of H with
  | Forall2 _ (_ :: _) _ => let A := fresh "T" in let t := fresh "t" in let ts := fresh "ts" in
      inversion H as [|? t ? ts A ?]; subst; clear H
  | Forall2 _ [] _ => inversion H; subst; clear H
  end.

Lemma value_one v : exists p, value_pieces v = [p] /\ (value_ok v -> option_type (code_of p) = Some (value_type v)) /\ value_of p = value_text v.
Proof.
  destruct v as [[]|w|ds|s]; eexists; (split; [reflexivity|]); split; try reflexivity.
  cbn [value_ok]. intros H. now destruct (code_dotted w H) as [-> | ->].
Qed.

Lemma option_run o t1 ts : Forall2 tok_of (opt_pieces o) (t1 :: ts) -> opt_ok o -> forall l e,
  (forall cur, exists en tl, parse_option lsrc nxt_list (LS ((t1 :: ts) ++ l) e cur false) = POk (en, LS l e tl false) /\ entry_of o en) /\
  (exists en tl, parse_option lsrc nxt_list (LS (ts ++ l) e t1 true) = POk (en, LS l e tl false) /\ entry_of o en).
Proof.
  intros H [Hn Hv] l e. destruct o as [n v]. cbn [fst snd] in *. unfold opt_pieces in H. cbn [fst snd app] in H.
  destruct (value_one v) as (p & E & K1 & K2). rewrite E in H.
  inversion H as [|? ? ? ? [C1 V1] H2]; subst; clear H.
  inversion H2 as [|? t2 ? ? [C2 V2] H3]; subst; clear H2.
  inversion H3 as [|? t3 ? ? [C3 V3] H4]; subst; clear H3. inversion H4; subst; clear H4.
  assert (J : forall s line, (match t_code t1 with
    | KName | KQName => bind (p_next lsrc nxt_list) (fun t2 : token => match t_code t2 with
        | KEqual => bind (p_next lsrc nxt_list) (fun t3 : token => match option_type (t_code t3) with
            | Some ty => ret (OE (t_value t1) ty (t_value t3) line)
            | None => p_throw (b "Invalid option value") end)
        | _ => p_throw (b "Expected '='") end)
    | _ => p_throw (b "Missing option name") end) (LS (t2 :: t3 :: l) e s false) =
    POk (OE n (value_type v) (value_text v) line, LS l e t3 false)).
  { intros s line. rewrite C1. cbn [value_of] in V1.
    assert (C2' : t_code t2 = KEqual) by exact C2.
    destruct (code_dotted n Hn) as [-> | ->]; rewrite bind_next, C2', bind_next, C3, (K1 Hv), V1, V3, K2; reflexivity. }
  split.
  - intros cur. eexists _, _. cbn [app]. unfold parse_option. rewrite bind_current, bind_next. rewrite J.
    split; [reflexivity|]. repeat split.
  - eexists _, _. cbn [app]. unfold parse_option. rewrite bind_current, bind_next_ung. rewrite J.
    split; [reflexivity|]. repeat split.
Qed.

Lemma field_options_end n m s tr : t_code tr = KRbracket ->
  parse_field_options lsrc nxt_list (S n) m (PS s tr true) = POk (m, PS s tr true).
Proof. intros C. cbn [parse_field_options]. rewrite bind_next_ung, C. reflexivity. Qed.

Lemma opt_pieces_cons o : exists w r, opt_pieces o = PcWord w :: r /\ w = fst o.
Proof. destruct o as [w v]. eexists _, _. split; reflexivity. Qed.

Lemma not_rbracket {A} c (x y : A) : (c = KName \/ c = KQName) -> match c with KRbracket => x | _ => y end = y.
Proof. now intros [-> | ->]. Qed.

(** Not empty list of options. *)
Lemma field_options_run opts : opts <> [] -> Forall opt_ok opts -> forall ts, Forall2 tok_of (opts_pieces opts) ts ->
  forall n m l e cur tr seen, (length ts < n)%nat -> t_code tr = KRbracket -> options_are m seen ->
  exists m', parse_field_options lsrc nxt_list n m (LS (ts ++ tr :: l) e cur false) = POk (m', LS l e tr true) /\
    options_are m' (seen ++ opts).
Proof.
  induction opts as [|o opts IH]; intros N O ts H n m l e cur tr seen L C A; [contradiction|]. clear N.
  inversion O as [|? ? O1 O2]; subst.
  assert (P : exists ts1 ts2, ts = ts1 ++ ts2 /\ Forall2 tok_of (opt_pieces o) ts1 /\
    (opts = [] /\ ts2 = [] \/ opts <> [] /\ exists tc ts3, ts2 = tc :: ts3 /\ t_code tc = KComma /\ Forall2 tok_of (opts_pieces opts) ts3)).
  { destruct opts as [|o2 opts].
    - exists ts, []. split; [now rewrite app_nil_r|]. split; [exact H|now left].
    - change (opts_pieces (o :: o2 :: opts)) with (opt_pieces o ++ [PcSym ","] ++ opts_pieces (o2 :: opts)) in H.
      apply Forall2_app_inv_l in H. destruct H as (ts1 & ts2 & H1 & H2 & ->). exists ts1, ts2. split; [reflexivity|].
      split; [exact H1|]. right. split; [discriminate|]. cbn [app] in H2. inversion H2 as [|? tc ? ts3 [C1 _] H3]; subst.
      exists tc, ts3. split; [reflexivity|]. split; [exact C1|exact H3]. }
  destruct P as (ts1 & ts2 & -> & H1 & R). destruct n as [|n]; [lia|]. rewrite app_length in L.
  destruct (opt_pieces_cons o) as (w & r & E & Ew). pose proof H1 as H1'. rewrite E in H1'.
  inversion H1' as [|? t1 ? ts1' [C1 V1] H1'']; subst. clear H1' H1''.
  destruct (option_run o t1 ts1' H1 O1 (ts2 ++ tr :: l) e) as [_ (en & tl & Eo & En)].
  cbn [parse_field_options]. rewrite <- app_assoc. cbn [app]. rewrite bind_next, C1.
  rewrite (not_rbracket (code_of (PcWord (fst o)))) by (apply code_dotted, O1).
  rewrite bind_unget. rewrite (bind_ok _ _ _ _ _ _ _ Eo).
  pose proof (options_put m seen o en A En) as A'.
  destruct R as [(-> & ->)|(N & tc & ts3 & -> & Cc & H3)].
  - cbn [app]. rewrite bind_next, C, bind_unget. cbn [length] in L. destruct n as [|n]; [cbn in L; lia|].
    rewrite field_options_end by exact C. exists (o_put en m). split; [reflexivity|]. exact A'.
  - cbn [app]. rewrite bind_next, Cc.
    destruct (IH N O2 ts3 H3 n (o_put en m) l e tc tr (seen ++ [o])) as (m' & E' & A2); [cbn [length] in L; lia|exact C|exact A'|].
    exists m'. rewrite <- app_assoc in A2. split; [exact E'|exact A2].
Qed.

Lemma standard_option_run o ts : Forall2 tok_of (opt_pieces o ++ [PcSym ";"]) ts -> opt_ok o ->
  forall m l e cur seen, options_are m seen -> exists m' tl, t_code tl = KScolon /\
    parse_standard_option lsrc nxt_list m (LS (ts ++ l) e cur false) = POk (m', LS l e tl false) /\ options_are m' (seen ++ [o]).
Proof.
  intros H O m l e cur seen A. apply Forall2_app_inv_l in H. destruct H as (ts1 & ts2 & H1 & H2 & ->).
  inversion H2 as [|? t ? ? [C _] H3]; subst. inversion H3; subst. clear H2 H3.
  destruct ts1 as [|t1 ts1]; [destruct (opt_pieces_cons o) as (? & ? & E & _); rewrite E in H1; inversion H1|].
  destruct (option_run o t1 ts1 H1 O (t :: l) e) as [Ho _]. destruct (Ho cur) as (en & tl & Eo & En).
  unfold parse_standard_option. rewrite <- app_assoc. cbn [app] in *. rewrite (bind_ok _ _ _ _ _ _ _ Eo), bind_next, C.
  eexists _, _. split; [exact C|]. split; [reflexivity|]. now apply options_put.
Qed.

(** ** Fields *)
Definition field_raw (msgs : list message) (pkg : bytes) (f : field) (s : sfield) : Prop :=
  f_type f = scalar_type (sf_type s) /\
  match sf_type s with
  | SMessage w => f_qname f = full_name pkg w /\ f_ref f = find_message msgs (full_name pkg w)
  | _ => f_qname f = [] /\ f_ref f = None
  end /\
  f_repeated f = match sf_mod s with SRepeated => true | _ => false end /\
  f_optional f = match sf_mod s with SOptional => true | _ => false end /\
  f_name f = sf_name s /\ f_index f = sf_number s /\ options_are (f_options f) (sf_opts s).

Lemma type_qname_full pkg w : type_qname pkg w = full_name pkg w.
Proof. reflexivity. Qed.

Lemma type_run s msgs pkg t : tok_of (PcWord (type_word (sf_type s))) t -> type_ok (sf_type s) -> forall st,
  exists q ref, parse_type (src := lsrc) msgs pkg t st = POk ((scalar_type (sf_type s), q, ref), st) /\
  match sf_type s with
  | SMessage w => q = full_name pkg w /\ ref = find_message msgs (full_name pkg w)
  | _ => q = [] /\ ref = None
  end.
Proof.
  intros [C V] O st. unfold parse_type. rewrite C, V.
  destruct (sf_type s) as [| | | | | | | | | | | | | | |w]; cbn [type_word value_of scalar_type] in *;
    try (eexists _, _; split; [reflexivity|auto]).
  destruct (code_dotted w O) as [-> | ->]; eexists _, _; (split; [reflexivity|auto]).
Qed.

Lemma field_number_dec z : number_ok z -> field_number (dec z) = z.
Proof.
  intros [H _]. unfold field_number. rewrite strtol_dec by (unfold LONG_MIN, LONG_MAX; lia).
  unfold cast_int. change (32 - 1) with 31. rewrite Z.mod_small; lia.
Qed.

Lemma type_not_mod s : type_ok (sf_type s) ->
  match code_of (PcWord (type_word (sf_type s))) with KRepeated | KOptional => False | _ => True end.
Proof.
  destruct (sf_type s) as [| | | | | | | | | | | | | | |w]; intros O; try exact I.
  cbn [type_word]. now destruct (code_dotted w O) as [-> | ->].
Qed.

Lemma modifier_run s tm t : Forall2 tok_of (mod_pieces (sf_mod s)) tm -> tok_of (PcWord (type_word (sf_type s))) t ->
  type_ok (sf_type s) -> forall l e t0 r, tm ++ [t] = t0 :: r ->
  parse_modifier lsrc nxt_list (LS (r ++ l) e t0 false) =
    POk ((t, match sf_mod s with SRepeated => true | _ => false end, match sf_mod s with SOptional => true | _ => false end),
         LS l e t false).
Proof.
  intros H [C V] O l e t0 r E. unfold parse_modifier. destruct (sf_mod s); cbn [mod_pieces] in H; inversion H as [|? tr ? ? [Cr _] H2]; subst.
  - cbn [app] in E. injection E as <- <-. cbn [app]. rewrite bind_current. cbn [p_cur]. pose proof (type_not_mod s O) as N.
    rewrite C. destruct (code_of (PcWord (type_word (sf_type s)))); try contradiction; reflexivity.
  - inversion H2; subst. cbn [app] in E. injection E as <- <-. cbn [app]. rewrite bind_current. cbn [p_cur]. rewrite Cr. reflexivity.
  - inversion H2; subst. cbn [app] in E. injection E as <- <-. cbn [app]. rewrite bind_current. cbn [p_cur]. rewrite Cr. reflexivity.
Qed.

Lemma bracket_run opts ts : Forall2 tok_of (bracket_pieces opts ++ [PcSym ";"]) ts -> Forall opt_ok opts ->
  exists t0 r, ts = t0 :: r /\ forall F l e, (length ts < F)%nat -> exists os tl, t_code tl = KScolon /\
    parse_bracket lsrc nxt_list F t0 (LS (r ++ l) e t0 false) = POk (os, LS l e tl false) /\ options_are os opts.
Proof.
  intros H O. destruct opts as [|o opts].
  - cbn [bracket_pieces app] in H. inversion H as [|? t ? ? [C _] H2]; subst. inversion H2; subst.
    exists t, []. split; [reflexivity|]. intros F l e L. unfold parse_bracket. rewrite C.
    exists [], t. split; [exact C|]. split; [reflexivity|apply options_nil].
  - set (os := o :: opts) in *. assert (N : os <> []) by discriminate.
    change (bracket_pieces os) with ([PcSym "["] ++ opts_pieces os ++ [PcSym "]"]) in H. cbn [app] in H.
    inversion H as [|? t0 ? r [C0 _] H2]; subst. clear H. exists t0, r. split; [reflexivity|]. intros F l e L.
    rewrite <- app_assoc in H2. apply Forall2_app_inv_l in H2. destruct H2 as (ts1 & ts2 & H1 & H2 & ->).
    cbn [app] in H2. inversion H2 as [|? tr ? ? [Cr _] H3]; subst. inversion H3 as [|? ts ? ? [Cs _] H4]; subst. inversion H4; subst.
    assert (Cr' : t_code tr = KRbracket) by exact Cr.
    cbn [length] in L. rewrite app_length in L.
    destruct (field_options_run os N O ts1 H1 F [] (ts :: l) e t0 tr []) as (m' & E & A); [lia|exact Cr'|apply options_nil|].
    unfold parse_bracket. rewrite C0. change (code_of (PcSym "[")) with KLbracket. cbv iota beta.
    rewrite <- app_assoc. cbn [app].
    rewrite (bind_ok _ _ _ _ _ _ _ E), bind_next_ung, Cr', bind_next. exists m', ts. split; [exact Cs|]. split; [reflexivity|exact A].
Qed.

Lemma field_run s ts : Forall2 tok_of (field_pieces s) ts -> field_ok s ->
  exists t0 r, ts = t0 :: r /\ t_code t0 <> KEof /\ t_code t0 <> KEnd /\ t_code t0 <> KOption /\
    forall F msgs pkg fs l e, (length ts < F)%nat -> ~ In (sf_number s) (map f_index fs) ->
    exists f tl, parse_field lsrc nxt_list F msgs pkg fs (LS (r ++ l) e t0 false) = POk (fs ++ [f], LS l e tl false) /\
      field_raw msgs pkg f s.
Proof.
  intros H (Ot & On & Oz & Oo). unfold field_pieces in H.
  apply Forall2_app_inv_l in H. destruct H as (tm & ts2 & Hm & H & ->).
  cbn [app] in H. inversion H as [|? tt ? ? Ht H2]; subst. inversion H2 as [|? tn ? ? [Cn Vn] H3]; subst.
  inversion H3 as [|? te ? ? [Ce _] H4]; subst. inversion H4 as [|? ti ? tb [Ci Vi] H5]; subst.
  clear H H2 H3 H4. destruct (bracket_run _ _ H5 Oo) as (t5 & r5 & -> & B).
  assert (X : exists t0 r, tm ++ [tt] = t0 :: r /\ t_code t0 <> KEof /\ t_code t0 <> KEnd /\ t_code t0 <> KOption).
  { destruct tm as [|t0 tm].
    - exists tt, []. split; [reflexivity|]. destruct Ht as [-> _]. destruct (sf_type s) as [| | | | | | | | | | | | | | |w];
        try (repeat split; discriminate). cbn [type_word]. cbn [type_ok] in Ot.
      destruct (code_dotted w Ot) as [-> | ->]; repeat split; discriminate.
    - exists t0, (tm ++ [tt]). split; [reflexivity|]. destruct (sf_mod s); inversion Hm as [|? ? ? ? [C _] ?]; subst;
        rewrite C; repeat split; discriminate. }
  destruct X as (t0 & r & E & N1 & N2 & N3).
  exists t0, (r ++ tn :: te :: ti :: t5 :: r5). split.
  { change (tt :: tn :: te :: ti :: t5 :: r5) with ([tt] ++ tn :: te :: ti :: t5 :: r5). rewrite app_assoc, E. reflexivity. }
  split; [exact N1|]. split; [exact N2|]. split; [exact N3|].
  intros F msgs pkg fs l e L ND. unfold parse_field.
  pose proof (modifier_run s tm tt Hm Ht Ot (tn :: te :: ti :: t5 :: r5 ++ l) e t0 r E) as M.
  replace ((r ++ tn :: te :: ti :: t5 :: r5) ++ l) with (r ++ tn :: te :: ti :: t5 :: r5 ++ l) by (now rewrite <- app_assoc).
  rewrite (bind_ok _ _ _ _ _ _ _ M).
  destruct (type_run s msgs pkg tt Ht Ot (LS (tn :: te :: ti :: t5 :: r5 ++ l) e tt false)) as (q & ref & T & Q).
  rewrite (bind_ok _ _ _ _ _ _ _ T), bind_next, Cn, (code_member _ On). cbn [negb].
  rewrite bind_next, Ce. change (code_of (PcSym "=")) with KEqual. cbv iota.
  rewrite bind_next, Ci. cbn [code_of]. cbv zeta. rewrite Vi. cbn [value_of]. rewrite field_number_dec by exact Oz.
  replace (bad_number (sf_number s)) with false by (symmetry; apply bad_number_spec; exact Oz).
  rewrite bind_next. destruct (B F l e) as (os & tl & Cl & Eb & A).
  { rewrite app_length in L. cbn [length] in *. lia. }
  rewrite (bind_ok _ _ _ _ _ _ _ Eb), bind_current. cbn [p_cur]. rewrite Cl.
  destruct (find (fun x => f_index x =? sf_number s) fs) as [x|] eqn:Fx.
  { elim ND. apply find_some in Fx. destruct Fx as [I Fx]. apply in_map_iff. exists x. split; [lia|exact I]. }
  eexists _, tl. split; [reflexivity|]. unfold field_raw. cbn. rewrite Vn. cbn [value_of]. auto 10.
Qed.

(** ** Messages *)
Definition body_raw msgs pkg (fs : list field) (os : omap) (items : list sitem) : Prop :=
  Forall2 (field_raw msgs pkg) fs (item_fields items) /\ options_are os (item_opts items).

Lemma item_fields_app l1 l2 : item_fields (l1 ++ l2) = item_fields l1 ++ item_fields l2.
Proof. unfold item_fields. apply flat_map_app. Qed.
Lemma item_opts_app l1 l2 : item_opts (l1 ++ l2) = item_opts l1 ++ item_opts l2.
Proof. unfold item_opts. apply flat_map_app. Qed.

Lemma raw_indexes msgs pkg fs l : Forall2 (field_raw msgs pkg) fs l -> map f_index fs = map sf_number l.
Proof. induction 1 as [|f s fs l (_ & _ & _ & _ & _ & E & _) _ IH]; [reflexivity|]. cbn. now rewrite E, IH. Qed.

Lemma body_run F items : forall ts, Forall2 tok_of (flat_map item_pieces items) ts -> Forall item_ok items ->
  forall n seen msgs pkg fs os l e cur, (length ts < n)%nat -> (length ts < F)%nat ->
  NoDup (map sf_number (item_fields (seen ++ items))) -> body_raw msgs pkg fs os seen ->
  exists n' fs' os' cur', parse_body lsrc nxt_list F n msgs pkg fs os (LS (ts ++ l) e cur false) =
    parse_body lsrc nxt_list F n' msgs pkg fs' os' (LS l e cur' false) /\
    body_raw msgs pkg fs' os' (seen ++ items) /\ (n <= n' + length ts)%nat.
Proof.
  induction items as [|i items IH]; intros ts H O n seen msgs pkg fs os l e cur L LF ND B.
  - inversion H; subst. exists n, fs, os, cur. rewrite app_nil_r. cbn [app length]. split; [reflexivity|]. split; [exact B|lia].
  - inversion O as [|? ? O1 O2]; subst. cbn [flat_map] in H. apply Forall2_app_inv_l in H.
    destruct H as (ts1 & ts2 & H1 & H2 & ->). rewrite app_length in L, LF.
    destruct n as [|n]; [lia|]. destruct B as [B1 B2].
    replace (seen ++ i :: items) with ((seen ++ [i]) ++ items) in * by (now rewrite <- app_assoc).
    destruct i as [s|o]; cbn [item_pieces item_ok] in *.
    + destruct (field_run s ts1 H1 O1) as (t0 & r & -> & N1 & N2 & N3 & R).
      destruct (R F msgs pkg fs (ts2 ++ l) e) as (f & tl & E & W); [lia| |].
      { rewrite (raw_indexes _ _ _ _ B1). rewrite !item_fields_app, !map_app, <- app_assoc in ND.
        intros I. cbn [item_fields flat_map app map] in ND. apply NoDup_remove_2 in ND. apply ND, in_or_app. now left. }
      cbn [length] in *.
      destruct (IH ts2 H2 O2 n (seen ++ [SIField s]) msgs pkg (fs ++ [f]) os l e tl) as (n' & fs' & os' & cur' & E' & B' & L');
        [lia|lia|exact ND| |].
      { split.
        - rewrite item_fields_app. apply Forall2_app; [exact B1|]. constructor; [exact W|constructor].
        - rewrite item_opts_app. cbn. now rewrite app_nil_r. }
      exists n', fs', os', cur'. rewrite <- E'. split; [|split; [exact B'|rewrite app_length; cbn [length]; lia]].
      cbn [parse_body app]. rewrite <- app_assoc. rewrite bind_next.
      destruct (t_code t0); try contradiction; now rewrite (bind_ok _ _ _ _ _ _ _ E).
    + unfold option_pieces in H1. cbn [app] in H1. inversion H1 as [|? t0 ? r [C0 _] H1']; subst.
      destruct (standard_option_run o r H1' O1 os (ts2 ++ l) e t0 (item_opts seen) B2) as (m' & tl & Ct & E & A).
      cbn [length] in *.
      destruct (IH ts2 H2 O2 n (seen ++ [SIOption o]) msgs pkg fs m' l e tl) as (n' & fs' & os' & cur' & E' & B' & L');
        [lia|lia|exact ND| |].
      { split.
        - rewrite item_fields_app. cbn. now rewrite app_nil_r.
        - rewrite item_opts_app. exact A. }
      exists n', fs', os', cur'. rewrite <- E'. split; [|split; [exact B'|rewrite app_length; cbn [length]; lia]].
      cbn [parse_body app]. rewrite <- app_assoc. rewrite bind_next, C0.
      change (code_of (PcWord (b "option"))) with KOption. cbv iota. now rewrite (bind_ok _ _ _ _ _ _ _ E).
Qed.

Definition message_raw (msgs : list message) (m : message) (d : bytes * bytes * list sitem) : Prop :=
  let '(pkg, name, items) := d in
  m_package m = pkg /\ m_name m = name /\ Forall2 (field_raw msgs pkg) (m_fields m) (item_fields items) /\
  options_are (m_options m) (item_opts items).

(** [messages_raw msgs ds]: every message with the ones before it. *)
Inductive messages_raw : list message -> list (bytes * bytes * list sitem) -> Prop :=
  | mr_nil : messages_raw [] []
  | mr_snoc msgs ds m d : messages_raw msgs ds -> message_raw msgs m d -> messages_raw (msgs ++ [m]) (ds ++ [d]).

Lemma decl_run d ts : Forall2 tok_of (decl_pieces d) ts -> decl_ok d ->
  forall F n pkg msgs os l e cur ds seen, (length ts < F)%nat -> messages_raw msgs ds -> options_are os seen ->
  exists msgs' os' cur', parse_proto lsrc nxt_list F (S n) pkg msgs os (LS (ts ++ l) e cur false) =
    parse_proto lsrc nxt_list F n (match d with SDPackage w => w | _ => pkg end) msgs' os' (LS l e cur' false) /\
    messages_raw msgs' (ds ++ messages_of pkg [d]) /\ options_are os' (seen ++ decl_opts [d]).
Proof.
  intros H O F n pkg msgs os l e cur ds seen LF W A. destruct d as [|w|o|name items]; cbn [decl_pieces decl_ok] in *.
  - inversion H as [|? t1 ? ? [C1 _] H2]; subst. inversion H2 as [|? t2 ? ? [C2 _] H3]; subst.
    inversion H3 as [|? t3 ? ? [C3 V3] H4]; subst. inversion H4 as [|? t4 ? ? [C4 V4] H5]; subst. inversion H5; subst.
    exists msgs, os, t4. cbn [messages_of decl_opts flat_map]. rewrite !app_nil_r. split; [|auto].
    cbn [parse_proto app]. rewrite bind_next, C1. change (code_of (PcWord (b "syntax"))) with KSyntax. cbv iota.
    assert (E : parse_syntax lsrc nxt_list (LS (t2 :: t3 :: t4 :: l) e t1 false) = POk (tt, LS l e t4 false)).
    { unfold parse_syntax. rewrite bind_next, C2. change (code_of (PcSym "=")) with KEqual. cbv iota.
      rewrite bind_next, C3. cbn [code_of]. rewrite bind_next, C4, V3. reflexivity. }
    rewrite (bind_ok _ _ _ _ _ _ _ E). unfold bind at 1, p_more. rewrite bind_current. cbn [p_cur]. rewrite C4. reflexivity.
  - inversion H as [|? t1 ? ? [C1 _] H2]; subst. inversion H2 as [|? t2 ? ? [C2 V2] H3]; subst.
    inversion H3 as [|? t3 ? ? [C3 V3] H4]; subst. inversion H4; subst.
    exists msgs, os, t3. cbn [messages_of decl_opts flat_map]. rewrite !app_nil_r. split; [|auto].
    cbn [parse_proto app]. rewrite bind_next, C1. change (code_of (PcWord (b "package"))) with KPackage. cbv iota.
    assert (E : parse_package lsrc nxt_list (LS (t2 :: t3 :: l) e t1 false) = POk (w, LS l e t3 false)).
    { unfold parse_package. rewrite bind_next, C2.
      destruct (code_dotted w O) as [-> | ->]; rewrite bind_next, C3, V2; reflexivity. }
    rewrite (bind_ok _ _ _ _ _ _ _ E). unfold bind at 1, p_more. rewrite bind_current. cbn [p_cur]. rewrite C3. reflexivity.
  - unfold option_pieces in H. cbn [app] in H. inversion H as [|? t0 ? r [C0 _] H1']; subst.
    destruct (standard_option_run o r H1' O os l e t0 seen A) as (m' & tl & Ct & E & A').
    exists msgs, m', tl. cbn [messages_of decl_opts flat_map app]. rewrite !app_nil_r. split; [|auto].
    cbn [parse_proto app]. rewrite bind_next, C0. change (code_of (PcWord (b "option"))) with KOption. cbv iota.
    rewrite (bind_ok _ _ _ _ _ _ _ E). unfold bind at 1, p_more. rewrite bind_current. cbn [p_cur]. rewrite Ct. reflexivity.
  - destruct O as (On & Oi & ND). unfold message_head in H. rewrite <- app_assoc in H. cbn [app] in H.
    inversion H as [|? t1 ? ? [C1 _] H2]; subst. inversion H2 as [|? t2 ? ? [C2 V2] H3]; subst.
    inversion H3 as [|? t3 ? ts3 [C3 V3] H4]; subst. clear H H2 H3.
    apply Forall2_app_inv_l in H4. destruct H4 as (tb & te & H4 & H5 & ->).
    inversion H5 as [|? t4 ? ? [C4 _] H6]; subst. inversion H6; subst. clear H5 H6.
    cbn [length] in LF. rewrite app_length in LF. cbn [length] in LF.
    destruct (body_run F items tb H4 Oi F [] msgs pkg [] [] (t4 :: l) e t3) as (n' & fs' & os' & cur' & E & B & L');
      [lia|lia|exact ND|split; [constructor|apply options_nil]|].
    cbn [app] in B.
    exists (msgs ++ [Msg fs' name pkg os']), os, t4. cbn [messages_of decl_opts flat_map]. rewrite app_nil_r. split; [|split; [|exact A]].
    2:{ apply mr_snoc; [exact W|]. destruct B as [B1 B2]. cbn. auto. }
    cbn [parse_proto app]. rewrite bind_next, C1. change (code_of (PcWord (b "message"))) with KMessage. cbv iota.
    assert (E2 : parse_message lsrc nxt_list F pkg msgs (LS (t2 :: t3 :: (tb ++ [t4]) ++ l) e t1 false) =
      POk (msgs ++ [Msg fs' name pkg os'], LS l e t4 false)).
    { unfold parse_message. rewrite bind_next, C2, (code_member _ On), bind_next, C3.
      change (code_of (PcSym "{")) with KBegin. cbv iota. rewrite <- app_assoc. cbn [app]. unfold bind at 1. rewrite E.
      destruct n' as [|n']; [lia|]. cbn [parse_body]. rewrite bind_next, C4. change (code_of (PcSym "}")) with KEnd. cbv iota.
      unfold ret. rewrite V2. reflexivity. }
    rewrite (bind_ok _ _ _ _ _ _ _ E2). unfold bind at 1, p_more. rewrite bind_current. cbn [p_cur]. rewrite C4. reflexivity.
Qed.

Definition package_after (pkg : bytes) (l : list sdecl) : bytes :=
  fold_left (fun p d => match d with SDPackage w => w | _ => p end) l pkg.

Lemma messages_of_app l1 : forall pkg l2, messages_of pkg (l1 ++ l2) = messages_of pkg l1 ++ messages_of (package_after pkg l1) l2.
Proof.
  induction l1 as [|d l1 IH]; intros pkg l2; [reflexivity|].
  destruct d; cbn [app messages_of package_after fold_left]; rewrite IH; reflexivity.
Qed.

Lemma schema_run decls : forall ts, Forall2 tok_of (schema_pieces decls) ts -> Forall decl_ok decls ->
  forall F n pkg msgs os l e cur ds seen, (length ts < F)%nat -> (length ts < n)%nat -> messages_raw msgs ds -> options_are os seen ->
  exists n' msgs' os' cur', parse_proto lsrc nxt_list F n pkg msgs os (LS (ts ++ l) e cur false) =
    parse_proto lsrc nxt_list F n' (package_after pkg decls) msgs' os' (LS l e cur' false) /\
    messages_raw msgs' (ds ++ messages_of pkg decls) /\ options_are os' (seen ++ decl_opts decls) /\ (n <= n' + length ts)%nat.
Proof.
  induction decls as [|d decls IH]; intros ts H O F n pkg msgs os l e cur ds seen LF L W A.
  - inversion H; subst. exists n, msgs, os, cur. cbn [app messages_of decl_opts flat_map length package_after fold_left].
    rewrite !app_nil_r. split; [reflexivity|]. split; [exact W|]. split; [exact A|lia].
  - inversion O as [|? ? O1 O2]; subst. unfold schema_pieces in H. cbn [flat_map] in H. apply Forall2_app_inv_l in H.
    destruct H as (ts1 & ts2 & H1 & H2 & ->). rewrite app_length in L, LF.
    assert (L1 : (0 < length ts1)%nat).
    { destruct ts1; [|cbn; lia]. inversion H1 as [E|]. destruct d; discriminate E. }
    destruct n as [|n]; [lia|]. rewrite <- app_assoc.
    destruct (decl_run d ts1 H1 O1 F n pkg msgs os (ts2 ++ l) e cur ds seen) as (msgs1 & os1 & cur1 & E1 & W1 & A1); [lia|exact W|exact A|].
    destruct (IH ts2 H2 O2 F n (match d with SDPackage w => w | _ => pkg end) msgs1 os1 l e cur1 _ _ ltac:(lia) ltac:(lia) W1 A1)
      as (n' & msgs' & os' & cur' & E' & W' & A' & L').
    exists n', msgs', os', cur'. rewrite E1, E'. split; [reflexivity|]. split; [|split; [|rewrite app_length; lia]].
    + rewrite <- app_assoc in W'. change (d :: decls) with ([d] ++ decls). rewrite messages_of_app.
      replace (package_after pkg [d]) with (match d with SDPackage w => w | _ => pkg end) by (destruct d; reflexivity). exact W'.
    + rewrite <- app_assoc in A'. unfold decl_opts in *. cbn [flat_map] in *. rewrite app_nil_r in A'. exact A'.
Qed.
