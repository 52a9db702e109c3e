(** The parser follows the machine of SpecReads (C60). *)
From Verif Require Import Bytes BaseProofs Num SpecNum IntProofs ProtoLex ProtoParse SpecProto SpecSchema PLexProofs PNextProofs PSimProofs PRunProofs PTermProofs PSchemaProofs PAcceptProofs SpecReads ReadsCode.

(** Tokens with their positions. *)
Definition pt : Type := piece * Z * Z.
Definition mk (q : pt) : token := let '(p, ln, c) := q in Tok (code_of p) (value_of p) ln c.
Definition okl (l : list pt) : Prop := Forall (fun q => piece_ok (fst (fst q))) l.

(** How the source ends. *)
Inductive ending := EEof (ln c : Z) | EBad (m : bytes) (ln c : Z) | ELoop.
Definition ends_as (y : lsrc) (E : ending) : Prop :=
  match E with
  | EEof ln c => exists y', nxt_list y = POk (Tok KEof [] ln c, y')
  | EBad m ln c => nxt_list y = PThrow m ln c
  | ELoop => nxt_list y = PRuntime
  end.

Inductive xres := XOk (l : list sdecl) | XErr (m : bytes) (ln c : Z) | XLoop.

Definition at_stop (acc : list sdecl) (s : spot) (E : ending) : xres :=
  match E with
  | EEof ln c => match closes s with Some d => XOk (acc ++ d) | None => XErr (complaint s) ln c end
  | EBad m ln c => XErr m ln c
  | ELoop => XLoop
  end.

Fixpoint scan (acc : list sdecl) (s : spot) (l : list pt) (E : ending) : xres :=
  match l with
  | [] => at_stop acc s E
  | (p, ln, c) :: r =>
      match step s p with
      | Go d s' => scan (acc ++ d) s' r E
      | Wrong m => XErr m ln c
      end
  end.

Section Follow.
  Context (l0 : list token) (e0 : tend) (E : ending) (HE : ends_as (l0, e0) E).

  Definition At (l : list pt) (cur : token) (u : bool) : pst lsrc := PS ((map mk l ++ l0, e0) : lsrc) cur u.

  Definition hits {A} (r : pres (A * pst lsrc)) (x : xres) (Q : A -> pst lsrc -> Prop) : Prop :=
    match r with
    | POk (a, st) => Q a st
    | PThrow m ln c => x = XErr m ln c
    | PRuntime => x = XLoop
    | PFuel => False
    end.

  Lemma hits_bind A B (m : M lsrc A) (k : A -> M lsrc B) st x P Q :
    hits (m st) x P -> (forall a st', P a st' -> hits (k a st') x Q) -> hits (bind m k st) x Q.
  Proof. unfold bind. destruct (m st) as [[a st']| | |]; cbn; auto. Qed.

  (** The state before the tokens [l], one of them possibly put back. *)
  Definition pend (l : list pt) (st : pst lsrc) : Prop :=
    (exists cur, st = At l cur false) \/
    (exists q r, l = q :: r /\ st = At r (mk q) true) \/
    (l = [] /\ exists ln c y, E = EEof ln c /\ st = PS y (Tok KEof [] ln c) true).

  Lemma pend_at l cur : pend l (At l cur false).
  Proof. left. exists cur. reflexivity. Qed.

  Lemma next_hits B (k : token -> M lsrc B) l st x Q : pend l st ->
    (forall q r, l = q :: r -> hits (k (mk q) (At r (mk q) false)) x Q) ->
    (forall ln c y, l = [] -> E = EEof ln c -> hits (k (Tok KEof [] ln c) (PS y (Tok KEof [] ln c) false)) x Q) ->
    (forall m ln c, l = [] -> E = EBad m ln c -> x = XErr m ln c) -> (l = [] -> E = ELoop -> x = XLoop) ->
    hits (bind (p_next lsrc nxt_list) k st) x Q.
  Proof.
    intros [(cur & ->)|[(q & r & -> & ->)|(-> & ln & c & y & EE & ->)]] H1 H2 H3 H4.
    - destruct l as [|q r]; [|now apply H1]. unfold bind, p_next, At. cbn [p_ung p_src map app].
      unfold ends_as in HE. destruct E as [ln c|m ln c|].
      + destruct HE as (y' & ->). apply (H2 _ _ y' eq_refl eq_refl).
      + rewrite HE. cbn. now apply H3.
      + rewrite HE. cbn. now apply H4.
    - apply H1. reflexivity.
    - apply H2; auto.
  Qed.

  (** One token. *)
  Lemma next_step acc s l st B (k : token -> M lsrc B) Q : pend l st -> okl l ->
    (forall p ln c r, l = (p, ln, c) :: r -> piece_ok p -> okl r ->
       hits (k (mk (p, ln, c)) (At r (mk (p, ln, c)) false))
         (match step s p with Go d s' => scan (acc ++ d) s' r E | Wrong m => XErr m ln c end) Q) ->
    (forall ln c y, E = EEof ln c -> l = [] ->
       hits (k (Tok KEof [] ln c) (PS y (Tok KEof [] ln c) false))
         (match closes s with Some d => XOk (acc ++ d) | None => XErr (complaint s) ln c end) Q) ->
    hits (bind (p_next lsrc nxt_list) k st) (scan acc s l E) Q.
  Proof.
    intros P O H1 H2. apply (next_hits _ _ l); [exact P|..].
    - intros [[p ln] c] r ->. cbn [scan]. inversion O as [|? ? O1 O2]; subst. now apply H1.
    - intros ln c y -> EE. cbn [scan]. unfold at_stop. rewrite EE. now apply H2.
    - intros m ln c -> EE. cbn [scan]. unfold at_stop. now rewrite EE.
    - intros -> EE. cbn [scan]. unfold at_stop. now rewrite EE.
  Qed.

  Definition short (r l : list pt) : Prop := (length r < length l)%nat /\ okl r.

  Ltac nxt p ln c r El O1 O2 := apply next_step; [first [apply pend_at|eassumption]|eassumption|intros p ln c r El O1 O2|intros ? ? ? _ _; try reflexivity].
  Ltac codes p := unfold mk; cbn [t_code t_value]; destruct (code_of p); try reflexivity.

  (** ** Options *)
  Definition opt_rest (t1 : token) (line : Z) : M lsrc oentry :=
    bind (p_next lsrc nxt_list) (fun t2 => match t_code t2 with
      | KEqual => bind (p_next lsrc nxt_list) (fun t3 => match option_type (t_code t3) with
          | Some ty => ret (OE (t_value t1) ty (t_value t3) line)
          | None => p_throw (b "Invalid option value") end)
      | _ => p_throw (b "Expected '='") end).

  Definition opt_done (acc : list sdecl) (o : outer) (w : bytes) (l : list pt) (x : xres) (en : oentry) (st : pst lsrc) : Prop :=
    exists v r tl, st = At r tl false /\ x = scan acc (AfterOption o (w, v)) r E /\ entry_of (w, v) en /\ short r l.

  Lemma opt_rest_hits acc o w l t1 line cur : okl l -> t_value t1 = w ->
    hits (opt_rest t1 line (At l cur false)) (scan acc (AtOptionIs o w) l E)
      (opt_done acc o w l (scan acc (AtOptionIs o w) l E)).
  Proof.
    intros O V. unfold opt_rest. set (x := scan acc (AtOptionIs o w) l E) at 2.
    assert (X : x = scan acc (AtOptionIs o w) l E) by reflexivity. clearbody x.
    nxt p ln c r El O1 O2. subst l. cbn [step]. rewrite (sym_equal p O1). cbn [scan step] in X. rewrite (sym_equal p O1) in X.
    unfold mk. cbn [t_code]. destruct (code_of p) eqn:C; try reflexivity.
    rewrite app_nil_r in *. nxt q ln2 c2 r2 El P1 P2. subst r.
    pose proof (value_code q P1) as Vq. cbn [step]. unfold mk. cbn [t_code t_value]. cbn [scan step] in X.
    destruct (option_type (code_of q)) as [ty|].
    - destruct Vq as (v & Vq & V1 & V2). rewrite Vq in *. cbn [hits ret]. exists v, r2, (mk (q, ln2, c2)).
      rewrite app_nil_r in X. split; [reflexivity|]. split; [exact X|]. split; [|split; [cbn; lia|exact P2]].
      unfold entry_of. cbn. auto.
    - rewrite Vq. reflexivity.
  Qed.


  Lemma hits_impl A (r : pres (A * pst lsrc)) x (P Q : A -> pst lsrc -> Prop) :
    hits r x P -> (forall a st, P a st -> Q a st) -> hits r x Q.
  Proof. destruct r as [[a st]| | |]; cbn; auto. Qed.

  Lemma option_eq (st : pst lsrc) : parse_option lsrc nxt_list st =
    bind (p_next lsrc nxt_list) (fun t1 => match t_code t1 with
      | KName | KQName => opt_rest t1 (t_line (p_cur st))
      | _ => p_throw (b "Missing option name") end) st.
  Proof. reflexivity. Qed.

  (** Outside fields. *)
  Lemma option_hits acc o l cur : okl l -> match o with InField _ _ _ => False | _ => True end ->
    hits (parse_option lsrc nxt_list (At l cur false)) (scan acc (AtOption o) l E)
      (fun en st => exists w, opt_done acc o w l (scan acc (AtOption o) l E) en st).
  Proof.
    intros O N. rewrite option_eq. generalize (t_line (p_cur (At l cur false))). intros line.
    set (x := scan acc (AtOption o) l E) at 2.
    assert (X : x = scan acc (AtOption o) l E) by reflexivity. clearbody x.
    assert (K : forall p, step (AtOption o) p = match any_name p with Some w => Go [] (AtOptionIs o w) | None => Wrong (complaint (AtOption o)) end).
    { intros p. destruct o; [reflexivity|reflexivity|contradiction]. }
    nxt p ln c r El O1 O2. subst l. cbn [scan] in X. rewrite K, (any_code p O1) in *.
    assert (J : hits (opt_rest (Tok (code_of p) (value_of p) ln c) line (At r (Tok (code_of p) (value_of p) ln c) false))
        (scan (acc ++ []) (AtOptionIs o (value_of p)) r E)
        (fun en st => exists w, opt_done acc o w ((p, ln, c) :: r) (scan (acc ++ []) (AtOptionIs o (value_of p)) r E) en st)).
    { rewrite app_nil_r. eapply hits_impl; [apply opt_rest_hits; [exact O2|reflexivity]|].
      intros en st (v & r' & tl & A1 & A2 & A3 & A4 & A5). exists (value_of p), v, r', tl. repeat split; auto; try apply A3.
      cbn [length]. lia. }
    unfold mk. cbn [t_code]. destruct (code_of p); try reflexivity; rewrite X; exact J.
  Qed.

  (** Inside fields. *)
  Lemma after_as_at acc name items f x l :
    match l with (p, _, _) :: _ => sym "," p = false | [] => True end ->
    scan acc (AfterOption (InField name items f) x) l E = scan acc (AtOption (InField name items (with_option f x))) l E.
  Proof.
    destruct l as [|[[p ln] c] r]; intros H.
    - cbn [scan]. unfold at_stop. reflexivity.
    - cbn [scan step]. rewrite H. destruct (sym "]" p); [reflexivity|]. destruct (any_name p); reflexivity.
  Qed.

  Definition same_field (f f' : sfield) : Prop :=
    sf_mod f' = sf_mod f /\ sf_type f' = sf_type f /\ sf_name f' = sf_name f /\ sf_number f' = sf_number f.

  Lemma field_options_hits acc name items n : forall f m l st, pend l st -> okl l -> (length l < n)%nat ->
    options_are m (sf_opts f) ->
    hits (parse_field_options lsrc nxt_list n m st) (scan acc (AtOption (InField name items f)) l E)
      (fun m' st' => exists f' q r, t_code (mk q) = KRbracket /\ st' = At r (mk q) true /\ scan acc (AtOption (InField name items f)) l E = scan acc (AfterBracket name items f') r E /\ same_field f f' /\ options_are m' (sf_opts f') /\ short r l).
  Proof.
    induction n as [|n IH]; intros f m l st P O L A; [lia|]. cbn [parse_field_options].
    set (x := scan acc (AtOption (InField name items f)) l E) at 2.
    assert (X : x = scan acc (AtOption (InField name items f)) l E) by reflexivity. clearbody x.
    nxt p ln c r El O1 O2. subst l. cbn [length] in L. cbn [scan step] in *.
    rewrite (sym_rb p O1), (any_code p O1) in *.
    assert (J : (code_of p = KName \/ code_of p = KQName) ->
      hits (bind p_unget (fun _ => bind (parse_option lsrc nxt_list) (fun o => bind (p_next lsrc nxt_list) (fun t2 =>
            match t_code t2 with
            | KComma => parse_field_options lsrc nxt_list n (o_put o m)
            | _ => bind p_unget (fun _ => parse_field_options lsrc nxt_list n (o_put o m)) end)))
          (At r (mk (p, ln, c)) false))
        (scan acc (AtOptionIs (InField name items f) (value_of p)) r E)
        (fun m' st' => exists f' q r', t_code (mk q) = KRbracket /\ st' = At r' (mk q) true /\
          scan acc (AtOptionIs (InField name items f) (value_of p)) r E = scan acc (AfterBracket name items f') r' E /\
          same_field f f' /\ options_are m' (sf_opts f') /\ short r' ((p, ln, c) :: r))).
    { intros C. unfold At. rewrite bind_unget. fold (At r (mk (p, ln, c)) true).
      apply (hits_bind _ _ _ _ _ _ (opt_done acc (InField name items f) (value_of p) r (scan acc (AtOptionIs (InField name items f) (value_of p)) r E))).
      { rewrite option_eq. unfold At. rewrite bind_next_ung.
        replace (match t_code (mk (p, ln, c)) with KName | KQName => opt_rest (mk (p, ln, c)) (t_line (p_cur (PS ((map mk r ++ l0, e0) : lsrc) (mk (p, ln, c)) true))) | _ => p_throw (b "Missing option name") end)
          with (opt_rest (mk (p, ln, c)) (t_line (p_cur (PS ((map mk r ++ l0, e0) : lsrc) (mk (p, ln, c)) true)))).
        - apply opt_rest_hits; [exact O2|reflexivity].
        - unfold mk. cbn [t_code]. destruct C as [-> | ->]; reflexivity. }
      intros en st' (v & r1 & tl & -> & X1 & En & L1 & O3). rewrite X1.
      set (f1 := with_option f (value_of p, v)).
      assert (A1 : options_are (o_put en m) (sf_opts f1)) by (apply options_put; assumption).
      assert (Fin : forall l2 st2, pend l2 st2 -> okl l2 -> (length l2 <= length r1)%nat ->
        hits (parse_field_options lsrc nxt_list n (o_put en m) st2) (scan acc (AtOption (InField name items f1)) l2 E)
          (fun m' st' => exists f' q r', t_code (mk q) = KRbracket /\ st' = At r' (mk q) true /\
            scan acc (AtOption (InField name items f1)) l2 E = scan acc (AfterBracket name items f') r' E /\
            same_field f f' /\ options_are m' (sf_opts f') /\ short r' ((p, ln, c) :: r))).
      { intros l2 st2 P2 O4 L2. eapply hits_impl; [apply (IH f1 (o_put en m) l2 st2 P2 O4); [lia|exact A1]|].
        intros m' st' (f' & q & r' & B1 & B2 & B3 & B4 & B5 & B6 & B7). exists f', q, r'. repeat split; auto; try apply B4.
        cbn [length]. lia. }
      destruct r1 as [|[[q ln2] c2] r2].
      - rewrite after_as_at by exact Logic.I. fold f1.
        apply (next_hits _ _ []); [apply pend_at|intros ? ? X0; discriminate X0|..].
        + intros ln2 c2 y _ EE. unfold bind, p_unget. cbn [t_code p_ung p_src p_cur].
          apply Fin; [right; right; split; [reflexivity|exists ln2, c2, y; auto]|constructor|cbn; lia].
        + intros m0 ln2 c2 _ EE. cbn [scan]. unfold at_stop. now rewrite EE.
        + intros _ EE. cbn [scan]. unfold at_stop. now rewrite EE.
      - inversion O3 as [|? ? O5 O6]; subst. cbn [fst] in O5. pose proof (sym_comma q O5) as Sc.
        apply (next_hits _ _ ((q, ln2, c2) :: r2)); [apply pend_at|intros ? ? X0; injection X0 as <- <-|intros ? ? ? X0; discriminate X0|intros ? ? ? X0; discriminate X0|intros X0; discriminate X0].
        assert (Cs : code_of q = KComma \/ sym "," q = false /\ forall T (a b0 : T), match t_code (mk (q, ln2, c2)) with KComma => a | _ => b0 end = b0).
        { unfold mk. cbn [t_code]. rewrite Sc. destruct (code_of q); auto. }
        destruct Cs as [Cs|[Cs Ce]].
        + unfold mk at 1. cbn [t_code]. rewrite Cs in *. cbn [scan step]. rewrite Sc, app_nil_r. fold f1.
          apply Fin; [apply pend_at|exact O6|cbn; lia].
        + rewrite Ce. rewrite after_as_at by exact Cs. fold f1. unfold At. rewrite bind_unget. fold (At r2 (mk (q, ln2, c2)) true).
          apply Fin; [right; left; exists (q, ln2, c2), r2; auto|exact O3|lia]. }
    assert (Cs : code_of p = KRbracket \/ (code_of p = KName \/ code_of p = KQName) \/
      (code_of p <> KRbracket /\ code_of p <> KName /\ code_of p <> KQName)).
    { destruct (code_of p); auto; right; right; repeat split; discriminate. }
    destruct Cs as [C|[C|(C1 & C2 & C3)]].
    - unfold mk. cbn [t_code]. rewrite C in *. rewrite app_nil_r in X. cbn. exists f, (p, ln, c), r. unfold mk. cbn [t_code].
      rewrite C. repeat split; auto.
    - specialize (J C). unfold mk at 1. cbn [t_code]. destruct C as [C|C]; rewrite C in *; rewrite app_nil_r in X |- *; rewrite X; exact J.
    - unfold mk at 1. cbn [t_code]. destruct (code_of p) eqn:C; try contradiction; unfold At; rewrite bind_unget;
        unfold bind; rewrite option_eq, bind_next_ung; unfold mk; cbn [t_code]; rewrite C; reflexivity.
  Qed.

  Lemma next_to acc s l st x B (k : token -> M lsrc B) Q : pend l st -> okl l -> x = scan acc s l E ->
    (forall p ln c r, l = (p, ln, c) :: r -> piece_ok p -> okl r ->
       x = match step s p with Go d s' => scan (acc ++ d) s' r E | Wrong m => XErr m ln c end ->
       hits (k (mk (p, ln, c)) (At r (mk (p, ln, c)) false)) x Q) ->
    (forall ln c y, E = EEof ln c -> l = [] ->
       x = match closes s with Some d => XOk (acc ++ d) | None => XErr (complaint s) ln c end ->
       hits (k (Tok KEof [] ln c) (PS y (Tok KEof [] ln c) false)) x Q) ->
    hits (bind (p_next lsrc nxt_list) k st) x Q.
  Proof.
    intros P O X H1 H2. apply (next_hits _ _ l); [exact P|..].
    - intros [[p ln] c] r El. inversion O as [|? ? O1 O2]; subst; [discriminate|]. injection H as -> ->. apply (H1 p ln c r); auto.
    - intros ln c y -> EE. apply H2; auto. rewrite X. cbn [scan]. unfold at_stop. now rewrite EE.
    - intros m ln c -> EE. rewrite X. cbn [scan]. unfold at_stop. now rewrite EE.
    - intros -> EE. rewrite X. cbn [scan]. unfold at_stop. now rewrite EE.
  Qed.

  Ltac to X acc s l p ln c r El O1 O2 := apply (next_to acc s l); [first [apply pend_at|eassumption]|eassumption|exact X|
    clear X; intros p ln c r El O1 O2 X|clear X; intros ? ? ? _ _ X; cbn [closes complaint] in X; try exact X].

  Lemma standard_hits acc o l cur m x seen : okl l -> match o with InField _ _ _ => False | _ => True end ->
    options_are m seen -> x = scan acc (AtOption o) l E ->
    hits (parse_standard_option lsrc nxt_list m (At l cur false)) x
      (fun m' st => exists v r tl, st = At r tl false /\ t_code tl = KScolon /\
         x = match o with
             | InFile => scan (acc ++ [SDOption v]) AtDecl r E
             | InMessage name items => scan acc (AtItem name (items ++ [SIOption v])) r E
             | InField _ _ _ => XLoop end /\
         options_are m' (seen ++ [v]) /\ short r l).
  Proof.
    intros O N A X. unfold parse_standard_option. subst x.
    eapply hits_bind; [apply option_hits; assumption|]. intros en st (w & v & r & tl & -> & X & En & L1 & O1).
    to X acc (AfterOption o (w, v)) r p ln c r2 El O2 O3.
    - subst r. destruct o as [|name items|]; [| |contradiction]; cbn [step] in X; rewrite (sym_semi p O2) in X;
        unfold mk; cbn [t_code]; destruct (code_of p) eqn:C; try exact X.
      + cbn. exists (w, v), r2, (mk (p, ln, c)). unfold mk. cbn [t_code]. rewrite C. cbn [length] in L1.
        repeat split; auto; [now apply options_put|lia].
      + cbn. exists (w, v), r2, (mk (p, ln, c)). unfold mk. cbn [t_code]. rewrite C. rewrite app_nil_r in X. cbn [length] in L1.
        repeat split; auto; [now apply options_put|lia].
    - destruct o as [|name items|]; [| |contradiction]; exact X.
  Qed.

  (** ** Fields *)
  Lemma type_eq p msgs pkg ln c (st : pst lsrc) : piece_ok p ->
    match a_type p with
    | Some t => exists q ref, parse_type msgs pkg (mk (p, ln, c)) st = POk ((scalar_type t, q, ref), st) /\
        match t with
        | SMessage w => q = full_name pkg w /\ ref = find_message msgs (full_name pkg w)
        | _ => q = [] /\ ref = None
        end
    | None => parse_type msgs pkg (mk (p, ln, c)) st = p_throw (b "Missing field type") st
    end.
  Proof.
    intros O. pose proof (type_code p O) as T. unfold parse_type, mk. cbn [t_code t_value].
    destruct (code_of p); try (rewrite T; reflexivity).
    - rewrite T. eexists _, _. split; [reflexivity|]. auto.
    - destruct T as (t & -> & T & N). eexists _, _. rewrite T. split; [reflexivity|]. destruct t; try contradiction; auto.
    - rewrite T. eexists _, _. split; [reflexivity|]. auto.
  Qed.

  Lemma field_number_of ds : ds <> [] -> Forall pdigit ds -> field_number ds = number_of ds.
  Proof.
    intros N D. assert (D' : forallb is_digit ds = true).
    { apply forallb_forall. intros c I. rewrite Forall_forall in D. specialize (D c I). unfold pdigit in D. unfold is_digit. lia. }
    unfold field_number, strtol. rewrite <- (app_nil_r ds).
    rewrite (strto_split_pos ds [] N D' Logic.I) by (rewrite app_nil_r; now apply digits_no_nul). rewrite app_nil_r.
    unfold number_of, cast_int. change (32 - 1) with 31. change LONG_MAX with (2 ^ 63 - 1). rewrite Z.min_comm. reflexivity.
  Qed.

  Lemma number_fine_bad z : number_fine z = negb (bad_number z).
  Proof. unfold number_fine, bad_number. lia. Qed.

  Lemma find_index z fs : forall ss, Forall2 (fun f s => f_name f = sf_name s /\ f_index f = sf_number s) fs ss ->
    match find (fun x => f_index x =? z) fs, find (fun g => sf_number g =? z) ss with
    | Some f, Some g => f_name f = sf_name g
    | None, None => True
    | _, _ => False
    end.
  Proof.
    induction fs as [|f fs IH]; intros ss H; inversion H as [|? s ? ss' [A B] H2]; subst; [exact Logic.I|].
    cbn [find]. rewrite B. destruct (sf_number s =? z); [exact A|]. now apply IH.
  Qed.

  (** The semicolon. *)
  Definition field_end (fs : list field) (f : ftype) (q : bytes) (ref : option nat) (rep opt : bool) (name : bytes) (z : Z) (os : omap) : M lsrc (list field) :=
    bind p_current (fun ts => match t_code ts with
      | KScolon => match find (fun x => f_index x =? z) fs with
          | Some x => p_throw (b "Field '" ++ f_name x ++ b "' has the same index as '" ++ name ++ b "'")
          | None => ret (fs ++ [Fld f q ref rep opt name z os])
          end
      | _ => p_throw (b "Expected ';'")
      end).

  Definition raw_type (msgs : list message) (pkg : bytes) (t : stype) (f : ftype) (q : bytes) (ref : option nat) : Prop :=
    f = scalar_type t /\
    match t with
    | SMessage w => q = full_name pkg w /\ ref = find_message msgs (full_name pkg w)
    | _ => q = [] /\ ref = None
    end.
  Definition raw_mod (m : smod) (rep opt : bool) : Prop :=
    rep = match m with SRepeated => true | _ => false end /\ opt = match m with SOptional => true | _ => false end.

  Definition field_done acc name items msgs pkg fs (l : list pt) x (fs' : list field) (st : pst lsrc) : Prop :=
    exists f s r tl, fs' = fs ++ [f] /\ st = At r tl false /\
      x = scan acc (AtItem name (items ++ [SIField s])) r E /\ field_raw msgs pkg f s /\ short r l.

  Lemma field_end_hits acc name items msgs pkg fs s f q ref rep opt os p ln c r x l :
    piece_ok p -> okl r -> (length r < length l)%nat ->
    Forall2 (field_raw msgs pkg) fs (item_fields items) -> raw_type msgs pkg (sf_type s) f q ref -> raw_mod (sf_mod s) rep opt ->
    options_are os (sf_opts s) ->
    x = match (if sym ";" p then add_field name items s else Wrong (b "Expected ';'")) with
        | Go d s' => scan (acc ++ d) s' r E | Wrong m => XErr m ln c end ->
    hits (field_end fs f q ref rep opt (sf_name s) (sf_number s) os (At r (mk (p, ln, c)) false)) x
      (field_done acc name items msgs pkg fs l x).
  Proof.
    intros O O2 L R [T1 T2] [M1 M2] Op X. unfold field_end. rewrite bind_current. unfold At at 1. cbn [p_cur]. unfold mk at 1. cbn [t_code].
    rewrite (sym_semi p O) in X. destruct (code_of p); try exact X. unfold add_field in X.
    assert (R' : Forall2 (fun f s => f_name f = sf_name s /\ f_index f = sf_number s) fs (item_fields items)).
    { eapply Forall2_weaken; [exact R|]. intros f0 s0 F. split; apply F. }
    pose proof (find_index (sf_number s) fs (item_fields items) R') as Fi.
    destruct (find (fun x0 => f_index x0 =? sf_number s) fs) as [g|], (find (fun g => sf_number g =? sf_number s) (item_fields items)) as [g'|]; try contradiction.
    - rewrite <- Fi in X. exact X.
    - cbn. rewrite app_nil_r in X. eexists _, s, r, _. split; [reflexivity|]. split; [reflexivity|]. split; [exact X|]. split; [|split; [exact L|exact O2]].
      unfold field_raw. cbn. rewrite T1. repeat split; auto; apply T2.
  Qed.


  (** After the options: a token, or the end of the file. *)
  Definition bracket_done acc name items s (l : list pt) x (os : omap) (st : pst lsrc) : Prop :=
    (exists s' p' ln' c' r', same_field s s' /\ options_are os (sf_opts s') /\ piece_ok p' /\ okl r' /\
         (length r' <= length l)%nat /\ st = At r' (mk (p', ln', c')) false /\
         x = match (if sym ";" p' then add_field name items s' else Wrong (b "Expected ';'")) with
             | Go d s' => scan (acc ++ d) s' r' E | Wrong m => XErr m ln' c' end) \/
    (exists ln' c', t_line (p_cur st) = ln' /\ t_col (p_cur st) = c' /\ t_code (p_cur st) = KEof /\ x = XErr (b "Expected ';'") ln' c').

  Lemma bracket_hits acc name items s F p ln c r x : piece_ok p -> okl r -> sf_opts s = [] -> (length r < F)%nat ->
    x = match step (AfterNumber name items s) p with Go d s' => scan (acc ++ d) s' r E | Wrong m => XErr m ln c end ->
    hits (parse_bracket lsrc nxt_list F (mk (p, ln, c)) (At r (mk (p, ln, c)) false)) x (bracket_done acc name items s r x).
  Proof.
    intros O O2 Op L X. unfold parse_bracket. unfold mk at 1. cbn [t_code]. cbn [step] in X.
    rewrite (sym_lb p O), (sym_semi p O) in X.
    assert (J : code_of p <> KLbracket -> hits (ret [] (At r (mk (p, ln, c)) false)) x (bracket_done acc name items s r x)).
    { intros N. cbn. left. exists s, p, ln, c, r. split; [repeat split|]. split; [rewrite Op; apply options_nil|].
      split; [exact O|]. split; [exact O2|]. split; [lia|]. split; [reflexivity|]. rewrite (sym_semi p O).
      destruct (code_of p); try contradiction; exact X. }
    destruct (code_of p) eqn:C; try (apply J; discriminate). clear J.
    rewrite app_nil_r in X.
    eapply hits_bind; [rewrite X; apply field_options_hits; [apply pend_at|exact O2|exact L|rewrite Op; apply options_nil]|].
    intros m st (f' & q & r' & Cq & -> & X1 & Sf & Om & L' & O'). rewrite <- X in X1. unfold At. rewrite bind_next_ung, Cq.
    fold (At r' (mk q) false).
    to X1 acc (AfterBracket name items f') r' p2 ln2 c2 r2 El O3 O4.
    - cbn. left. exists f', p2, ln2, c2, r2. subst r'. cbn [length] in L'. repeat split; auto; try apply Sf; try lia.
    - cbn. right. eexists _, _. repeat split. exact X1.
  Qed.

  Definition field_tail (F : nat) (fs : list field) (f : ftype) (q : bytes) (ref : option nat) (rep opt : bool) : M lsrc (list field) :=
    bind (p_next lsrc nxt_list) (fun tn =>
    if negb (name_code (t_code tn)) then p_throw (b "Missing field name")
    else
    bind (p_next lsrc nxt_list) (fun te =>
    match t_code te with
    | KEqual =>
        bind (p_next lsrc nxt_list) (fun ti =>
        match t_code ti with
        | KInteger =>
            let z := field_number (t_value ti) in
            if bad_number z then p_throw (b "Invalid field index")
            else
            bind (p_next lsrc nxt_list) (fun tb =>
            bind (parse_bracket lsrc nxt_list F tb) (fun os => field_end fs f q ref rep opt (t_value tn) z os))
        | _ => p_throw (b "Missing field index")
        end)
    | _ => p_throw (b "Expected '='")
    end)).

  Lemma field_eq F msgs pkg fs : parse_field lsrc nxt_list F msgs pkg fs =
    bind (parse_modifier lsrc nxt_list) (fun ty => let '(t, rep, opt) := ty in
    bind (parse_type msgs pkg t) (fun r => let '(f, q, ref) := r in field_tail F fs f q ref rep opt)).
  Proof. reflexivity. Qed.

  Lemma field_tail_hits acc name items msgs pkg fs m t f q ref rep opt F l cur x : okl l -> (length l < F)%nat ->
    Forall2 (field_raw msgs pkg) fs (item_fields items) -> raw_type msgs pkg t f q ref -> raw_mod m rep opt ->
    x = scan acc (AtName name items m t) l E ->
    hits (field_tail F fs f q ref rep opt (At l cur false)) x (field_done acc name items msgs pkg fs l x).
  Proof.
    intros O L R T M X. unfold field_tail.
    to X acc (AtName name items m t) l p ln c r El O1 O2. subst l. cbn [step] in X. rewrite (own_code p O1) in X.
    unfold mk at 1. cbn [t_code]. destruct (name_code (code_of p)); cbn [negb]; [|exact X].
    rewrite app_nil_r in X. cbn [complaint] in X.
    to X acc (AtIs name items m t (value_of p)) r p2 ln2 c2 r2 El O3 O4. subst r. cbn [step] in X. rewrite (sym_equal p2 O3) in X.
    unfold mk at 1. cbn [t_code]. destruct (code_of p2); try exact X.
    rewrite app_nil_r in X.
    to X acc (AtNumber name items m t (value_of p)) r2 p3 ln3 c3 r3 El O5 O6. subst r2. cbn [step] in X.
    pose proof (num_code p3 O5) as Nc. unfold mk at 1. cbn [t_code].
    assert (D : code_of p3 = KInteger \/ code_of p3 <> KInteger) by (destruct (code_of p3); auto; right; discriminate).
    destruct D as [D|D].
    2:{ assert (X2 : x = XErr (b "Missing field index") ln3 c3).
        { destruct (code_of p3); try contradiction; destruct p3; try contradiction; exact X. }
        destruct (code_of p3); try contradiction; exact X2. }
    rewrite D in *. destruct Nc as (ds & ->). cbn [piece_ok] in O5. destruct O5 as [Dn Dd].
    cbv zeta. replace (t_value (mk (PcNum ds, ln3, c3))) with ds by reflexivity.
    rewrite (field_number_of ds Dn Dd). rewrite number_fine_bad in X. destruct (bad_number (number_of ds)); cbn [negb] in X; [exact X|].
    rewrite app_nil_r in X. set (s := SField m t (value_of p) (number_of ds) []) in *.
    cbn [length] in L.
    to X acc (AfterNumber name items s) r3 p4 ln4 c4 r4 El O7 O8.
    - subst r3. cbn [length] in L.
      eapply hits_bind; [apply (bracket_hits acc name items s F p4 ln4 c4 r4 x O7 O8 eq_refl); [lia|exact X]|].
      clear X. intros os st [(s' & p5 & ln5 & c5 & r5 & (S1 & S2 & S3 & S4) & Op & O9 & O10 & L5 & -> & X)|(ln5 & c5 & B1 & B2 & B3 & X)].
      + replace (t_value (mk (p, ln, c))) with (sf_name s') by (rewrite S3; reflexivity).
        replace (number_of ds) with (sf_number s') by (rewrite S4; reflexivity).
        apply field_end_hits; auto; [cbn [length]; lia| |].
        * rewrite S2. exact T.
        * rewrite S1. exact M.
      + unfold field_end. rewrite bind_current, B3. cbn. rewrite B1, B2. exact X.
  Qed.

  (** Called with the first token of the field. *)
  Lemma field_hits acc name items msgs pkg fs F p ln c r x : piece_ok p -> okl r -> (length r < F)%nat ->
    code_of p <> KEnd -> code_of p <> KOption ->
    Forall2 (field_raw msgs pkg) fs (item_fields items) ->
    x = scan acc (AtItem name items) ((p, ln, c) :: r) E ->
    hits (parse_field lsrc nxt_list F msgs pkg fs (At r (mk (p, ln, c)) false)) x
      (field_done acc name items msgs pkg fs ((p, ln, c) :: r) x).
  Proof.
    intros O O2 L N1 N2 R X. rewrite field_eq. unfold parse_modifier.
    cbn [scan step] in X. rewrite (sym_close p O), (key_option p O), (key_repeated p O), (key_optional p O) in X.
    assert (Mod : forall m rep opt, raw_mod m rep opt -> x = scan acc (AtType name items m) r E ->
      hits (bind (bind (p_next lsrc nxt_list) (fun t' => ret (t', rep, opt))) (fun ty => let '(t, rep, opt) := ty in
        bind (parse_type msgs pkg t) (fun r => let '(f, q, ref) := r in field_tail F fs f q ref rep opt)) (At r (mk (p, ln, c)) false)) x
      (field_done acc name items msgs pkg fs ((p, ln, c) :: r) x)).
    { clear X. intros m rep opt M X.
      enough (J : hits (bind (p_next lsrc nxt_list) (fun t => bind (parse_type msgs pkg t) (fun r => let '(f, q, ref) := r in field_tail F fs f q ref rep opt))
        (At r (mk (p, ln, c)) false)) x (field_done acc name items msgs pkg fs ((p, ln, c) :: r) x)).
      { revert J. unfold bind at 1 3 4. destruct (p_next lsrc nxt_list (At r (mk (p, ln, c)) false)) as [[t st]| | |]; auto. }
      to X acc (AtType name items m) r p2 ln2 c2 r2 El O3 O4. subst r. cbn [step] in X.
      pose proof (type_eq p2 msgs pkg ln2 c2 (At r2 (mk (p2, ln2, c2)) false) O3) as T.
      destruct (a_type p2) as [t|].
      - destruct T as (q & ref & T & T2). rewrite (bind_ok _ _ _ _ _ _ _ T). rewrite app_nil_r in X. cbn [length] in L.
        eapply hits_impl; [apply (field_tail_hits acc name items msgs pkg fs m t (scalar_type t) q ref rep opt F r2 _ x O4); auto; [lia|split; auto]|].
        intros fs' st (f & s & r' & tl & A1 & A2 & A3 & A4 & A5 & A6). exists f, s, r', tl. repeat split; auto; try apply A4. cbn [length]. lia.
      - unfold bind. rewrite T. exact X. }
    assert (Pl : code_of p <> KRepeated -> code_of p <> KOptional ->
      hits (bind (ret (mk (p, ln, c), false, false)) (fun ty => let '(t, rep, opt) := ty in
        bind (parse_type msgs pkg t) (fun r => let '(f, q, ref) := r in field_tail F fs f q ref rep opt)) (At r (mk (p, ln, c)) false)) x
      (field_done acc name items msgs pkg fs ((p, ln, c) :: r) x)).
    { intros N3 N4.
      assert (X2 : x = match match a_type p with Some t => Go [] (AtName name items SPlain t) | None => Wrong (complaint (AtItem name items)) end with
        | Go d s' => scan (acc ++ d) s' r E | Wrong m => XErr m ln c end).
      { destruct (code_of p); try contradiction; exact X. }
      unfold bind at 1. cbn [ret].
      pose proof (type_eq p msgs pkg ln c (At r (mk (p, ln, c)) false) O) as T.
      destruct (a_type p) as [t|].
      - destruct T as (q & ref & T & T2). rewrite (bind_ok _ _ _ _ _ _ _ T). rewrite app_nil_r in X2.
        eapply hits_impl; [apply (field_tail_hits acc name items msgs pkg fs SPlain t (scalar_type t) q ref false false F r _ x O2); auto; [split; auto|split; auto]|].
        intros fs' st (f & s & r' & tl & A1 & A2 & A3 & A4 & A5 & A6). exists f, s, r', tl. repeat split; auto; try apply A4. cbn [length]. lia.
      - unfold bind. rewrite T. exact X2. }
    unfold bind at 2. unfold p_current at 1. unfold bind at 1. unfold At at 1. cbn [p_cur].
    unfold mk at 1. cbn [t_code].
    destruct (code_of p) eqn:C; try contradiction; try (apply Pl; discriminate).
    - rewrite app_nil_r in X. apply (Mod SRepeated true false); [split; reflexivity|exact X].
    - rewrite app_nil_r in X. apply (Mod SOptional false true); [split; reflexivity|exact X].
  Qed.

  (** ** Messages *)
  Definition body_done acc name (x : xres) msgs pkg (l : list pt) (r : list field * omap) (st : pst lsrc) : Prop :=
    exists items', body_raw msgs pkg (fst r) (snd r) items' /\
      ((exists l' tl, st = At l' tl false /\ t_code tl = KEnd /\ x = scan (acc ++ [SDMessage name items']) AtDecl l' E /\ short l' l) \/
       (t_code (p_cur st) = KEof /\ x = XOk (acc ++ [SDMessage name items']))).

  Lemma body_hits acc name msgs pkg F n : forall items fs os l cur x, okl l -> (length l < n)%nat -> (length l <= F)%nat ->
    body_raw msgs pkg fs os items -> x = scan acc (AtItem name items) l E ->
    hits (parse_body lsrc nxt_list F n msgs pkg fs os (At l cur false)) x (body_done acc name x msgs pkg l).
  Proof.
    induction n as [|n IH]; intros items fs os l cur x O L LF [B1 B2] X; [lia|]. cbn [parse_body].
    assert (X0 := X).
    to X acc (AtItem name items) l p ln c r El O1 O2.
    - subst l. cbn [length] in *.
      assert (Fld : code_of p <> KEnd -> code_of p <> KOption ->
        hits (bind (parse_field lsrc nxt_list F msgs pkg fs) (fun fs' => parse_body lsrc nxt_list F n msgs pkg fs' os)
          (At r (mk (p, ln, c)) false)) x (body_done acc name x msgs pkg ((p, ln, c) :: r))).
      { intros N1 N2. eapply hits_bind; [apply (field_hits acc name items msgs pkg fs F p ln c r x O1 O2); auto|].
        intros fs' st (f & s & r' & tl & -> & -> & X2 & Fr & L2 & O3). cbn [length] in L2.
        eapply hits_impl; [apply (IH (items ++ [SIField s]) (fs ++ [f]) os r' tl x O3); [lia|lia| |exact X2]|].
        - split.
          + rewrite item_fields_app. apply Forall2_app; [exact B1|]. constructor; [exact Fr|constructor].
          + rewrite item_opts_app. cbn. now rewrite app_nil_r.
        - intros rr st (it & Br & [(l' & tl' & A1 & A2 & A3 & A4 & A5)|A]); exists it; (split; [exact Br|]); [left|right; exact A].
          exists l', tl'. repeat split; auto. cbn [length] in *. lia. }
      unfold mk at 1. cbn [t_code]. cbn [step] in X. rewrite (sym_close p O1), (key_option p O1) in X.
      destruct (code_of p) eqn:C; try (apply Fld; discriminate).
      + elim (not_eof p O1 C).
      + cbn. exists items. split; [split; assumption|]. left. exists r, (mk (p, ln, c)). unfold mk. cbn [t_code]. rewrite C.
        repeat split; auto.
      + rewrite app_nil_r in X.
        eapply hits_bind; [apply (standard_hits acc (InMessage name items) r _ os x (item_opts items) O2 Logic.I B2 X)|].
        intros os' st (v & r' & tl & -> & Ct & X2 & Op & L2 & O3).
        eapply hits_impl; [apply (IH (items ++ [SIOption v]) fs os' r' tl x O3); [lia|lia| |exact X2]|].
        * split.
          -- rewrite item_fields_app. cbn. now rewrite app_nil_r.
          -- rewrite item_opts_app. exact Op.
        * intros rr st (it & Br & [(l' & tl' & A1 & A2 & A3 & A4 & A5)|A]); exists it; (split; [exact Br|]); [left|right; exact A].
          exists l', tl'. repeat split; auto. cbn [length] in *. lia.
    - cbn. exists items. split; [split; assumption|]. right. split; [reflexivity|exact X].
  Qed.

  (** Where the loop of [parseProto] continues, or stops. *)
  Definition decl_done acc (x : xres) (l : list pt) (d : sdecl) (st : pst lsrc) : Prop :=
    (exists l' tl, st = At l' tl false /\ t_code tl <> KEof /\ x = scan (acc ++ [d]) AtDecl l' E /\ short l' l) \/
    (t_code (p_cur st) = KEof /\ x = XOk (acc ++ [d])).

  Lemma message_hits acc F pkg msgs l cur x : okl l -> (length l < F)%nat -> x = scan acc AtMessageName l E ->
    hits (parse_message lsrc nxt_list F pkg msgs (At l cur false)) x
      (fun msgs' st => exists m name items, msgs' = msgs ++ [m] /\ message_raw msgs m (pkg, name, items) /\
         decl_done acc x l (SDMessage name items) st).
  Proof.
    intros O L X. unfold parse_message.
    to X acc AtMessageName l p ln c r El O1 O2. subst l. cbn [step] in X. rewrite (own_code p O1) in X.
    unfold mk at 1. cbn [t_code]. destruct (name_code (code_of p)); [|exact X]. rewrite app_nil_r in X.
    to X acc (AtMessageOpen (value_of p)) r p2 ln2 c2 r2 El O3 O4. subst r. cbn [step] in X. rewrite (sym_begin p2 O3) in X.
    unfold mk at 1. cbn [t_code]. destruct (code_of p2); try exact X. rewrite app_nil_r in X. cbn [length] in L.
    eapply hits_bind; [apply (body_hits acc (value_of p) msgs pkg F F [] [] [] r2 _ x O4); [lia|lia| |exact X]|].
    - split; [constructor|apply options_nil].
    - intros [fs os] st (items & [B1 B2] & D). cbn. eexists _, (value_of p), items. split; [reflexivity|]. split; [cbn; auto|].
      destruct D as [(l' & tl & A1 & A2 & A3 & A4 & A5)|A]; [left|right; exact A].
      exists l', tl. rewrite A2. repeat split; auto; [discriminate|]. cbn [length]. lia.
  Qed.

  Lemma package_hits acc l cur x : okl l -> x = scan acc AtPackage l E ->
    hits (parse_package lsrc nxt_list (At l cur false)) x (fun w st => decl_done acc x l (SDPackage w) st).
  Proof.
    intros O X. unfold parse_package.
    to X acc AtPackage l p ln c r El O1 O2. subst l. cbn [step] in X. rewrite (any_code p O1) in X.
    assert (J : x = scan acc (AtPackageEnd (value_of p)) r E ->
      hits (bind (p_next lsrc nxt_list) (fun t1 => match t_code t1 with KScolon => ret (value_of p) | _ => p_throw (b "Invalid package") end)
        (At r (mk (p, ln, c)) false)) x (fun w st => decl_done acc x ((p, ln, c) :: r) (SDPackage w) st)).
    { clear X. intros X. to X acc (AtPackageEnd (value_of p)) r p2 ln2 c2 r2 El O3 O4. subst r. cbn [step] in X.
      rewrite (sym_semi p2 O3) in X. unfold mk at 1. cbn [t_code]. destruct (code_of p2) eqn:C; try exact X.
      cbn. left. exists r2, (mk (p2, ln2, c2)). unfold mk. cbn [t_code]. rewrite C. repeat split; auto; [discriminate|cbn [length]; lia]. }
    unfold mk at 1. cbn [t_code]. destruct (code_of p); try exact X; rewrite app_nil_r in X; exact (J X).
  Qed.

  Lemma syntax_hits acc l cur x : okl l -> x = scan acc AtSyntaxIs l E ->
    hits (parse_syntax lsrc nxt_list (At l cur false)) x (fun _ st => decl_done acc x l SDSyntax st).
  Proof.
    intros O X. unfold parse_syntax.
    to X acc AtSyntaxIs l p ln c r El O1 O2. subst l. cbn [step] in X. rewrite (sym_equal p O1) in X.
    unfold mk at 1. cbn [t_code]. destruct (code_of p); try exact X. rewrite app_nil_r in X.
    to X acc AtVersion r p2 ln2 c2 r2 El O3 O4. subst r. cbn [step] in X. pose proof (str_code p2 O3) as Sc.
    assert (D : code_of p2 = KString \/ code_of p2 <> KString) by (destruct (code_of p2); auto; right; discriminate).
    unfold mk at 1. cbn [t_code]. destruct D as [D|D].
    2:{ assert (X2 : x = XErr (b "Invalid syntax") ln2 c2).
        { destruct (code_of p2); try contradiction; destruct p2; try contradiction; exact X. }
        destruct (code_of p2); try contradiction; exact X2. }
    rewrite D in *. destruct Sc as (v & ->). rewrite app_nil_r in X.
    to X acc (AtSyntaxEnd v) r2 p3 ln3 c3 r3 El O5 O6. subst r2. cbn [step] in X. rewrite (sym_semi p3 O5) in X.
    unfold mk at 1. cbn [t_code]. destruct (code_of p3) eqn:C; try exact X.
    replace (t_value (mk (PcStr v, ln2, c2))) with v by reflexivity. destruct (bytes_eqb v (b "proto3")); [|exact X].
    cbn. left. exists r3, (mk (p3, ln3, c3)). unfold mk. cbn [t_code]. rewrite C. repeat split; auto; [discriminate|cbn [length]; lia].
  Qed.

  Lemma proto_hits F n : forall acc msgs os l cur x, okl l -> (length l < n)%nat -> (length l <= F)%nat ->
    messages_raw msgs (messages_of [] acc) -> options_are os (decl_opts acc) -> x = scan acc AtDecl l E ->
    hits (parse_proto lsrc nxt_list F n (package_after [] acc) msgs os (At l cur false)) x
      (fun r _ => exists decls, x = XOk decls /\ messages_raw (fst r) (messages_of [] decls) /\ options_are (snd r) (decl_opts decls)).
  Proof.
    induction n as [|n IH]; intros acc msgs os l cur x O L LF W A X; [lia|]. cbn [parse_proto].
    assert (Next : forall d msgs' os' pkg' st, messages_raw msgs' (messages_of [] (acc ++ [d])) ->
      options_are os' (decl_opts (acc ++ [d])) -> pkg' = package_after [] (acc ++ [d]) -> decl_done acc x l d st ->
      hits (bind p_more (fun more => if more then parse_proto lsrc nxt_list F n pkg' msgs' os' else ret (msgs', os')) st) x
        (fun r _ => exists decls, x = XOk decls /\ messages_raw (fst r) (messages_of [] decls) /\ options_are (snd r) (decl_opts decls))).
    { intros d msgs' os' pkg' st W' A' -> [(l' & tl & -> & Ct & X' & L' & O')|(Ct & X')].
      - unfold bind, p_more. rewrite bind_current. unfold At at 1. cbn [p_cur]. unfold ret.
        replace (match t_code tl with KEof => false | _ => true end) with true by (destruct (t_code tl); try reflexivity; contradiction).
        apply (IH (acc ++ [d])); auto; lia.
      - unfold bind, p_more. rewrite bind_current, Ct. cbn. exists (acc ++ [d]). auto. }
    assert (Plain : forall d, match d with SDSyntax | SDPackage _ | SDOption _ => True | _ => False end -> messages_raw msgs (messages_of [] (acc ++ [d]))).
    { intros d D. rewrite messages_of_app. destruct d; try contradiction; cbn [messages_of]; now rewrite app_nil_r. }
    assert (Opts : forall d, match d with SDOption _ => False | _ => True end -> options_are os (decl_opts (acc ++ [d]))).
    { intros d D. unfold decl_opts. rewrite flat_map_app. destruct d; try contradiction; cbn; now rewrite app_nil_r. }
    assert (Pkg : forall d, match d with SDPackage _ => False | _ => True end -> package_after [] acc = package_after [] (acc ++ [d])).
    { intros d D. unfold package_after. rewrite fold_left_app. destruct d; try contradiction; reflexivity. }
    assert (Far : forall r p ln c d st, l = (p, ln, c) :: r -> decl_done acc x r d st -> decl_done acc x l d st).
    { intros r p ln c d st -> [(l' & tl & B1 & B2 & B3 & B4 & B5)|B]; [left|right; exact B]. exists l', tl. repeat split; auto. cbn [length]. lia. }
    to X acc AtDecl l p ln c r El O1 O2.
    - cbn [step] in X. rewrite (key_message p O1), (key_package p O1), (key_syntax p O1), (key_option p O1) in X.
      assert (Lr : (@length pt r < @length pt l)%nat) by (rewrite El; apply Nat.lt_succ_diag_r).
      unfold mk at 1. cbn [t_code]. destruct (code_of p) eqn:C; try exact X.
      + elim (not_eof p O1 C).
      + rewrite app_nil_r in X. eapply hits_bind; [apply (message_hits acc F (package_after [] acc) msgs r _ x O2); [lia|exact X]|].
        intros msgs' st (m & name & items & -> & Mr & D). cbv beta. apply (Next (SDMessage name items)); [| | |eapply Far; eassumption].
        * rewrite messages_of_app. cbn [messages_of]. now apply mr_snoc.
        * apply Opts. exact Logic.I.
        * now apply Pkg.
      + rewrite app_nil_r in X. eapply hits_bind; [apply (syntax_hits acc r _ x O2 X)|].
        intros u st D. cbv beta. apply (Next SDSyntax); [now apply Plain|now apply Opts|now apply Pkg|eapply Far; eassumption].
      + exfalso. revert C. clear - O1. intros C. kinds p; try discriminate C; try (rewrite KE in C; discriminate C). syms O1; discriminate C.
      + rewrite app_nil_r in X. eapply hits_bind; [apply (package_hits acc r _ x O2 X)|].
        intros w st D. cbv beta. apply (Next (SDPackage w)); [now apply Plain|now apply Opts| |eapply Far; eassumption].
        unfold package_after. rewrite fold_left_app. reflexivity.
      + rewrite app_nil_r in X. eapply hits_bind; [apply (standard_hits acc InFile r _ os x (decl_opts acc) O2 Logic.I A X)|].
        intros os' st (v & r' & tl & -> & Ct & X2 & Op & L2 & O3). cbv beta. apply (Next (SDOption v)); [now apply Plain| |now apply Pkg|].
        * unfold decl_opts. rewrite flat_map_app. exact Op.
        * left. exists r', tl. rewrite Ct. repeat split; auto; [discriminate|lia].
    - cbn. exists acc. rewrite app_nil_r in X. auto.
  Qed.
End Follow.
