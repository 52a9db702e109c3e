(** The machine of SpecReads accepts the grammar of SpecReads (C60). *)
From Verif Require Import Bytes BaseProofs Num SpecProto ProtoLex ProtoParse PLexProofs PNextProofs PTermProofs PSchemaProofs PAcceptProofs SpecReads ReadsCode ReadsProofs ReadsLift.

(** ** Words *)
Lemma dotted_ident w : dotted w -> with_dot w = false -> ident w.
Proof.
  intros D N. apply dotted_tail in D. destruct D as (u & r & -> & I & T). rewrite with_dot_eq, (has_dot_tail u r I T) in N.
  destruct r; [now rewrite app_nil_r|discriminate N].
Qed.

Lemma own_iff p w : piece_ok p -> (own_name p = Some w <-> p = PcWord w /\ member_name w).
Proof.
  intros O. destruct p as [v|ds|s|c]; cbn [own_name]; try (split; [discriminate|intros [E _]; discriminate E]).
  cbn [piece_ok] in O. split.
  - destruct ((negb (reserved v) && negb (with_dot v)) || key "message" (PcWord v) || key "package" (PcWord v)) eqn:E; [|discriminate].
    intros H. injection H as ->. split; [reflexivity|]. apply orb_true_iff in E. destruct E as [E|E].
    + apply orb_true_iff in E. destruct E as [E|E].
      * apply andb_true_iff in E. destruct E as [E1 E2]. apply negb_true_iff in E1, E2. left. split; [now apply dotted_ident|now apply reserved_spec].
      * right; left. now apply bytes_eqb_true in E.
    + right; right. now apply bytes_eqb_true in E.
  - intros [H M]. injection H as ->. destruct M as [[I R]|[->| ->]]; [|reflexivity|reflexivity].
    apply reserved_spec in R. rewrite R. rewrite with_dot_eq, (ident_no_dot w I). reflexivity.
Qed.

Lemma any_iff p w : piece_ok p -> (any_name p = Some w <-> p = PcWord w /\ plain_dotted w).
Proof.
  intros O. destruct p as [v|ds|s|c]; cbn [any_name]; try (split; [discriminate|intros [E _]; discriminate E]).
  cbn [piece_ok] in O. split.
  - destruct (reserved v) eqn:R; [discriminate|]. intros H. injection H as ->. split; [reflexivity|]. split; [exact O|now apply reserved_spec].
  - intros [H [_ R]]. injection H as ->. apply reserved_spec in R. now rewrite R.
Qed.

Lemma key_iff k p : key k p = true <-> p = PcWord (b k).
Proof.
  destruct p; cbn [key]; try (split; discriminate). rewrite bytes_eqb_true. split; [now intros ->|intros H; now injection H].
Qed.
Lemma sym_iff c p : sym c p = true <-> p = PcSym c.
Proof.
  destruct p as [| | |d]; cbn [sym]; try (split; discriminate). rewrite Ascii.eqb_eq. split; [now intros ->|intros H; now injection H].
Qed.

Lemma scalars_reserved t : In t scalars -> In (type_word t) reserved_words.
Proof. intros H. cbn [scalars In] in H. repeat (destruct H as [<-|H]; [inres|]). contradiction. Qed.

Lemma type_iff p t : piece_ok p -> (a_type p = Some t <-> p = PcWord (type_word t) /\ type_ok t).
Proof.
  intros O. unfold a_type.
  destruct (find (fun t => match p with PcWord w => bytes_eqb w (type_word t) | _ => false end) scalars) as [u|] eqn:F.
  - apply find_some in F. destruct F as [I E]. destruct p as [w| | |]; try discriminate E. apply bytes_eqb_true in E. subst w.
    assert (K : type_ok u) by (cbn [scalars In] in I; repeat (destruct I as [<-|I]; [exact Logic.I|]); contradiction).
    split; [intros H; injection H as <-; auto|]. intros [H T]. f_equal. injection H as H.
    destruct t as [| | | | | | | | | | | | | | |w].
    16:{ exfalso. destruct T as [_ T]. apply T. cbn [type_word] in H. rewrite <- H. now apply scalars_reserved. }
    all: cbn [scalars In] in I; repeat (destruct I as [<-|I]; [first [reflexivity|vm_compute in H; discriminate H]|]); contradiction.
  - split.
    + destruct (any_name p) as [w|] eqn:A; [|discriminate]. intros H. injection H as <-. apply (any_iff p w O) in A. exact A.
    + intros [-> T]. destruct t as [| | | | | | | | | | | | | | |w]; try (vm_compute in F; discriminate F).
      cbn [type_word type_ok] in *. destruct (any_iff (PcWord w) w O) as [_ A]. rewrite A by auto. reflexivity.
Qed.

Lemma value_iff p v : piece_ok p -> (a_value p = Some v <-> value_pieces v = [p] /\ value_ok v).
Proof.
  intros O. destruct p as [w|ds|s|c]; unfold a_value.
  - destruct (key "true" (PcWord w)) eqn:K1.
    { apply key_iff in K1. injection K1 as ->. split.
      - intros H. injection H as <-. split; [reflexivity|exact Logic.I].
      - intros [H V]. destruct v as [[|]|w| |]; cbn [value_pieces] in H; try discriminate H; try reflexivity.
        injection H as ->. destruct V as [_ V]. elim V. inres. }
    destruct (key "false" (PcWord w)) eqn:K2.
    { apply key_iff in K2. injection K2 as ->. split.
      - intros H. injection H as <-. split; [reflexivity|exact Logic.I].
      - intros [H V]. destruct v as [[|]|w| |]; cbn [value_pieces] in H; try discriminate H; try reflexivity.
        injection H as ->. destruct V as [_ V]. elim V. inres. }
    split.
    + destruct (any_name (PcWord w)) as [u|] eqn:A; [|discriminate]. intros H. injection H as <-.
      apply (any_iff _ u O) in A. destruct A as [A B]. cbn [value_pieces value_ok]. rewrite A. auto.
    + intros [H V]. destruct v as [[|]|u| |]; cbn [value_pieces] in H; try discriminate H.
      * injection H as <-. vm_compute in K1. discriminate K1.
      * injection H as <-. vm_compute in K2. discriminate K2.
      * injection H as ->. destruct (any_iff (PcWord w) w O) as [_ A]. rewrite A by auto. reflexivity.
  - split; [intros H; injection H as <-; split; [reflexivity|exact O]|].
    intros [H V]. destruct v; cbn [value_pieces] in H; try discriminate H. now injection H as ->.
  - split; [intros H; injection H as <-; split; [reflexivity|exact O]|].
    intros [H V]. destruct v; cbn [value_pieces] in H; try discriminate H. now injection H as ->.
  - split; [discriminate|]. intros [H V]. destruct v; cbn [value_pieces] in H; discriminate H.
Qed.

Lemma number_iff z : number_fine z = true <-> number_ok z.
Proof.
  unfold number_fine, number_ok. rewrite !andb_true_iff, !negb_true_iff, !Z.ltb_lt, !Z.eqb_neq. tauto.
Qed.

(** ** From the machine to the grammar *)
Lemma opts_snoc l ps o : opts_spelled l ps -> opts_spelled (l ++ [o]) (ps ++ opt_pieces o).
Proof.
  induction 1 as [|x l ps H IH|x l ps H IH]; cbn [app].
  - pose proof (os_bare o [] [] os_nil) as J. now rewrite app_nil_r in J.
  - rewrite <- app_assoc. now apply os_bare.
  - rewrite <- app_assoc. cbn [app]. now apply os_comma.
Qed.
Lemma opts_snoc_comma l ps o : opts_spelled l ps -> opts_spelled (l ++ [o]) (ps ++ opt_pieces o ++ [PcSym ","]).
Proof.
  induction 1 as [|x l ps H IH|x l ps H IH]; cbn [app].
  - exact (os_comma o [] [] os_nil).
  - rewrite <- app_assoc. now apply os_bare.
  - rewrite <- app_assoc. cbn [app]. now apply os_comma.
Qed.
Lemma items_snoc l ps i qs : items_spelled l ps -> item_spelled i qs -> items_spelled (l ++ [i]) (ps ++ qs).
Proof.
  intros H Q. induction H as [|x l ps ps' P _ IH]; cbn [app].
  - pose proof (it_cons i [] qs [] Q it_nil) as J. now rewrite app_nil_r in J.
  - rewrite <- app_assoc. now constructor.
Qed.
Lemma spelled_app l ps l' qs : spelled l ps -> spelled l' qs -> spelled (l ++ l') (ps ++ qs).
Proof.
  intros H Q. induction H as [|name items l ps1 qs1 P _ IH|d l qs1 P _ IH]; cbn [app]; [exact Q| |].
  - rewrite <- !app_assoc. cbn [app]. apply sp_message; auto.
  - rewrite <- app_assoc. apply sp_other; auto.
Qed.

(** The pieces of the declaration that is being read. *)
Definition head_of (name : bytes) (items : list sitem) (qs : list piece) : Prop :=
  exists ps, qs = [PcWord (b "message"); PcWord name; PcSym "{"] ++ ps /\ items_spelled items ps /\ member_name name /\
    Forall item_ok items /\ NoDup (map sf_number (item_fields items)).
Definition front_of (m : smod) (t : stype) (w : bytes) (ds : bytes) : list piece :=
  mod_pieces m ++ [PcWord (type_word t); PcWord w; PcSym "="; PcNum ds].
Definition field_of (f : sfield) (qs : list piece) : Prop :=
  exists ds, qs = front_of (sf_mod f) (sf_type f) (sf_name f) ds /\ number_of ds = sf_number f /\ field_ok f.
Definition outer_of (o : outer) (qs : list piece) : Prop :=
  match o with
  | InFile => qs = [PcWord (b "option")]
  | InMessage name items => exists q, head_of name items q /\ qs = q ++ [PcWord (b "option")]
  | InField name items f => exists q fq oq, head_of name items q /\ field_of f fq /\ opts_spelled (sf_opts f) oq /\
      qs = q ++ fq ++ PcSym "[" :: oq
  end.

Definition so_far (s : spot) (qs : list piece) : Prop :=
  match s with
  | AtDecl => qs = []
  | AtMessageName => qs = [PcWord (b "message")]
  | AtMessageOpen name => qs = [PcWord (b "message"); PcWord name] /\ member_name name
  | AtPackage => qs = [PcWord (b "package")]
  | AtPackageEnd w => qs = [PcWord (b "package"); PcWord w] /\ plain_dotted w
  | AtSyntaxIs => qs = [PcWord (b "syntax")]
  | AtVersion => qs = [PcWord (b "syntax"); PcSym "="]
  | AtSyntaxEnd v => qs = [PcWord (b "syntax"); PcSym "="; PcStr v]
  | AtItem name items => head_of name items qs
  | AtType name items m => exists q, head_of name items q /\ qs = q ++ mod_pieces m
  | AtName name items m t => exists q, head_of name items q /\ type_ok t /\ qs = q ++ mod_pieces m ++ [PcWord (type_word t)]
  | AtIs name items m t w => exists q, head_of name items q /\ type_ok t /\ member_name w /\
      qs = q ++ mod_pieces m ++ [PcWord (type_word t); PcWord w]
  | AtNumber name items m t w => exists q, head_of name items q /\ type_ok t /\ member_name w /\
      qs = q ++ mod_pieces m ++ [PcWord (type_word t); PcWord w; PcSym "="]
  | AfterNumber name items f => exists q fq, head_of name items q /\ field_of f fq /\ sf_opts f = [] /\ qs = q ++ fq
  | AfterBracket name items f => exists q fq bq, head_of name items q /\ field_of f fq /\ bracket_spelled (sf_opts f) bq /\ qs = q ++ fq ++ bq
  | AtOption o => outer_of o qs
  | AtOptionIs o w => exists q, outer_of o q /\ plain_dotted w /\ qs = q ++ [PcWord w]
  | AtOptionValue o w => exists q, outer_of o q /\ plain_dotted w /\ qs = q ++ [PcWord w; PcSym "="]
  | AfterOption o x => exists q, outer_of o q /\ opt_ok x /\ qs = q ++ opt_pieces x
  end.

Lemma with_option_ok f fq x : field_of f fq -> opt_ok x -> field_of (with_option f x) fq.
Proof.
  intros (ds & -> & N & A & B & C & D) O. exists ds. split; [reflexivity|]. split; [exact N|]. repeat split; auto; try apply C.
  cbn [with_option sf_opts]. apply Forall_app. auto.
Qed.

Lemma add_field_spelled name items f q fq bq d s : head_of name items q -> field_of f fq -> bracket_spelled (sf_opts f) bq ->
  add_field name items f = Go d s -> d = [] /\ so_far s (q ++ fq ++ bq ++ [PcSym ";"]).
Proof.
  intros (ps & -> & I & M & O & ND) (ds & -> & N & K) B A. unfold add_field in A.
  destruct (find (fun g => sf_number g =? sf_number f) (item_fields items)) eqn:F; [discriminate A|]. injection A as <- <-.
  split; [reflexivity|]. cbn [so_far]. eexists. split; [rewrite <- !app_assoc; reflexivity|]. split.
  - apply items_snoc; [exact I|]. pose proof (is_field f ds bq N B) as J. unfold front_of. rewrite <- app_assoc. exact J.
  - split; [exact M|]. split; [apply Forall_app; split; auto|]. rewrite item_fields_app, map_app. cbn [item_fields flat_map app map].
    apply (NoDup_Add (Add_app _ _ [])). rewrite app_nil_r. split; [exact ND|]. intros H. apply in_map_iff in H. destruct H as (g & E & G).
    pose proof (find_none _ _ F g G) as X. cbv beta in X. apply Z.eqb_neq in X. congruence.
Qed.

Ltac ap := repeat rewrite <- app_assoc; cbn [app]; repeat rewrite <- app_assoc; cbn [app]; reflexivity.

Definition goes (d : list sdecl) (s : spot) (qs : list piece) : Prop :=
  exists q1 q2, qs = q1 ++ q2 /\ spelled d q1 /\ Forall decl_ok d /\ so_far s q2.

Lemma goes_on s qs : so_far s qs -> goes [] s qs.
Proof. intros H. exists [], qs. split; [reflexivity|]. split; [constructor|]. split; [constructor|exact H]. Qed.
Lemma goes_done d qs : spelled [d] qs -> decl_ok d -> goes [d] AtDecl qs.
Proof. intros H O. exists qs, []. rewrite app_nil_r. split; [reflexivity|]. split; [exact H|]. split; [constructor; auto|reflexivity]. Qed.
Lemma goes_other d : match d with SDMessage _ _ => False | _ => True end -> decl_ok d -> goes [d] AtDecl (decl_pieces d).
Proof. intros H O. apply goes_done; [|exact O]. pose proof (sp_other d [] [] H sp_nil) as J. now rewrite app_nil_r in J. Qed.

Lemma so_far_step s qs p d s' : so_far s qs -> piece_ok p -> step s p = Go d s' -> goes d s' (qs ++ [p]).
Proof.
  intros H O St. destruct s as [|  |name| |w| | |v|name items|name items m|name items m t|name items m t w|name items m t w|name items f|name items f|o|o w|o w|o x];
    cbn [so_far] in H; cbn [step] in St.
  - (* AtDecl *) subst qs. cbn [app].
    destruct (key "message" p) eqn:K1; [apply key_iff in K1; injection St as <- <-; subst p; apply goes_on; reflexivity|].
    destruct (key "package" p) eqn:K2; [apply key_iff in K2; injection St as <- <-; subst p; apply goes_on; reflexivity|].
    destruct (key "syntax" p) eqn:K3; [apply key_iff in K3; injection St as <- <-; subst p; apply goes_on; reflexivity|].
    destruct (key "option" p) eqn:K4; [apply key_iff in K4; injection St as <- <-; subst p; apply goes_on; reflexivity|discriminate St].
  - subst qs. destruct (own_name p) as [w|] eqn:N; [|discriminate St]. injection St as <- <-.
    apply (own_iff p w O) in N. destruct N as [-> M]. apply goes_on. cbn. auto.
  - destruct H as [-> M]. destruct (sym "{" p) eqn:K; [|discriminate St]. apply sym_iff in K. injection St as <- <-. subst p.
    apply goes_on. exists []. cbn. repeat split; auto; constructor.
  - subst qs. destruct (any_name p) as [w|] eqn:N; [|discriminate St]. injection St as <- <-.
    apply (any_iff p w O) in N. destruct N as [-> M]. apply goes_on. cbn. auto.
  - destruct H as [-> M]. destruct (sym ";" p) eqn:K; [|discriminate St]. apply sym_iff in K. injection St as <- <-. subst p.
    exact (goes_other (SDPackage w) Logic.I M).
  - subst qs. destruct (sym "=" p) eqn:K; [|discriminate St]. apply sym_iff in K. injection St as <- <-. subst p. now apply goes_on.
  - subst qs. destruct p as [| |v|]; try discriminate St. injection St as <- <-. now apply goes_on.
  - subst qs. destruct (sym ";" p) eqn:K; [|discriminate St]. apply sym_iff in K. subst p.
    destruct (bytes_eqb v (b "proto3")) eqn:E; [|discriminate St]. apply bytes_eqb_true in E. subst v. injection St as <- <-.
    exact (goes_other SDSyntax Logic.I Logic.I).
  - (* AtItem *)
    destruct (sym "}" p) eqn:K1.
    { apply sym_iff in K1. injection St as <- <-. subst p. destruct H as (ps & -> & I & M & Oi & ND).
      apply goes_done; [|cbn; auto]. pose proof (sp_message name items [] ps [] I sp_nil) as J. rewrite <- app_assoc. exact J. }
    destruct (key "option" p) eqn:K2; [apply key_iff in K2; injection St as <- <-; subst p; apply goes_on; exists qs; auto|].
    destruct (key "repeated" p) eqn:K3; [apply key_iff in K3; injection St as <- <-; subst p; apply goes_on; exists qs; auto|].
    destruct (key "optional" p) eqn:K4; [apply key_iff in K4; injection St as <- <-; subst p; apply goes_on; exists qs; auto|].
    destruct (a_type p) as [t|] eqn:T; [|discriminate St]. injection St as <- <-. apply (type_iff p t O) in T. destruct T as [-> T].
    apply goes_on. exists qs. auto.
  - destruct H as (q & H & ->). destruct (a_type p) as [t|] eqn:T; [|discriminate St]. injection St as <- <-.
    apply (type_iff p t O) in T. destruct T as [-> T]. apply goes_on. exists q. rewrite <- app_assoc. auto.
  - destruct H as (q & H & T & ->). destruct (own_name p) as [w|] eqn:N; [|discriminate St]. injection St as <- <-.
    apply (own_iff p w O) in N. destruct N as [-> M]. apply goes_on. exists q. rewrite <- !app_assoc. auto.
  - destruct H as (q & H & T & M & ->). destruct (sym "=" p) eqn:K; [|discriminate St]. apply sym_iff in K. injection St as <- <-. subst p.
    apply goes_on. exists q. rewrite <- !app_assoc. auto.
  - destruct H as (q & H & T & M & ->). destruct p as [|ds| |]; try discriminate St.
    destruct (number_fine (number_of ds)) eqn:N; [|discriminate St]. injection St as <- <-. apply number_iff in N.
    apply goes_on. exists q, (front_of m t w ds). split; [exact H|]. split.
    + exists ds. repeat split; auto; try apply N. constructor.
    + split; [reflexivity|]. unfold front_of. now rewrite <- !app_assoc.
  - destruct H as (q & fq & H & Ff & E & ->). destruct (sym "[" p) eqn:K1.
    { apply sym_iff in K1. injection St as <- <-. subst p. apply goes_on. exists q, fq, []. rewrite E.
      split; [exact H|]. split; [exact Ff|]. split; [constructor|]. now rewrite <- app_assoc. }
    destruct (sym ";" p) eqn:K2; [|discriminate St]. apply sym_iff in K2. subst p.
    destruct (add_field_spelled name items f q fq [] d s' H Ff ltac:(rewrite E; constructor) St) as [-> S'].
    apply goes_on. now rewrite <- app_assoc.
  - destruct H as (q & fq & bq & H & Ff & Bs & ->). destruct (sym ";" p) eqn:K2; [|discriminate St]. apply sym_iff in K2. subst p.
    destruct (add_field_spelled name items f q fq bq d s' H Ff Bs St) as [-> S'].
    apply goes_on. now rewrite <- !app_assoc.
  - (* AtOption *)
    assert (J : match any_name p with Some w => Go [] (AtOptionIs o w) | None => Wrong (complaint (AtOption o)) end = Go d s' -> goes d s' (qs ++ [p])).
    { intros St2. destruct (any_name p) as [w|] eqn:N; [|discriminate St2]. injection St2 as <- <-.
      apply (any_iff p w O) in N. destruct N as [-> M]. apply goes_on. exists qs. auto. }
    destruct o as [|name items|name items f]; [exact (J St)|exact (J St)|].
    destruct (sym "]" p) eqn:K; [|exact (J St)]. apply sym_iff in K. injection St as <- <-. subst p. clear J.
    destruct H as (q & fq & oq & H & Ff & Os & ->). apply goes_on. exists q, fq, (PcSym "[" :: oq ++ [PcSym "]"]).
    split; [exact H|]. split; [exact Ff|]. split; [now constructor|]. rewrite <- !app_assoc. reflexivity.
  - destruct H as (q & H & M & ->). destruct (sym "=" p) eqn:K; [|discriminate St]. apply sym_iff in K. injection St as <- <-. subst p.
    apply goes_on. exists q. rewrite <- app_assoc. auto.
  - destruct H as (q & H & M & ->). destruct (a_value p) as [v|] eqn:V; [|discriminate St]. injection St as <- <-.
    apply (value_iff p v O) in V. destruct V as [V1 V2]. apply goes_on. exists q. split; [exact H|]. split; [split; auto|].
    unfold opt_pieces. cbn [fst snd]. rewrite V1. rewrite <- app_assoc. reflexivity.
  - (* AfterOption *)
    destruct H as (q & H & Ox & ->). destruct o as [|name items|name items f]; cbn [outer_of] in H.
    + subst q. destruct (sym ";" p) eqn:K; [|discriminate St]. apply sym_iff in K. injection St as <- <-. subst p.
      rewrite <- app_assoc. exact (goes_other (SDOption x) Logic.I Ox).
    + destruct H as (q1 & (ps & -> & I & M & Oi & ND) & ->). destruct (sym ";" p) eqn:K; [|discriminate St].
      apply sym_iff in K. injection St as <- <-. subst p. apply goes_on. eexists. split; [rewrite <- !app_assoc; reflexivity|].
      split; [apply (items_snoc items ps (SIOption x) (option_pieces x) I (is_option x))|].
      split; [exact M|]. split; [apply Forall_app; auto|]. rewrite item_fields_app. cbn [item_fields flat_map]. now rewrite app_nil_r.
    + destruct H as (q1 & fq & oq & H & Ff & Os & ->). cbv zeta in St.
      pose proof (with_option_ok f fq x Ff Ox) as Ff'.
      destruct (sym "," p) eqn:K1.
      { apply sym_iff in K1. injection St as <- <-. subst p. apply goes_on. exists q1, fq, (oq ++ opt_pieces x ++ [PcSym ","]).
        split; [exact H|]. split; [exact Ff'|]. split; [now apply opts_snoc_comma|]. ap. }
      destruct (sym "]" p) eqn:K2.
      { apply sym_iff in K2. injection St as <- <-. subst p. apply goes_on. exists q1, fq, (PcSym "[" :: (oq ++ opt_pieces x) ++ [PcSym "]"]).
        split; [exact H|]. split; [exact Ff'|]. split; [constructor; now apply opts_snoc|]. ap. }
      destruct (any_name p) as [w|] eqn:N; [|discriminate St]. injection St as <- <-.
      apply (any_iff p w O) in N. destruct N as [-> M]. apply goes_on. exists (q1 ++ fq ++ PcSym "[" :: oq ++ opt_pieces x). split; [|split; [exact M|]].
      * exists q1, fq, (oq ++ opt_pieces x). split; [exact H|]. split; [exact Ff'|]. split; [now apply opts_snoc|reflexivity].
      * ap.
Qed.

Lemma reads_spelled ps : forall s q l s', Forall piece_ok ps -> so_far s q -> reads s ps = Some (l, s') -> goes l s' (q ++ ps).
Proof.
  induction ps as [|p ps IH]; intros s q l s' O H R; cbn [reads] in R.
  - injection R as <- <-. rewrite app_nil_r. now apply goes_on.
  - inversion O as [|? ? O1 O2]; subst. destruct (step s p) as [d s1|] eqn:St; [|discriminate R].
    destruct (reads s1 ps) as [[l2 s2]|] eqn:R2; [|discriminate R]. injection R as <- <-.
    destruct (so_far_step s q p d s1 H O1 St) as (q1 & q2 & E & Sp & Od & H2).
    destruct (IH s1 q2 l2 s2 O2 H2 R2) as (q3 & q4 & E2 & Sp2 & Od2 & H3).
    exists (q1 ++ q3), q4. split.
    + change (p :: ps) with ([p] ++ ps). rewrite app_assoc, E, <- !app_assoc. now rewrite E2.
    + split; [now apply spelled_app|]. split; [now apply Forall_app|exact H3].
Qed.

Lemma closes_spelled ps l s l' : Forall piece_ok ps -> reads AtDecl ps = Some (l, s) -> closes s = Some l' ->
  spelled_open (l ++ l') ps /\ Forall decl_ok (l ++ l').
Proof.
  intros O R C. destruct (reads_spelled ps AtDecl [] l s O eq_refl R) as (q1 & q2 & E & Sp & Od & H). cbn [app] in E. subst ps.
  destruct s; try discriminate C; injection C as <-; cbn [so_far] in H.
  - subst q2. rewrite !app_nil_r. split; [now constructor|exact Od].
  - destruct H as (ps & -> & I & M & Oi & ND). split; [now constructor|]. apply Forall_app. split; [exact Od|]. constructor; [|constructor]. cbn. auto.
Qed.

(** ** From the grammar to the machine *)
Lemma reads_app s ps qs l s' : reads s ps = Some (l, s') ->
  reads s (ps ++ qs) = match reads s' qs with Some (l', s'') => Some (l ++ l', s'') | None => None end.
Proof.
  revert s l. induction ps as [|p ps IH]; intros s l H; cbn [reads app] in *.
  - injection H as <- <-. destruct (reads s qs) as [[? ?]|]; reflexivity.
  - destruct (step s p) as [d t|]; [|discriminate H]. destruct (reads t ps) as [[l2 s2]|] eqn:R; [|discriminate H].
    injection H as <- <-. rewrite (IH _ _ R). destruct (reads s2 qs) as [[? ?]|]; [now rewrite app_assoc|reflexivity].
Qed.

Lemma reads_cat s ps qs l s' l' s'' : reads s ps = Some (l, s') -> reads s' qs = Some (l', s'') -> reads s (ps ++ qs) = Some (l ++ l', s'').
Proof. intros A B. now rewrite (reads_app _ _ _ _ _ A), B. Qed.
Lemma reads_one s p qs s' l' s'' : step s p = Go [] s' -> reads s' qs = Some (l', s'') -> reads s (p :: qs) = Some (l', s'').
Proof. intros A B. cbn [reads]. now rewrite A, B. Qed.

Lemma own_word w : member_name w -> own_name (PcWord w) = Some w.
Proof.
  intros [[I R]|[->| ->]]; [|reflexivity|reflexivity]. apply own_iff; [apply dot_one, I|]. split; [reflexivity|]. left. split; assumption.
Qed.
Lemma any_word w : plain_dotted w -> any_name (PcWord w) = Some w.
Proof. intros M. apply any_iff; [|auto]. cbn. apply M. Qed.
Lemma type_reads t : type_ok t -> a_type (PcWord (type_word t)) = Some t.
Proof.
  intros M. destruct t as [| | | | | | | | | | | | | | |w]; try reflexivity. apply type_iff; [|auto]. cbn. apply M.
Qed.
Lemma value_reads v : value_ok v -> exists p, value_pieces v = [p] /\ a_value p = Some v.
Proof.
  destruct v as [[|]|w|ds|s]; cbn [value_pieces]; intros V; eexists; (split; [reflexivity|]); try reflexivity.
  apply value_iff; [apply V|]. auto.
Qed.
Lemma plain_keys k w : plain_dotted w -> In (b k) reserved_words -> key k (PcWord w) = false.
Proof. intros [_ R] I. cbn [key]. apply reserved_false; [now apply reserved_spec|exact I]. Qed.

Lemma opt_reads o x qs l s : opt_ok x -> reads (AfterOption o x) qs = Some (l, s) -> reads (AtOption o) (opt_pieces x ++ qs) = Some (l, s).
Proof.
  intros [N V] R. destruct x as [w v]. cbn [fst snd] in *. destruct (value_reads v V) as (p & E & A). unfold opt_pieces. cbn [fst snd].
  rewrite E. cbn [app]. apply (reads_one _ _ _ (AtOptionIs o w)).
  { cbn [step]. rewrite (any_word w N). destruct o; reflexivity. }
  apply (reads_one _ _ _ (AtOptionValue o w)); [reflexivity|]. apply (reads_one _ _ _ (AfterOption o (w, v))); [|exact R].
  cbn [step]. now rewrite A.
Qed.

(** The options of a field up to the bracket. *)
Definition plus (f : sfield) (l : list sopt) : sfield := SField (sf_mod f) (sf_type f) (sf_name f) (sf_number f) (sf_opts f ++ l).

Lemma plus_nil f : plus f [] = f.
Proof. destruct f. unfold plus. cbn. now rewrite app_nil_r. Qed.

Lemma opts_reads name items l ps : opts_spelled l ps -> Forall opt_ok l -> forall f,
  reads (AtOption (InField name items f)) (ps ++ [PcSym "]"]) = Some ([], AfterBracket name items (plus f l)) /\
  forall x, reads (AfterOption (InField name items f) x) (ps ++ [PcSym "]"]) = Some ([], AfterBracket name items (plus (with_option f x) l)).
Proof.
  induction 1 as [|o l ps H IH|o l ps H IH]; intros O f.
  - rewrite plus_nil. split; [reflexivity|]. intros x. rewrite plus_nil. reflexivity.
  - inversion O as [|? ? O1 O2]; subst.
    assert (J : forall f, reads (AtOption (InField name items f)) ((opt_pieces o ++ ps) ++ [PcSym "]"]) = Some ([], AfterBracket name items (plus f (o :: l)))).
    { intros g. rewrite <- app_assoc. apply (opt_reads (InField name items g) o _ _ _ O1). destruct (IH O2 g) as [_ R]. rewrite R. unfold plus. cbn. now rewrite <- app_assoc. }
    split; [apply J|]. intros x. rewrite <- (J (with_option f x)). destruct o as [w v]. destruct O1 as [N V]. unfold opt_pieces.
    cbn [fst snd app reads step sym]. now rewrite (any_word w N).
  - inversion O as [|? ? O1 O2]; subst.
    assert (J : forall f, reads (AtOption (InField name items f)) ((opt_pieces o ++ PcSym "," :: ps) ++ [PcSym "]"]) = Some ([], AfterBracket name items (plus f (o :: l)))).
    { intros g. rewrite <- app_assoc. apply (opt_reads (InField name items g) o _ _ _ O1). cbn [app]. apply (reads_one _ _ _ (AtOption (InField name items (with_option g o)))); [reflexivity|].
      destruct (IH O2 (with_option g o)) as [R _]. rewrite R. unfold plus. cbn. now rewrite <- app_assoc. }
    split; [apply J|]. intros x. rewrite <- (J (with_option f x)). destruct o as [w v]. destruct O1 as [N V]. unfold opt_pieces.
    cbn [fst snd app reads step sym]. now rewrite (any_word w N).
Qed.

Lemma add_field_reads name items f : ~ In (sf_number f) (map sf_number (item_fields items)) ->
  add_field name items f = Go [] (AtItem name (items ++ [SIField f])).
Proof.
  intros N. unfold add_field. destruct (find _ (item_fields items)) as [g|] eqn:F; [|reflexivity].
  apply find_some in F. destruct F as [I E]. apply Z.eqb_eq in E. elim N. rewrite <- E. now apply in_map.
Qed.

Lemma bracket_reads name items m t w z l ps : bracket_spelled l ps -> Forall opt_ok l ->
  ~ In z (map sf_number (item_fields items)) ->
  reads (AfterNumber name items (SField m t w z [])) (ps ++ [PcSym ";"]) = Some ([], AtItem name (items ++ [SIField (SField m t w z l)])).
Proof.
  intros B O N. destruct B as [|l ps H].
  - cbn [app reads step sym]. replace (Ascii.eqb ";" "[") with false by reflexivity. replace (Ascii.eqb ";" ";") with true by reflexivity.
    rewrite add_field_reads; [reflexivity|exact N].
  - cbn [app]. apply (reads_one _ _ _ (AtOption (InField name items (SField m t w z [])))); [reflexivity|].
    rewrite <- app_assoc. destruct (opts_reads name items l ps H O (SField m t w z [])) as [R _].
    rewrite app_assoc. apply (reads_cat _ _ _ [] _ [] _ R). cbn [reads step sym]. replace (Ascii.eqb ";" ";") with true by reflexivity.
    rewrite add_field_reads; [reflexivity|exact N].
Qed.

Lemma item_reads name items i ps : item_spelled i ps -> item_ok i -> NoDup (map sf_number (item_fields (items ++ [i]))) ->
  reads (AtItem name items) ps = Some ([], AtItem name (items ++ [i])).
Proof.
  intros H O ND. destruct H as [f ds ps N B|o].
  - destruct f as [m t w z l]. cbn [sf_mod sf_type sf_name sf_number sf_opts] in *. destruct O as (T & M & Z & Op). cbn [sf_mod sf_type sf_name sf_number sf_opts] in *.
    rewrite item_fields_app, map_app in ND. cbn [item_fields flat_map app map sf_number] in ND.
    apply (NoDup_Add (Add_app _ _ [])) in ND. rewrite app_nil_r in ND. destruct ND as [_ ND].
    assert (Tail : reads (AtName name items m t) ([PcWord w; PcSym "="; PcNum ds] ++ ps ++ [PcSym ";"]) = Some ([], AtItem name (items ++ [SIField (SField m t w z l)]))).
    { cbn [app]. apply (reads_one _ _ _ (AtIs name items m t w)); [cbn [step]; now rewrite (own_word w M)|].
      apply (reads_one _ _ _ (AtNumber name items m t w)); [reflexivity|].
      apply (reads_one _ _ _ (AfterNumber name items (SField m t w z []))).
      { cbn [step]. rewrite N. apply number_iff in Z. now rewrite Z. }
      now apply bracket_reads. }
    destruct m; cbn [mod_pieces app].
    + refine (reads_one _ _ _ (AtName name items SPlain t) _ _ _ Tail). cbn [step sym]. rewrite (type_reads t T).
      destruct t as [| | | | | | | | | | | | | | |v]; try reflexivity. cbn [type_word type_ok] in *.
      rewrite !(plain_keys _ v T) by inres. reflexivity.
    + apply (reads_one _ _ _ (AtType name items SRepeated)); [reflexivity|].
      refine (reads_one _ _ _ (AtName name items SRepeated t) _ _ _ Tail). cbn [step]. now rewrite (type_reads t T).
    + apply (reads_one _ _ _ (AtType name items SOptional)); [reflexivity|].
      refine (reads_one _ _ _ (AtName name items SOptional t) _ _ _ Tail). cbn [step]. now rewrite (type_reads t T).
  - unfold option_pieces. cbn [app]. apply (reads_one _ _ _ (AtOption (InMessage name items))); [reflexivity|].
    apply opt_reads; [exact O|]. reflexivity.
Qed.

Lemma nodup_front {A} (u v : list A) : NoDup (u ++ v) -> NoDup u.
Proof.
  induction u as [|a u IH]; intros H; [constructor|]. inversion H as [|? ? N H2]; subst. constructor; [|auto].
  intros I. apply N. apply in_or_app. now left.
Qed.

Lemma items_reads name l ps : items_spelled l ps -> Forall item_ok l -> forall items,
  NoDup (map sf_number (item_fields (items ++ l))) -> reads (AtItem name items) ps = Some ([], AtItem name (items ++ l)).
Proof.
  induction 1 as [|i l ps qs H _ IH]; intros O items ND; [now rewrite app_nil_r|]. inversion O as [|? ? O1 O2]; subst.
  replace (items ++ i :: l) with ((items ++ [i]) ++ l) in * by now rewrite <- app_assoc.
  apply (reads_cat _ _ _ [] (AtItem name (items ++ [i])) []); [|now apply IH].
  apply item_reads; auto. rewrite (item_fields_app (items ++ [i])) in ND. rewrite map_app in ND. now apply nodup_front in ND.
Qed.

Lemma message_reads name items ps : member_name name -> items_spelled items ps -> Forall item_ok items ->
  NoDup (map sf_number (item_fields items)) ->
  reads AtDecl ([PcWord (b "message"); PcWord name; PcSym "{"] ++ ps) = Some ([], AtItem name items).
Proof.
  intros M I O ND. cbn [app]. apply (reads_one _ _ _ AtMessageName); [reflexivity|].
  apply (reads_one _ _ _ (AtMessageOpen name)); [cbn [step]; now rewrite (own_word name M)|].
  apply (reads_one _ _ _ (AtItem name [])); [reflexivity|]. exact (items_reads name items ps I O [] ND).
Qed.

Lemma spelled_reads l ps : spelled l ps -> Forall decl_ok l -> reads AtDecl ps = Some (l, AtDecl).
Proof.
  induction 1 as [|name items l ps qs I _ IH|d l qs D _ IH]; intros O; [reflexivity| |]; inversion O as [|? ? O1 O2]; subst.
  - destruct O1 as (M & Oi & ND). rewrite app_assoc. apply (reads_cat _ _ _ [] (AtItem name items) (SDMessage name items :: l)).
    + now apply message_reads.
    + cbn [reads step sym]. replace (Ascii.eqb "}" "}") with true by reflexivity. now rewrite (IH O2).
  - apply (reads_cat _ _ _ [d] AtDecl l); [|auto]. destruct d as [|w|x|]; [reflexivity| | |contradiction].
    + cbn [decl_pieces]. apply (reads_one _ _ _ AtPackage); [reflexivity|].
      apply (reads_one _ _ _ (AtPackageEnd w)); [cbn [step]; now rewrite (any_word w O1)|reflexivity].
    + cbn [decl_pieces]. unfold option_pieces. cbn [app]. apply (reads_one _ _ _ (AtOption InFile)); [reflexivity|]. now apply opt_reads.
Qed.

Lemma spelled_closes l ps : spelled_open l ps -> Forall decl_ok l ->
  exists l0 s l', reads AtDecl ps = Some (l0, s) /\ closes s = Some l' /\ l = l0 ++ l'.
Proof.
  intros [l0 ps0 H|l0 ps0 name items qs H I] O.
  - exists l0, AtDecl, []. split; [now apply spelled_reads|]. split; [reflexivity|now rewrite app_nil_r].
  - apply Forall_app in O. destruct O as [O1 O2]. inversion O2 as [|? ? O3 _]; subst. destruct O3 as (M & Oi & ND).
    exists l0, (AtItem name items), [SDMessage name items]. split; [|auto].
    rewrite <- (app_nil_r l0). apply (reads_cat _ _ _ _ AtDecl []); [now apply spelled_reads|now apply message_reads].
Qed.

(** ** The accepted texts *)
Lemma missing_resolved l : missing l = [] <-> resolved (messages_of [] l).
Proof.
  change (missing l) with (flat_map (fun d : bytes * bytes * list sitem => let '(pkg, _, items) := d in
    flat_map (lacks (messages_of [] l) pkg) (item_fields items)) (messages_of [] l)).
  split.
  - intros H pkg name items f w I1 I2 T. apply in_first_named, declares_in.
    destruct (declares (messages_of [] l) (full_name pkg w)) eqn:D; [reflexivity|]. exfalso.
    assert (X : In (full_name pkg w) []); [|contradiction]. rewrite <- H. apply in_flat_map. exists (pkg, name, items). split; [exact I1|].
    apply in_flat_map. exists f. split; [exact I2|]. unfold lacks. rewrite T, D. now left.
  - intros R. match goal with |- ?x = [] => destruct x as [|q r] eqn:E; [reflexivity|exfalso] end.
    assert (X : In q (q :: r)) by now left. rewrite <- E in X. apply in_flat_map in X. destruct X as ([[pkg name] items] & I1 & X).
    apply in_flat_map in X. destruct X as (f & I2 & X). unfold lacks in X.
    destruct (sf_type f) as [| | | | | | | | | | | | | | |w] eqn:T; try contradiction.
    destruct (R pkg name items f w I1 I2 T) as (k & K). apply first_named_in, declares_in in K. rewrite K in X. contradiction.
Qed.

Lemma laid_ok stray ps x next : laid stray ps x next -> Forall piece_ok ps.
Proof. induction 1; constructor; auto. Qed.

Lemma meaning_written text l : meaning text (VSchema l) <-> written text l /\ schema_ok l.
Proof.
  split.
  - intros H. inversion H as [x next l0 s l' (E & ps & L & R) N C M| | | | | | |]; subst.
    destruct (closes_spelled ps l0 s l' (laid_ok _ _ _ _ L) R C) as [Sp Od]. split.
    + exists ps, x, next. auto.
    + split; [exact Od|now apply missing_resolved].
  - intros [(ps & x & next & E & L & N & Sp) [Od Rs]]. destruct (spelled_closes l ps Sp Od) as (l0 & s & l' & R & C & ->).
    eapply mn_schema; [split; [exact E|exists ps; split; [exact L|exact R]]|exact N|exact C|now apply missing_resolved].
Qed.
