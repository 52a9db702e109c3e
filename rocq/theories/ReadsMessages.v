(** The errors that occur, and those that do not (C60). *)
From Verif Require Import Bytes BaseProofs Num IntProofs SpecProto SpecPos SpecSchema ProtoLex ProtoParse PLexProofs PNextProofs PTermProofs PSchemaProofs PAcceptProofs PRenderProofs PSamples SpecReads ReadsCode ReadsProofs ReadsLift ReadsGrammar.

Lemma reserved_no_dot w : In w reserved_words -> has_dot w = false.
Proof.
  intros I. assert (X : forallb (fun k => negb (has_dot k)) reserved_words = true) by (vm_compute; reflexivity).
  rewrite forallb_forall in X. specialize (X w I). now apply negb_true_iff in X.
Qed.

Lemma dotted_cat u v : dotted u -> dotted v -> dotted (u ++ "."%char :: v).
Proof.
  intros H V. induction H as [u I|u r I _ IH]; [now constructor|]. rewrite <- app_assoc. cbn [app]. now apply dot_more.
Qed.

Lemma full_plain pkg w : pkg = [] \/ plain_dotted pkg -> plain_dotted w -> plain_dotted (full_name pkg w).
Proof.
  intros P W. destruct P as [->|P]; [exact W|]. unfold full_name. destruct pkg as [|c pkg]; [exact W|].
  split; [apply dotted_cat; [apply P|apply W]|]. intros I. apply reserved_no_dot in I. unfold has_dot in I. rewrite existsb_app in I.
  apply orb_false_iff in I. destruct I as [_ I]. cbn [existsb] in I. discriminate I.
Qed.

Lemma messages_ok l : Forall decl_ok l -> forall pkg0, pkg0 = [] \/ plain_dotted pkg0 ->
  forall pkg name items, In (pkg, name, items) (messages_of pkg0 l) -> (pkg = [] \/ plain_dotted pkg) /\ Forall item_ok items.
Proof.
  induction 1 as [|d l D _ IH]; intros pkg0 P pkg name items I; [contradiction|].
  destruct d as [|w|o|n i]; cbn [messages_of] in I.
  - exact (IH _ P _ _ _ I).
  - apply (IH w) in I; [exact I|]. right. exact D.
  - exact (IH _ P _ _ _ I).
  - destruct I as [E|I]; [|exact (IH _ P _ _ _ I)]. injection E as <- <- <-. split; [exact P|]. apply D.
Qed.

Lemma item_fields_ok items f : Forall item_ok items -> In f (item_fields items) -> field_ok f.
Proof.
  intros O I. unfold item_fields in I. apply in_flat_map in I. destruct I as ([g|o] & I & J); [|contradiction].
  destruct J as [<-|[]]. rewrite Forall_forall in O. exact (O _ I).
Qed.

Lemma missing_plain l q : Forall decl_ok l -> In q (missing l) -> plain_dotted q.
Proof.
  intros O I. change (missing l) with (flat_map (fun d : bytes * bytes * list sitem => let '(pkg, _, items) := d in
    flat_map (lacks (messages_of [] l) pkg) (item_fields items)) (messages_of [] l)) in I.
  apply in_flat_map in I. destruct I as ([[pkg name] items] & I & J).
  apply in_flat_map in J. destruct J as (f & I2 & J). unfold lacks in J.
  destruct (sf_type f) as [| | | | | | | | | | | | | | |w] eqn:T; try contradiction.
  destruct (declares (messages_of [] l) (full_name pkg w)); [contradiction|]. destruct J as [<-|[]].
  destruct (messages_ok l O [] (or_introl eq_refl) _ _ _ I) as [P Oi]. apply full_plain; [exact P|].
  pose proof (item_fields_ok _ _ Oi I2) as (K & _). rewrite T in K. exact K.
Qed.

Lemma complaint_fixed s : In (complaint s) fixed_messages.
Proof. unfold fixed_messages. destruct s as [| | | | | | | | | | | | | | | | | |[| |] x]; cbn [complaint map In]; tauto. Qed.

Lemma add_reported name items f q fq m : head_of name items q -> field_of f fq ->
  add_field name items f = Wrong m -> reported m.
Proof.
  intros (ps & _ & _ & _ & O & _) (ds & _ & _ & _ & M & _) A. unfold add_field in A.
  destruct (find (fun g => sf_number g =? sf_number f) (item_fields items)) as [g|] eqn:F; [|discriminate A]. injection A as <-.
  apply find_some in F. destruct F as [I _]. pose proof (item_fields_ok _ _ O I) as (_ & N & _).
  now apply (rp_same _ (sf_name g) (sf_name f)).
Qed.

Lemma wrong_reported s q p m : so_far s q -> step s p = Wrong m -> reported m.
Proof.
  intros H St.
  assert (J : complaint s = m -> reported m) by (intros <-; apply rp_fixed, complaint_fixed).
  destruct s as [|  |name| |w| | |v|name items|name items mo|name items mo t|name items mo t w|name items mo t w|name items f|name items f|o|o w|o w|o x];
    cbn [so_far] in H; cbn [step] in St.
  all: try (repeat match type of St with (if ?c then _ else _) = _ => destruct c | match ?c with Some _ => _ | None => _ end = _ => destruct c end;
    try discriminate St; apply J; now injection St).
  - destruct p; try (apply J; now injection St). discriminate St.
  - destruct (sym ";" p); [|apply J; now injection St]. destruct (bytes_eqb v (b "proto3")); [discriminate St|].
    injection St as <-. apply rp_fixed. unfold fixed_messages. cbn [map In]. tauto.
  - destruct p as [|ds| |]; try (apply J; now injection St). destruct (number_fine (number_of ds)); [discriminate St|].
    injection St as <-. apply rp_fixed. unfold fixed_messages. cbn [map In]. tauto.
  - destruct H as (q0 & fq & H & Ff & _). destruct (sym "[" p); [discriminate St|].
    destruct (sym ";" p); [|apply J; now injection St]. exact (add_reported name items f q0 fq m H Ff St).
  - destruct H as (q0 & fq & bq & H & Ff & _). destruct (sym ";" p); [|apply J; now injection St].
    exact (add_reported name items f q0 fq m H Ff St).
  - destruct o; repeat match type of St with (if ?c then _ else _) = _ => destruct c | match ?c with Some _ => _ | None => _ end = _ => destruct c end;
      try discriminate St; apply J; now injection St.
  - destruct o; cbv zeta in St; repeat match type of St with (if ?c then _ else _) = _ => destruct c | match ?c with Some _ => _ | None => _ end = _ => destruct c end;
      try discriminate St; apply J; now injection St.
Qed.

Lemma meaning_reported text m line col : meaning text (VError m line col) -> reported m.
Proof.
  intros H. inversion H as [|x next l s l' q r (E & ps & L & R) N C Mi|x sp p next l s m' line' col' (E & ps & L & R) S O M St Lc|x next l s line' col' R N C Lc
    |x next l s R N C|x sp c next l s line' col' R S O Lc|x sp w next l s line' col' R S D O Lc|]; subst.
  - apply (rp_missing _ q); [|reflexivity]. destruct (closes_spelled ps l s l' (laid_ok _ _ _ _ L) R C) as [_ Od].
    apply (missing_plain (l ++ l') q Od). rewrite Mi. now left.
  - destruct (reads_spelled ps AtDecl [] l s (laid_ok _ _ _ _ L) eq_refl R) as (q1 & q2 & _ & _ & _ & F).
    exact (wrong_reported s q2 p m F St).
  - apply rp_fixed, complaint_fixed.
  - apply rp_fixed, complaint_fixed.
  - apply rp_fixed. unfold fixed_messages. cbn [map In]. tauto.
  - apply rp_fixed. unfold fixed_messages. cbn [map In]. tauto.
Qed.

(** ** Every one of them occurs *)
Lemma member_plain w : member_name w -> piece_ok (PcWord w).
Proof. exact (member_ok w). Qed.

Definition clash_pieces (x y : bytes) : list piece :=
  [PcWord (b "message"); PcWord (b "message"); PcSym "{"; PcWord (b "int32"); PcWord x; PcSym "="; PcNum (b "1"); PcSym ";";
   PcWord (b "int32"); PcWord y; PcSym "="; PcNum (b "1")].

Lemma one_ok : piece_ok (PcNum (b "1")).
Proof. cbn. split; [discriminate|]. constructor; [|constructor]. unfold pdigit. vm_compute. split; discriminate. Qed.

Ltac in9 := cbn [piece_ok]; vm_compute; tauto.

Lemma clash_reported x y : member_name x -> member_name y -> exists text line col,
  meaning text (VError (b "Field '" ++ x ++ b "' has the same index as '" ++ y ++ b "'") line col).
Proof.
  intros X Y.
  assert (O : Forall piece_ok (clash_pieces x y)).
  { unfold clash_pieces. repeat apply Forall_cons; try (apply word_ok; inres); try (apply member_plain; assumption); try exact one_ok; try in9. constructor. }
  pose proof (render_laid true (clash_pieces x y) (" "%char :: spelling (PcSym ";") ++ [])) as L.
  set (next := " "%char :: spelling (PcSym ";") ++ []) in *.
  assert (L' : laid true (clash_pieces x y) (render (clash_pieces x y)) next).
  { apply L; [exact O|]. right. eexists _, _. split; [reflexivity|]. cbn. auto. }
  assert (B : blank " ") by (cbn; auto).
  eexists _, _, _. eapply (mn_token _ (render (clash_pieces x y)) [" "%char] (PcSym ";") []).
  - split; [reflexivity|]. exists (clash_pieces x y). split; [exact L'|]. unfold clash_pieces.
    apply (reads_one _ _ _ AtMessageName); [reflexivity|].
    apply (reads_one _ _ _ (AtMessageOpen (b "message"))); [reflexivity|].
    apply (reads_one _ _ _ (AtItem (b "message") [])); [reflexivity|].
    apply (reads_one _ _ _ (AtName (b "message") [] SPlain SInt32)); [reflexivity|].
    apply (reads_one _ _ _ (AtIs (b "message") [] SPlain SInt32 x)); [cbn [step]; now rewrite (own_word x X)|].
    apply (reads_one _ _ _ (AtNumber (b "message") [] SPlain SInt32 x)); [reflexivity|].
    apply (reads_one _ _ _ (AfterNumber (b "message") [] (SField SPlain SInt32 x 1 []))); [reflexivity|].
    apply (reads_one _ _ _ (AtItem (b "message") [SIField (SField SPlain SInt32 x 1 [])])); [reflexivity|].
    apply (reads_one _ _ _ (AtName (b "message") [SIField (SField SPlain SInt32 x 1 [])] SPlain SInt32)); [reflexivity|].
    apply (reads_one _ _ _ (AtIs (b "message") [SIField (SField SPlain SInt32 x 1 [])] SPlain SInt32 y)); [cbn [step]; now rewrite (own_word y Y)|].
    apply (reads_one _ _ _ (AtNumber (b "message") [SIField (SField SPlain SInt32 x 1 [])] SPlain SInt32 y)); [reflexivity|].
    apply (reads_one _ _ _ (AfterNumber (b "message") [SIField (SField SPlain SInt32 x 1 [])] (SField SPlain SInt32 y 1 []))); reflexivity.
  - apply sep_blank; [exact B|constructor].
  - in9.
  - exact Logic.I.
  - reflexivity.
  - apply npos_line_col.
Qed.

Lemma missing_reported q : plain_dotted q -> exists text line col, meaning text (VError (b "Unable to find message '" ++ q ++ b "'") line col).
Proof.
  intros Q. set (l := [SDMessage (b "message") [SIField (SField SPlain (SMessage q) (b "message") 1 [])]]).
  assert (Od : Forall decl_ok l).
  { constructor; [|constructor]. split; [right; left; reflexivity|]. split.
    - constructor; [|constructor]. cbn [item_ok]. split; [exact Q|]. split; [right; left; reflexivity|]. split; [|constructor].
      cbn [sf_number]. unfold number_ok. lia.
    - constructor; [intros []|constructor]. }
  assert (Mi : missing l = [q]).
  { unfold l, missing. cbn [messages_of flat_map item_fields app sf_type full_name existsb].
    destruct (bytes_eqb (b "message") q) eqn:E; [|reflexivity]. apply bytes_eqb_true in E. subst q. destruct Q as [_ Q]. elim Q. inres. }
  assert (L : laid true (schema_pieces l) (render (schema_pieces l)) []).
  { apply render_laid; [now apply schema_pieces_ok|now left]. }
  exists (render (schema_pieces l)), 0, 0. rewrite <- (app_nil_r l) in Mi.
  eapply (mn_missing _ (render (schema_pieces l)) [] l AtDecl [] q []); [|left|reflexivity|exact Mi].
  - split; [now rewrite app_nil_r|]. exists (schema_pieces l). split; [exact L|]. apply spelled_reads; [|exact Od].
    unfold l, schema_pieces. cbn [flat_map]. rewrite app_nil_r. cbn [decl_pieces]. unfold message_head. rewrite <- !app_assoc.
    refine (sp_message (b "message") _ [] _ [] _ sp_nil). cbn [flat_map]. rewrite app_nil_r.
    pose proof (it_cons (SIField (SField SPlain (SMessage q) (b "message") 1 [])) [] _ []
      (is_field (SField SPlain (SMessage q) (b "message") 1 []) (b "1") [] eq_refl bs_none) it_nil) as J. rewrite app_nil_r in J. exact J.
  - exists []. split; [constructor|now left].
Qed.

Definition quoted (s : string) : bytes := map (fun c => if Ascii.eqb c "'" then chr 34 else c) (b s).
Definition fixed_samples : list (string * bytes) :=
  [("Invalid symbol", b "?"); ("Invalid identifier", b "a."); ("Invalid option value", b "option a = ;"); ("Expected '='", b "option a ;");
   ("Missing option name", b "option ;"); ("Missing field type", b "message M { = }"); ("Missing field name", b "message M { int32 ; }");
   ("Invalid field index", b "message M { int32 a = 0; }"); ("Expected ';'", b "message M { int32 a = 1 }");
   ("Missing field index", b "message M { int32 a = ; }"); ("Missing message body", b "message M ;"); ("Invalid message", b "message ;");
   ("Invalid package", b "package ;"); ("Invalid syntax", b "syntax = 1;"); ("Invalid language version", quoted "syntax = 'proto2';");
   ("Unexpected token", b ";")]%string.

Lemma fixed_reported m : In m fixed_messages -> exists text line col, parse text [] = PThrow m line col.
Proof.
  intros I.
  assert (X : forallb (fun q => match parse (snd q) [] with PThrow e _ _ => bytes_eqb e (b (fst q)) | _ => false end) fixed_samples = true) by (vm_compute; reflexivity).
  assert (Y : fixed_messages = map (fun q => b (fst q)) fixed_samples) by reflexivity. rewrite Y in I. clear Y.
  apply in_map_iff in I. destruct I as (q & <- & I). rewrite forallb_forall in X. specialize (X q I). cbv beta in X.
  exists (snd q). destruct (parse (snd q) []) as [|e line col| |]; try discriminate X. apply bytes_eqb_true in X. subst e. eauto.
Qed.

Lemma reported_iff m : (exists text file line col, parse text file = PThrow m line col) <-> reported m.
Proof.
  split.
  - intros (text & file & line & col & P). apply error_iff in P. exact (meaning_reported _ _ _ _ P).
  - intros [I|x y X Y ->|q Q ->].
    + destruct (fixed_reported m I) as (text & line & col & P). eauto.
    + destruct (clash_reported x y X Y) as (text & line & col & P). exists text, [], line, col. now apply error_iff.
    + destruct (missing_reported q Q) as (text & line & col & P). exists text, [], line, col. now apply error_iff.
Qed.

Lemma no_bracket_error text file line col : parse text file <> PThrow (b "Expected ']'") line col.
Proof.
  intros P. assert (R : reported (b "Expected ']'")) by (apply reported_iff; eauto).
  destruct R as [I|x y _ _ E|q _ E]; [|discriminate E|discriminate E].
  unfold fixed_messages in I. cbn [map In] in I. repeat (destruct I as [I|I]; [discriminate I|]). contradiction.
Qed.
