(** Codes of the tokens and the tests of SpecReads (C60). *)
From Verif Require Import Bytes BaseProofs Num SpecNum IntProofs ProtoLex ProtoParse SpecProto SpecSchema PLexProofs PNextProofs PSimProofs PRunProofs PTermProofs PSchemaProofs PAcceptProofs SpecReads.

(** ** Tokens and their codes *)
Lemma with_dot_eq w : with_dot w = has_dot w.
Proof. reflexivity. Qed.

Lemma reserved_false w : reserved w = false -> forall k, In k reserved_words -> bytes_eqb w k = false.
Proof.
  intros H k I. unfold reserved in H. destruct (bytes_eqb w k) eqn:E; [|reflexivity].
  assert (X : existsb (bytes_eqb w) reserved_words = true) by (apply existsb_exists; exists k; auto). congruence.
Qed.

Lemma reserved_spec w : reserved w = false <-> ~ In w reserved_words.
Proof.
  split.
  - intros H I. pose proof (reserved_false w H w I) as E. rewrite bytes_eqb_refl in E. discriminate E.
  - intros N. unfold reserved. destruct (existsb (bytes_eqb w) reserved_words) eqn:E; [|reflexivity].
    apply existsb_exists in E. destruct E as (k & I & E). apply bytes_eqb_true in E. subst. contradiction.
Qed.

(** The three kinds of words. *)
Lemma word_kinds w : (exists c, In (w, c) keywords /\ code_of (PcWord w) = c) \/
  (reserved w = false /\ with_dot w = false /\ code_of (PcWord w) = KName) \/
  (reserved w = false /\ with_dot w = true /\ code_of (PcWord w) = KQName).
Proof.
  cbn [code_of]. change (with_dot w) with (has_dot w). destruct (has_dot w) eqn:D.
  - right; right. split; [|auto]. apply reserved_spec. intros I.
    assert (X : forallb (fun k => negb (has_dot k)) reserved_words = true) by (vm_compute; reflexivity).
    rewrite forallb_forall in X. specialize (X w I). now rewrite D in X.
  - destruct (keyword_cases keywords w) as [[A B]|(c & A & B)].
    + right; left. split; [|auto]. apply reserved_spec. now rewrite <- keywords_reserved.
    + left. exists c. auto.
Qed.

Ltac kinds p := destruct p as [w|ds|str|ch];
  [destruct (word_kinds w) as [(kc & KI & KE)|[(KR & KD & KE)|(KR & KD & KE)]];
    [unfold keywords in KI; cbn [In] in KI;
     repeat (destruct KI as [KI|KI]; [injection KI as <- <-; clear KE|]); [..|contradiction]| |] | | | ].

Lemma key_name k w : reserved w = false -> In (b k) reserved_words -> key k (PcWord w) = false.
Proof. intros R I. cbn [key]. now apply reserved_false. Qed.

Ltac inres := unfold reserved_words; cbn [map In]; tauto.
Ltac keys KR := repeat (rewrite (key_name _ _ KR) by inres).

Ltac syms O := cbn [piece_ok] in O; repeat (destruct O as [<-|O]; [|]); [..|contradiction].

Lemma own_code p : piece_ok p -> own_name p = if name_code (code_of p) then Some (value_of p) else None.
Proof.
  intros O. kinds p; try reflexivity; try (vm_compute; reflexivity).
  - unfold own_name. rewrite KE, KR, KD. reflexivity.
  - unfold own_name. rewrite KE, KR, KD. keys KR. reflexivity.
  - syms O; reflexivity.
Qed.

Lemma any_code p : piece_ok p -> any_name p = match code_of p with KName | KQName => Some (value_of p) | _ => None end.
Proof.
  intros O. kinds p; try reflexivity; try (vm_compute; reflexivity).
  - unfold any_name. rewrite KE, KR. reflexivity.
  - unfold any_name. rewrite KE, KR. reflexivity.
  - syms O; reflexivity.
Qed.

Ltac rwcode := match goal with H : code_of _ = _ |- _ => rewrite H end.
Ltac key_tac O p := kinds p; try reflexivity; try (vm_compute; reflexivity);
  [..|syms O; reflexivity]; rwcode; cbn [key]; (apply reserved_false; [assumption|inres]).

Lemma key_message p : piece_ok p -> key "message" p = match code_of p with KMessage => true | _ => false end.
Proof. intros O. key_tac O p. Qed.
Lemma key_package p : piece_ok p -> key "package" p = match code_of p with KPackage => true | _ => false end.
Proof. intros O. key_tac O p. Qed.
Lemma key_syntax p : piece_ok p -> key "syntax" p = match code_of p with KSyntax => true | _ => false end.
Proof. intros O. key_tac O p. Qed.
Lemma key_option p : piece_ok p -> key "option" p = match code_of p with KOption => true | _ => false end.
Proof. intros O. key_tac O p. Qed.
Lemma key_repeated p : piece_ok p -> key "repeated" p = match code_of p with KRepeated => true | _ => false end.
Proof. intros O. key_tac O p. Qed.
Lemma key_optional p : piece_ok p -> key "optional" p = match code_of p with KOptional => true | _ => false end.
Proof. intros O. key_tac O p. Qed.

Ltac sym_tac O p := kinds p; try reflexivity; try (vm_compute; reflexivity);
  [..|syms O; reflexivity]; rwcode; reflexivity.
Lemma sym_semi p : piece_ok p -> sym ";" p = match code_of p with KScolon => true | _ => false end.
Proof. intros O. sym_tac O p. Qed.
Lemma sym_equal p : piece_ok p -> sym "=" p = match code_of p with KEqual => true | _ => false end.
Proof. intros O. sym_tac O p. Qed.
Lemma sym_begin p : piece_ok p -> sym "{" p = match code_of p with KBegin => true | _ => false end.
Proof. intros O. sym_tac O p. Qed.
Lemma sym_close p : piece_ok p -> sym "}" p = match code_of p with KEnd => true | _ => false end.
Proof. intros O. sym_tac O p. Qed.
Lemma sym_comma p : piece_ok p -> sym "," p = match code_of p with KComma => true | _ => false end.
Proof. intros O. sym_tac O p. Qed.
Lemma sym_lb p : piece_ok p -> sym "[" p = match code_of p with KLbracket => true | _ => false end.
Proof. intros O. sym_tac O p. Qed.
Lemma sym_rb p : piece_ok p -> sym "]" p = match code_of p with KRbracket => true | _ => false end.
Proof. intros O. sym_tac O p. Qed.

Definition no_message (t : stype) : Prop := match t with SMessage _ => False | _ => True end.

Lemma type_code p : piece_ok p ->
  match code_of p with
  | KType f => exists t, a_type p = Some t /\ scalar_type t = f /\ no_message t
  | KName | KQName => a_type p = Some (SMessage (value_of p))
  | _ => a_type p = None
  end.
Proof.
  intros O.
  assert (N : forall w, reserved w = false -> a_type (PcWord w) = Some (SMessage w)).
  { intros w R. unfold a_type, scalars. cbn [find type_word]. do 15 (rewrite (reserved_false w R) by inres).
    unfold any_name. rewrite R. reflexivity. }
  kinds p; try (vm_compute; reflexivity); try (eexists; split; [vm_compute; reflexivity|split; [reflexivity|exact I]]).
  - rewrite KE. now apply N.
  - rewrite KE. now apply N.
  - syms O; vm_compute; reflexivity.
Qed.

Lemma value_code p : piece_ok p ->
  match option_type (code_of p) with
  | Some ty => exists v, a_value p = Some v /\ value_type v = ty /\ value_text v = value_of p
  | None => a_value p = None
  end.
Proof.
  intros O. kinds p; try (vm_compute; reflexivity); try (eexists; split; [reflexivity|split; reflexivity]).
  - rewrite KE. cbn [option_type a_value]. keys KR. unfold any_name. rewrite KR. eexists. split; [reflexivity|split; reflexivity].
  - rewrite KE. cbn [option_type a_value]. keys KR. unfold any_name. rewrite KR. eexists. split; [reflexivity|split; reflexivity].
  - syms O; vm_compute; reflexivity.
Qed.

Lemma num_code p : piece_ok p ->
  match code_of p with KInteger => exists ds, p = PcNum ds | _ => match p with PcNum _ => False | _ => True end end.
Proof.
  intros O. kinds p; try (vm_compute; exact I); try (rewrite KE; exact I).
  - exists ds. reflexivity.
  - syms O; exact I.
Qed.

Lemma str_code p : piece_ok p ->
  match code_of p with KString => exists s, p = PcStr s | _ => match p with PcStr _ => False | _ => True end end.
Proof.
  intros O. kinds p; try (vm_compute; exact I); try (rewrite KE; exact I).
  - exists str. reflexivity.
  - syms O; exact I.
Qed.

Lemma not_eof p : piece_ok p -> code_of p <> KEof.
Proof. intros O. kinds p; try (vm_compute; discriminate); try (rewrite KE; discriminate). syms O; discriminate. Qed.
