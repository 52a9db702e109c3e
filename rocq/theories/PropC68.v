(** C68: what the text of iterator_istream and of tokenizer (protogen.hh) does, read and executed as C++. *)
From Verif Require Import Bytes Stream Tokenizer HdrText CExec HParse HExec HTok LexView SpecHTok HGlueProofs.

(** The functions of iterator_istream. *)
Theorem C68_stream : forall t, fits (tk_in t) ->
  text_gives OIn "eof" [] t (HV (HB (is_eof (tk_in t)))) t /\ text_gives OIn "peek" [] t (HV (HI IInt (is_peek (tk_in t)))) t /\
  text_gives OIn "line" [] t (HV (HI IInt (is_line (tk_in t)))) t /\ text_gives OIn "column" [] t (HV (HI IInt (is_col (tk_in t)))) t /\
  text_gives OIn "next" [] t (HV HVoid) (with_stream t (is_next (tk_in t))) /\
  text_gives OIn "skip" [] t (HV HVoid) (with_stream t (skip_lf (is_rest (tk_in t)) (is_line (tk_in t)) (is_col (tk_in t)))).
Proof. exact text_in. Qed.
Print Assumptions C68_stream.

(** The functions of tokenizer: every result of the model is the result of the text. *)
Theorem C68_next : forall n t t', fits (tk_in t) -> tk_next n t = Some t' -> text_gives OTok "next" [] t (HL RCur []) t'.
Proof. exact text_next. Qed.
Print Assumptions C68_next.

Theorem C68_expect : forall n ty t r t', fits (tk_in t) -> tk_expect n ty t = Some (r, t') ->
  text_gives OTok "expect" [HV (HI ITid (tid_z ty))] t (HV (HB r)) t'.
Proof. exact text_expect. Qed.
Print Assumptions C68_expect.

Theorem C68_error : forall t c m,
  text_gives OTok "error" [HV (HI IErr (err_z c)); HV (HPtr m)] t (HV (HI IInt (pgr_z PGR_ERROR))) (tk_error c (cstr m) t).
Proof. exact text_error. Qed.
Print Assumptions C68_error.

Theorem C68_ignore : forall n t r t', fits (tk_in t) -> ignore_value n t = Some (r, t') ->
  text_gives OTok "ignore" [] t (HV (HI IInt (pgr_z r))) t'.
Proof. exact text_ignore. Qed.
Print Assumptions C68_ignore.

(** The model has a result for every input that ints can count, so the text has it: from the first token on. *)
Theorem C68_made : forall inp cur err, Z.of_nat (length inp) <= 2147483646 ->
  exists n t, tk_make n (mk_istream inp) err = Some t /\ fits (tk_in t) /\
    text_gives OIn "skip" [] (TK cur (IS inp 1 1) err) (HV HVoid) (TK cur (mk_istream inp) err) /\
    text_gives OTok "next" [] (TK cur (mk_istream inp) err) (HL RCur []) t.
Proof. exact text_made. Qed.
Print Assumptions C68_made.

Theorem C68_nexts : forall t, wf_is (tk_in t) -> fits (tk_in t) ->
  exists n t', tk_next n t = Some t' /\ fits (tk_in t') /\ text_gives OTok "next" [] t (HL RCur []) t'.
Proof. exact text_nexts. Qed.
Print Assumptions C68_nexts.

Theorem C68_ignores : forall t, wf_is (tk_in t) -> fits (tk_in t) ->
  exists n r t', ignore_value n t = Some (r, t') /\ text_gives OTok "ignore" [] t (HV (HI IInt (pgr_z r))) t'.
Proof. exact text_ignores. Qed.
Print Assumptions C68_ignores.

(** ** Examples *)
Definition sample : tokenizer := TK (Tok T_NONE [] 0 0) (IS (b "{""x"": [1, {}], ""y"": null} true") 1 1) err_clear.
Example C68_applies : fits (tk_in sample) /\ wf_is (tk_in sample).
Proof. split; [unfold fits; cbn; repeat split; discriminate|discriminate]. Qed.

(** Calls of one function after another, in the given text. *)
Fixpoint runs (call : cls -> target -> list bytes -> list hres -> hst -> option (hres * hst)) (fs : list (string * list hres)) (s : hst)
  : option (list hres * hst) :=
  match fs with
  | [] => Some ([], s)
  | (f, a) :: r =>
      match call CNone OTok [b f] a s with
      | Some (x, s1) => match runs call r s1 with Some (l, s2) => Some (x :: l, s2) | None => None end
      | None => None
      end
  end.
Definition sample_run (text : bytes) : option (list hres * hst) :=
  runs (call_of text 40 false 40) [("next", []); ("expect", [HV (HI ITid 2)]); ("expect", [HV (HI ITid 6)]); ("expect", [HV (HI ITid 2)]);
    ("next", []); ("ignore", []); ("error", [HV (HI IErr 7); HV (HPtr (b "m"))])]%string (mem [] sample []).
Example C68_executed : sample_run protogen_hh =
  Some ([HL RCur []; HV (HB true); HV (HB true); HV (HB false); HL RCur []; HV (HI IInt 0); HV (HI IInt 1)],
        mem [] (TK (Tok T_COMMA [] 1 14) (IS (b " ""y"": null} true") 1 15) (EI PGERR_INVALID_ARRAY (b "m") 1 14)) []).
Proof. vm_compute. reflexivity. Qed.

(** Other texts do other things: a column counted twice, the wrong error kept, a comma that must be there, a type that does not fit. *)
Definition changed (old new : string) : option (list hres * hst) :=
  sample_run (instead (length (b old)) (b old) (b new) protogen_hh).
Example C68_tells :
  match changed "++column_;" "++column_; ++column_;" with Some (_, s) => assoc (s_in s) (b "column_") | None => None end = Some (HI IInt 29) /\
  match changed "if (error_.code != error_code::PGERR_OK)" "if (error_.code == error_code::PGERR_OK)" with
  | Some (_, s) => Some (s_err s) | None => None end = Some (err_val err_clear) /\
  match changed "if (!expect(token_id::COMMA)) break;" "if (expect(token_id::COMMA)) break;" with
  | Some (l, _) => nth_error l 5 | None => None end = Some (HV (HI IInt 1)) /\
  changed "bool expect( token_id type )" "int expect( std::string type )" = None.
Proof. vm_compute. repeat split. Qed.
