(** C54: which error is reported. *)
From Verif Require Import Bytes Num Types Tokenizer Write Read SpecJson SpecInterp SpecErr SpecPos SpecTok SpecTakes SpecFault Samples SampleProofs FaultProofs FaultSamples.

(** Every error but a Base64 text cut short comes from one of the situations of
    [SpecFault.v], with the code and the message given there. *)
Theorem C54_only : forall ty v inp p v' p', has_ty ty v = true -> lookup_ok ty ->
  deserialize ty v inp (Some p) = Some (false, v', Some p') ->
  e_code (p_err p') <> PGERR_OK -> e_msg (p_err p') <> b "invalid base64 data" ->
  exists pre post toks next, inp = pre ++ post /\ tokens pre post toks /\ at_token post /\ next_is post next /\
    fault ty toks next (e_code (p_err p')) (e_msg (p_err p')).
Proof. exact fault_found. Qed.
Print Assumptions C54_only.

(** Each of these situations gives that error, at that place, whatever the object was
    before and whatever follows in the document. *)
Theorem C54_reported : forall ty v p pre post toks next c m, has_ty ty v = true -> lookup_ok ty ->
  tokens pre post toks -> at_token post -> next_is post next -> fault ty toks next c m ->
  exists v' p', deserialize ty v (pre ++ post) (Some p) = Some (false, v', Some p') /\
    e_code (p_err p') = c /\ e_msg (p_err p') = m /\
    (line_col pre (e_line (p_err p')) (e_col (p_err p')) \/
     (e_line (p_err p') = 0 /\ e_col (p_err p') = 0 /\ at_quote post)).
Proof. exact fault_reported. Qed.
Print Assumptions C54_reported.

(** The remaining one: a Base64 text that ends inside a group of four characters.  The
    tokens read so far go on to a value only because an incomplete group is dropped.  If the
    document is refused for whatever later reason, the error is this one, at the end of that text. *)
Theorem C54_base64 : forall ty v p pre post toks s v' p', has_ty ty v = true -> lookup_ok ty ->
  tokens pre post (toks ++ [KStr s]) -> at_token post -> viable true ty v toks ->
  (exists more v2, takes false ty v (toks ++ KStr s :: more) v2) ->
  (forall more v2, ~ takes true ty v (toks ++ KStr s :: more) v2) ->
  deserialize ty v (pre ++ post) (Some p) = Some (false, v', Some p') ->
  e_code (p_err p') = PGERR_INVALID_OBJECT /\ e_msg (p_err p') = b "invalid base64 data" /\
  (line_col pre (e_line (p_err p')) (e_col (p_err p')) \/
   (e_line (p_err p') = 0 /\ e_col (p_err p') = 0 /\ at_quote post)).
Proof. exact base64_reported. Qed.
Print Assumptions C54_base64.

Example C54_applies : has_ty outer_ty outer_val = true /\ lookup_ok outer_ty /\
  tokens tail_pre tail_post tail_toks /\ at_token tail_post /\ next_is tail_post (Some KRBrack) /\
  fault outer_ty tail_toks (Some KRBrack) PGERR_INVALID_VALUE (b "invalid string value") /\
  exists v' p', deserialize outer_ty outer_val (tail_pre ++ tail_post) (Some params_default) = Some (false, v', Some p') /\
    e_code (p_err p') = PGERR_INVALID_VALUE /\ e_msg (p_err p') = b "invalid string value" /\
    e_line (p_err p') = 2 /\ e_col (p_err p') = 2.
Proof.
  exact (conj eq_refl (conj outer_lookup_ok (conj tail_tokens (conj eq_refl (conj tail_next (conj tail_fault tail_read)))))).
Qed.

Example C54_applies_skipped : tokens gap_pre gap_post gap_toks /\ at_token gap_post /\ next_is gap_post (Some (KNum (b "2"))) /\
  fault outer_ty gap_toks (Some (KNum (b "2"))) PGERR_IGNORE_FAILED (b "invalid array") /\
  exists v' p', deserialize outer_ty outer_val (gap_pre ++ gap_post) (Some params_default) = Some (false, v', Some p') /\
    e_code (p_err p') = PGERR_IGNORE_FAILED /\ e_msg (p_err p') = b "invalid array" /\
    e_line (p_err p') = 1 /\ e_col (p_err p') = 9.
Proof. exact (conj gap_tokens (conj eq_refl (conj gap_next (conj gap_fault gap_read)))). Qed.

Example C54_applies_base64 : tokens raw_pre raw_post (raw_toks ++ [KStr (b "YWJ")]) /\ at_token raw_post /\
  viable true outer_ty outer_val raw_toks /\
  (exists more v2, takes false outer_ty outer_val (raw_toks ++ KStr (b "YWJ") :: more) v2) /\
  (forall more v2, ~ takes true outer_ty outer_val (raw_toks ++ KStr (b "YWJ") :: more) v2) /\
  exists v' p', deserialize outer_ty outer_val (raw_pre ++ raw_post) (Some params_default) = Some (false, v', Some p') /\
    e_code (p_err p') = PGERR_INVALID_OBJECT /\ e_msg (p_err p') = b "invalid base64 data" /\
    e_line (p_err p') = 1 /\ e_col (p_err p') = 13.
Proof. exact (conj raw_tokens (conj eq_refl (conj raw_viable (conj raw_some (conj raw_none raw_read))))). Qed.
