(** C52: a document that fails is correct up to the reported place and not beyond. *)
From Verif Require Import Bytes Num Types Tokenizer Write Read SpecJson SpecInterp SpecErr SpecPos SpecTok SpecTakes Samples SampleProofs AcceptProofs AcceptSamples.

(** The tokens before the reported place are the beginning of an accepted value, and no
    accepted value goes on with the token found there.  The one other case is a Base64 text
    that ends inside a group: it is recorded, at the token after it, when something else
    fails later. *)
Theorem C52_fails_where : forall ty v inp p v' p', has_ty ty v = true -> lookup_ok ty ->
  deserialize ty v inp (Some p) = Some (false, v', Some p') -> e_code (p_err p') <> PGERR_OK ->
  exists pre post toks, inp = pre ++ post /\ tokens pre post toks /\ at_token post /\
    (line_col pre (e_line (p_err p')) (e_col (p_err p')) \/
     (e_line (p_err p') = 0 /\ e_col (p_err p') = 0 /\ at_quote post)) /\
    ((viable true ty v toks /\
      forall k u x more v2, post = u ++ x -> tok_text k (drop_lf u) (drop_lf x) ->
        ~ takes false ty v (toks ++ k :: more) v2) \/
     (exists toks0 s, toks = toks0 ++ [KStr s] /\ viable true ty v toks0 /\
      (exists more v2, takes false ty v (toks ++ more) v2) /\
      (forall more v2, ~ takes true ty v (toks ++ more) v2) /\
      e_code (p_err p') = PGERR_INVALID_OBJECT /\ e_msg (p_err p') = b "invalid base64 data")).
Proof. exact fails_where. Qed.
Print Assumptions C52_fails_where.

(** Nothing is recorded exactly when the document is null; then the object is unchanged,
    except that a string becomes present and empty. *)
Theorem C52_null : forall ty v inp p v' p', has_ty ty v = true -> lookup_ok ty ->
  deserialize ty v inp (Some p) = Some (false, v', Some p') ->
  (e_code (p_err p') = PGERR_OK <-> exists pre post, inp = pre ++ post /\ tokens pre post [KNull]) /\
  (e_code (p_err p') = PGERR_OK -> v' = nulled v).
Proof. exact fails_null. Qed.
Print Assumptions C52_null.

Example C52_applies : has_ty outer_ty outer_val = true /\ lookup_ok outer_ty /\
  (exists v' p', deserialize outer_ty outer_val comma_doc (Some params_default) = Some (false, v', Some p') /\
     e_code (p_err p') = PGERR_INVALID_NAME /\ e_line (p_err p') = 2 /\ e_col (p_err p') = 2) /\
  (exists v' p', deserialize outer_ty outer_val cut_doc (Some params_default) = Some (false, v', Some p') /\
     e_code (p_err p') = PGERR_INVALID_OBJECT /\ e_msg (p_err p') = b "invalid base64 data" /\
     e_line (p_err p') = 1 /\ e_col (p_err p') = 13) /\
  exists p', deserialize outer_ty outer_val (b " null") (Some params_default) = Some (false, outer_val, Some p') /\
     e_code (p_err p') = PGERR_OK.
Proof. exact (conj eq_refl (conj outer_lookup_ok (conj comma_read (conj cut_read null_read)))). Qed.
