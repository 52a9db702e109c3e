(** C12: error positions point into the document. *)
From Verif Require Import Bytes Num Dbl Types Stream Tokenizer Write Read SpecJson SpecErr SpecPos
  ErrProofs PosProofs Samples.

(** Whenever an error is recorded, the document splits as [pre ++ post] where [pre]
    consists of complete tokens and white space, [post] is empty or starts with a
    token, and the recorded line and column are those of the start of [post].  When
    [post] starts with a quote the position may be 0:0 instead. *)
Theorem C12_error_position : forall ty v inp p v' p',
  deserialize ty v inp (Some p) = Some (false, v', Some p') -> e_code (p_err p') <> PGERR_OK ->
  exists pre post, inp = pre ++ post /\ boundary pre post /\ at_token post /\
    (line_col pre (e_line (p_err p')) (e_col (p_err p')) \/
     (e_line (p_err p') = 0 /\ e_col (p_err p') = 0 /\ at_quote post)).
Proof. exact error_position. Qed.
Print Assumptions C12_error_position.

(** A user relies on every error having a position; when the offending token is a
    string, the code records 0:0, which is the position of nothing. *)
Theorem C12_string_position_refuted : exists inp v' p',
  inp = b "{" ++ [LF] ++ b " ""id"": ""3""}" /\
  deserialize outer_ty (dflt outer_ty) inp (Some params_default) = Some (false, v', Some p') /\
  e_code (p_err p') = PGERR_INVALID_VALUE /\ e_line (p_err p') = 0 /\ e_col (p_err p') = 0 /\
  ~ exists pre post, inp = pre ++ post /\ line_col pre (e_line (p_err p')) (e_col (p_err p')).
Proof. exact C12_string_lemma. Qed.
Print Assumptions C12_string_position_refuted.

Definition c12_doc : bytes := b "{" ++ [LF] ++ b " ""id"": true}".
Example C12_example : exists v' p',
  deserialize outer_ty (dflt outer_ty) c12_doc (Some params_default) = Some (false, v', Some p') /\
  p_err p' = EI PGERR_INVALID_VALUE (b "invalid numeric value") 2 8 /\
  line_col (b "{" ++ [LF] ++ b " ""id"": ") 2 8.
Proof.
  eexists _, _. split; [vm_compute; reflexivity|]. split; [reflexivity|].
  split; [reflexivity|]. exists (b "{" ++ [LF]), (b " ""id"": ").
  split; [reflexivity|]. split; [right; now exists (b "{")|]. split; [|reflexivity].
  simpl. intuition discriminate.
Qed.
