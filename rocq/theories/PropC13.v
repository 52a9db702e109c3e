(** C13: layout independence of tokens. *)
From Verif Require Import Bytes Types Stream Tokenizer Write Read SpecJson SpecInterp ReadSim
  SpecErr ApiProofs InterpProofs LayoutProofs ErrProofs Samples SampleProofs.

(** Two texts of the same JSON value, with any white space between the tokens of
    either, give the same result. *)
Theorem C13_layout_independent :
  forall (ty : ty) (v : val) (j : jval) (inp inp' : bytes) (po : option params),
  jdoc true j inp -> jdoc true j inp' -> has_ty ty v = true -> lookup_ok ty ->
  exists r v' po1 po2, deserialize ty v inp po = Some (r, v', po1) /\
                       deserialize ty v inp' po = Some (r, v', po2).
Proof. exact C13_lemma. Qed.
Print Assumptions C13_layout_independent.

Definition c13_json : jval := JObj [(b "id", JNum (b "12")); (b "name", JStr (b "ab"))].
Example C13_example :
  jdoc true c13_json ([] ++ jprint [] c13_json ++ []) /\
  jdoc true c13_json ([LF; chr 32] ++ jprint [LF; chr 32] c13_json ++ [LF; chr 32]) /\
  jprint [] c13_json <> jprint [LF; chr 32] c13_json.
Proof. repeat split; try (apply jprint_doc; reflexivity). discriminate. Qed.

(** Any two inputs, JSON or not, with the same bytes apart from line feeds: same
    boolean, same object, same error code and message.  So the code also drops
    line feeds inside numbers, literals and strings. *)
Theorem C13_line_feeds_dropped : forall ty v inp inp' po, drop_lf inp = drop_lf inp' ->
  exists r v' po1 po2, deserialize ty v inp po = Some (r, v', po1) /\
    deserialize ty v inp' po = Some (r, v', po2) /\
    option_map (fun p => (e_code (p_err p), e_msg (p_err p))) po1
    = option_map (fun p => (e_code (p_err p), e_msg (p_err p))) po2.
Proof. exact C13_lf_lemma. Qed.
Print Assumptions C13_line_feeds_dropped.

(** A user relies on [1 LF 2] not being the number 12. *)
Theorem C13_inside_tokens_refuted : exists inp inp' v',
  inp = b "{""id"":1" ++ [LF] ++ b "2}" /\ inp' = b "{""id"":12}" /\
  deserialize outer_ty (dflt outer_ty) inp None = Some (true, v', None) /\
  deserialize outer_ty (dflt outer_ty) inp' None = Some (true, v', None).
Proof. exact C13_inside_lemma. Qed.
Print Assumptions C13_inside_tokens_refuted.

Example C13_lf_example :
  drop_lf (b "{""i" ++ [LF] ++ b "d"":tr" ++ [LF; LF] ++ b "ue}") = drop_lf (b "{""id"":true}" ++ [LF]).
Proof. reflexivity. Qed.
