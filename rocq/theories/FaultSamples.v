(** Concrete documents for C54. *)
From Verif Require Import Bytes BaseProofs Num Dbl Types Tokenizer Write Read SpecJson SpecErr SpecPos SpecInterp SpecTok SpecTakes SpecFault
  Samples AcceptSamples.

Local Ltac tok pre u x l k := refine (ts_tok pre u x l k _ _); [|first [now constructor|now (apply word_str; right)]].

(** A comma before the closing bracket of a known array. *)
Definition tail_pre : bytes := b "{""tags"":[""a""," ++ [LF] ++ b " ".
Definition tail_post : bytes := b "]}".
Definition tail_toks : list jtok := [KLBrace; KStr (b "tags"); KColon; KLBrack; KStr (b "a"); KComma].

Lemma tail_tokens : tokens tail_pre tail_post tail_toks.
Proof.
  refine (ts_ws (b "{""tags"":[""a""," ++ [LF]) " "%char _ _ _ _); [|reflexivity].
  refine (ts_ws (b "{""tags"":[""a"",") LF _ _ _ _); [|reflexivity].
  tok (b "{""tags"":[""a""") (b ",") ([LF] ++ b " ]}") [KLBrace; KStr (b "tags"); KColon; KLBrack; KStr (b "a")] KComma.
  tok (b "{""tags"":[") (b """a""") (b "," ++ [LF] ++ b " ]}") [KLBrace; KStr (b "tags"); KColon; KLBrack] (KStr (b "a")).
  tok (b "{""tags"":") (b "[") (b """a""," ++ [LF] ++ b " ]}") [KLBrace; KStr (b "tags"); KColon] KLBrack.
  tok (b "{""tags""") (b ":") (b "[""a""," ++ [LF] ++ b " ]}") [KLBrace; KStr (b "tags")] KColon.
  tok (b "{") (b """tags""") (b ":[""a""," ++ [LF] ++ b " ]}") [KLBrace] (KStr (b "tags")).
  refine (ts_tok [] (b "{") (b """tags"":[""a""," ++ [LF] ++ b " ]}") [] KLBrace _ _); constructor.
Qed.

Lemma tail_next : next_is tail_post (Some KRBrack).
Proof. exists (b "]"), (b "}"). split; [reflexivity|constructor]. Qed.

Lemma tail_fault : fault outer_ty tail_toks (Some KRBrack) PGERR_INVALID_VALUE (b "invalid string value").
Proof.
  apply fa_obj; [|discriminate]. refine (fm_value _ _ (b "tags") [KLBrack; KStr (b "a"); KComma] _ _ _ _).
  refine (fv_value _ _ _ 4 (TRep TStr) _ _ _ _ _ _); [reflexivity|]. apply fa_arr; [|discriminate].
  refine (fe_more TStr [KStr (b "a")] [] _ _ _ _ _).
  - exists (VStr true []), (VStr false (b "a")). constructor.
  - apply fe_value. apply (fa_start TStr); [discriminate|]. intros k E. now injection E as <-.
Qed.

Lemma tail_read : exists v' p', deserialize outer_ty outer_val (tail_pre ++ tail_post) (Some params_default) = Some (false, v', Some p') /\
  e_code (p_err p') = PGERR_INVALID_VALUE /\ e_msg (p_err p') = b "invalid string value" /\ e_line (p_err p') = 2 /\ e_col (p_err p') = 2.
Proof. eexists _, _. split; [vm_compute; reflexivity|]. repeat split. Qed.

(** A missing comma in an array of an unknown member. *)
Definition gap_pre : bytes := b "{""x"":[1 ".
Definition gap_post : bytes := b "2]}".
Definition gap_toks : list jtok := [KLBrace; KStr (b "x"); KColon; KLBrack; KNum (b "1")].

Lemma gap_tokens : tokens gap_pre gap_post gap_toks.
Proof.
  refine (ts_ws (b "{""x"":[1") " "%char _ _ _ _); [|reflexivity].
  refine (ts_tok (b "{""x"":[") (b "1") (b " 2]}") [KLBrace; KStr (b "x"); KColon; KLBrack] (KNum (b "1")) _ _);
    [|constructor; [exists "1"%char, []; repeat split; now left|reflexivity]].
  tok (b "{""x"":") (b "[") (b "1 2]}") [KLBrace; KStr (b "x"); KColon] KLBrack.
  tok (b "{""x""") (b ":") (b "[1 2]}") [KLBrace; KStr (b "x")] KColon.
  tok (b "{") (b """x""") (b ":[1 2]}") [KLBrace] (KStr (b "x")).
  refine (ts_tok [] (b "{") (b """x"":[1 2]}") [] KLBrace _ _); constructor.
Qed.

Lemma gap_next : next_is gap_post (Some (KNum (b "2"))).
Proof.
  exists (b "2"), (b "]}"). split; [reflexivity|]. constructor; [exists "2"%char, []; repeat split; now left|reflexivity].
Qed.

Lemma gap_fault : fault outer_ty gap_toks (Some (KNum (b "2"))) PGERR_IGNORE_FAILED (b "invalid array").
Proof.
  apply fa_obj; [|discriminate]. refine (fm_value _ _ (b "x") [KLBrack; KNum (b "1")] _ _ _ _).
  apply fv_skip; [reflexivity|]. apply kf_arr. apply ke_sep; [constructor|discriminate..].
Qed.

Lemma gap_read : exists v' p', deserialize outer_ty outer_val (gap_pre ++ gap_post) (Some params_default) = Some (false, v', Some p') /\
  e_code (p_err p') = PGERR_IGNORE_FAILED /\ e_msg (p_err p') = b "invalid array" /\ e_line (p_err p') = 1 /\ e_col (p_err p') = 9.
Proof. eexists _, _. split; [vm_compute; reflexivity|]. repeat split. Qed.

(** A Base64 text cut short, and a later member that is refused. *)
Definition raw_pre : bytes := b "{""raw"":""YWJ""".
Definition raw_post : bytes := b ",""id"":true}".
Definition raw_toks : list jtok := [KLBrace; KStr (b "raw"); KColon].

Lemma raw_tokens : tokens raw_pre raw_post (raw_toks ++ [KStr (b "YWJ")]).
Proof.
  refine (ts_tok (b "{""raw"":") (b """YWJ""") raw_post raw_toks (KStr (b "YWJ")) _ _); [|now (apply word_str; left)].
  tok (b "{""raw""") (b ":") (b """YWJ""" ++ raw_post) [KLBrace; KStr (b "raw")] KColon.
  tok (b "{") (b """raw""") (b ":""YWJ""" ++ raw_post) [KLBrace] (KStr (b "raw")).
  refine (ts_tok [] (b "{") (b """raw"":""YWJ""" ++ raw_post) [] KLBrace _ _); constructor.
Qed.

Lemma raw_viable : viable true outer_ty outer_val raw_toks.
Proof.
  eexists (KStr []), [KRBrace], _. apply (tk_obj true _ _ _ [KStr (b "raw"); KColon; KStr []; KRBrace]).
  apply (tm_last true _ _ _ (b "raw") [KStr []]). eapply tf_value; [reflexivity|reflexivity|]. apply tk_b64. reflexivity.
Qed.

Lemma raw_some : exists more v2, takes false outer_ty outer_val (raw_toks ++ KStr (b "YWJ") :: more) v2.
Proof.
  eexists [KRBrace], _. apply (tk_obj false _ _ _ [KStr (b "raw"); KColon; KStr (b "YWJ"); KRBrace]).
  apply (tm_last false _ _ _ (b "raw") [KStr (b "YWJ")]). eapply tf_value; [reflexivity|reflexivity|]. apply tk_b64. discriminate.
Qed.

Lemma raw_none : forall more v2, ~ takes true outer_ty outer_val (raw_toks ++ KStr (b "YWJ") :: more) v2.
Proof.
  intros more v2 T.
  assert (M : forall ms g vs x y vs', field_of ms g (b "raw") = Some (3%nat, TB64) ->
    x ++ y = KStr (b "YWJ") :: more -> takes_member true ms g vs (b "raw") x vs' -> False).
  { intros ms g vs x y vs' F E H. inversion H as [? ? ? ? ? F1 S1|? ? ? ? ? ? ? F1 V1|? ? ? ? ? ? ? ? ? F1 V1 T1]; subst.
    - congruence.
    - discriminate E.
    - rewrite F in F1. injection F1 as <- <-. inversion T1 as [| | |s0 s W| | | |]; subst.
      injection E as -> E. discriminate (W eq_refl). }
  unfold raw_toks in T. cbn [app] in T. unfold outer_ty in T.
  inversion T as [| | | | | | |ms g vs x vs' TM]; subst.
  inversion TM as [? ? ? name x0 ? H0 E|? ? ? name x0 ? y ? H0 H1 E]; subst; (eapply M; [|eassumption|eassumption]; reflexivity).
Qed.

Lemma raw_read : exists v' p', deserialize outer_ty outer_val (raw_pre ++ raw_post) (Some params_default) = Some (false, v', Some p') /\
  e_code (p_err p') = PGERR_INVALID_OBJECT /\ e_msg (p_err p') = b "invalid base64 data" /\ e_line (p_err p') = 1 /\ e_col (p_err p') = 13.
Proof. eexists _, _. split; [vm_compute; reflexivity|]. repeat split. Qed.
