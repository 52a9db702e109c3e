(** Concrete documents for C51 and C52. *)
From Verif Require Import Bytes BaseProofs Num Dbl Types Tokenizer Write Read SpecJson SpecErr SpecPos SpecTok SpecTakes Samples.

(** Not JSON: a comma before the closing bracket in an unknown member, a leading zero,
    a line feed inside a word, and text after the value. *)
Definition odd_doc : bytes := b "{""x"":[1,],""id"":07,""inner"":nu" ++ [LF] ++ b "ll} tail".

Definition odd_toks : list jtok :=
  [KLBrace; KStr (b "x"); KColon; KLBrack; KNum (b "1"); KComma; KRBrack; KComma;
   KStr (b "id"); KColon; KNum (b "07"); KComma; KStr (b "inner"); KColon; KNull; KRBrace].

Lemma word_str w x : forallb (fun c => (35 <=? code c) && (code c <? 92)) w = true \/
    forallb (fun c => 93 <=? code c) w = true -> tok_text (KStr w) ([chr 34] ++ w ++ [chr 34]) x.
Proof.
  intros H. apply kt_str.
  assert (R : forall c, In c w -> code c <> 34 /\ code c <> 92 /\ code c <> 0 /\ code c <> 10).
  { intros c I. destruct H as [H|H]; rewrite forallb_forall in H; specialize (H c I); lia. }
  clear H. induction w as [|c w IH]; constructor.
  - destruct (R c (or_introl eq_refl)) as (? & ? & ? & ?). repeat split; auto.
  - apply IH. intros d I. apply R. now right.
Qed.

Lemma odd_tokens : tokens (b "{""x"":[1,],""id"":07,""inner"":nu" ++ [LF] ++ b "ll}") (b " tail") odd_toks.
Proof.
  Local Ltac tok pre u x l k := refine (ts_tok pre u x l k _ _); [|first [now constructor|now (apply word_str; right)]].
  tok (b "{""x"":[1,],""id"":07,""inner"":nu" ++ [LF] ++ b "ll") (b "}") (b " tail")
    [KLBrace; KStr (b "x"); KColon; KLBrack; KNum (b "1"); KComma; KRBrack; KComma;
     KStr (b "id"); KColon; KNum (b "07"); KComma; KStr (b "inner"); KColon; KNull] KRBrace.
  tok (b "{""x"":[1,],""id"":07,""inner"":") (b "nu" ++ [LF] ++ b "ll") (b "} tail")
    [KLBrace; KStr (b "x"); KColon; KLBrack; KNum (b "1"); KComma; KRBrack; KComma;
     KStr (b "id"); KColon; KNum (b "07"); KComma; KStr (b "inner"); KColon] KNull.
  tok (b "{""x"":[1,],""id"":07,""inner""") (b ":") (b "nu" ++ [LF] ++ b "ll} tail")
    [KLBrace; KStr (b "x"); KColon; KLBrack; KNum (b "1"); KComma; KRBrack; KComma;
     KStr (b "id"); KColon; KNum (b "07"); KComma; KStr (b "inner")] KColon.
  tok (b "{""x"":[1,],""id"":07,") (b """inner""") (b ":nu" ++ [LF] ++ b "ll} tail")
    [KLBrace; KStr (b "x"); KColon; KLBrack; KNum (b "1"); KComma; KRBrack; KComma;
     KStr (b "id"); KColon; KNum (b "07"); KComma] (KStr (b "inner")).
  tok (b "{""x"":[1,],""id"":07") (b ",") (b """inner"":nu" ++ [LF] ++ b "ll} tail")
    [KLBrace; KStr (b "x"); KColon; KLBrack; KNum (b "1"); KComma; KRBrack; KComma;
     KStr (b "id"); KColon; KNum (b "07")] KComma.
  refine (ts_tok (b "{""x"":[1,],""id"":") (b "07") (b ",""inner"":nu" ++ [LF] ++ b "ll} tail")
    [KLBrace; KStr (b "x"); KColon; KLBrack; KNum (b "1"); KComma; KRBrack; KComma;
     KStr (b "id"); KColon] (KNum (b "07")) _ _); [|constructor; [exists "0"%char, (b "7"); repeat split; now left|reflexivity]].
  tok (b "{""x"":[1,],""id""") (b ":") (b "07,""inner"":nu" ++ [LF] ++ b "ll} tail")
    [KLBrace; KStr (b "x"); KColon; KLBrack; KNum (b "1"); KComma; KRBrack; KComma; KStr (b "id")] KColon.
  tok (b "{""x"":[1,],") (b """id""") (b ":07,""inner"":nu" ++ [LF] ++ b "ll} tail")
    [KLBrace; KStr (b "x"); KColon; KLBrack; KNum (b "1"); KComma; KRBrack; KComma] (KStr (b "id")).
  tok (b "{""x"":[1,]") (b ",") (b """id"":07,""inner"":nu" ++ [LF] ++ b "ll} tail")
    [KLBrace; KStr (b "x"); KColon; KLBrack; KNum (b "1"); KComma; KRBrack] KComma.
  tok (b "{""x"":[1,") (b "]") (b ",""id"":07,""inner"":nu" ++ [LF] ++ b "ll} tail")
    [KLBrace; KStr (b "x"); KColon; KLBrack; KNum (b "1"); KComma] KRBrack.
  tok (b "{""x"":[1") (b ",") (b "],""id"":07,""inner"":nu" ++ [LF] ++ b "ll} tail")
    [KLBrace; KStr (b "x"); KColon; KLBrack; KNum (b "1")] KComma.
  refine (ts_tok (b "{""x"":[") (b "1") (b ",],""id"":07,""inner"":nu" ++ [LF] ++ b "ll} tail")
    [KLBrace; KStr (b "x"); KColon; KLBrack] (KNum (b "1")) _ _); [|constructor; [exists "1"%char, []; repeat split; now left|reflexivity]].
  tok (b "{""x"":") (b "[") (b "1,],""id"":07,""inner"":nu" ++ [LF] ++ b "ll} tail") [KLBrace; KStr (b "x"); KColon] KLBrack.
  tok (b "{""x""") (b ":") (b "[1,],""id"":07,""inner"":nu" ++ [LF] ++ b "ll} tail") [KLBrace; KStr (b "x")] KColon.
  tok (b "{") (b """x""") (b ":[1,],""id"":07,""inner"":nu" ++ [LF] ++ b "ll} tail") [KLBrace] (KStr (b "x")).
  refine (ts_tok [] (b "{") (b """x"":[1,],""id"":07,""inner"":nu" ++ [LF] ++ b "ll} tail") [] KLBrace _ _); constructor.
Qed.

Definition odd_val : val :=
  VMsg [VField false (VInt 7);
        VMsg [VField false (VBool true); VField true (VDbl (DZero false))];
        VStr false (b "caf" ++ [chr 195; chr 169]);
        VB64 [chr 0; chr 255; chr 16; chr 3];
        VList [VStr false (b "a"); VStr false (b "b""c")]].

Lemma odd_takes : takes false outer_ty outer_val odd_toks odd_val.
Proof.
  apply tk_obj.
  refine (tm_more false _ _ _ (b "x") [KLBrack; KNum (b "1"); KComma; KRBrack] _ _ _ _ _).
  { apply tf_unknown; [reflexivity|]. apply sk_arr. apply (se_more [KNum (b "1")] [KRBrack]); constructor. }
  refine (tm_more false _ _ _ (b "id") [KNum (b "07")] _ _ _ _ _).
  { eapply tf_value; [reflexivity..|]. apply tk_field. apply tp_num. discriminate. }
  refine (tm_last false _ _ _ (b "inner") [KNull] _ _).
  refine (tf_null false _ _ _ (b "inner") 1 inner_ty (VMsg [VField false (VBool true); VField true (VDbl (DZero false))]) _ _);
    reflexivity.
Qed.

Lemma odd_read : deserialize outer_ty outer_val odd_doc None = Some (true, odd_val, None).
Proof. vm_compute. reflexivity. Qed.

(** Failures: a comma before the closing brace of the message, and a Base64 text cut short
    before another error. *)
Definition comma_doc : bytes := b "{""id"":1," ++ [LF] ++ b " }".
Lemma comma_read : exists v' p', deserialize outer_ty outer_val comma_doc (Some params_default) = Some (false, v', Some p') /\
  e_code (p_err p') = PGERR_INVALID_NAME /\ e_line (p_err p') = 2 /\ e_col (p_err p') = 2.
Proof. eexists _, _. split; [vm_compute; reflexivity|]. repeat split. Qed.

Definition cut_doc : bytes := b "{""raw"":""YWJ"",""id"":true}".
Lemma cut_read : exists v' p', deserialize outer_ty outer_val cut_doc (Some params_default) = Some (false, v', Some p') /\
  e_code (p_err p') = PGERR_INVALID_OBJECT /\ e_msg (p_err p') = b "invalid base64 data" /\ e_line (p_err p') = 1 /\ e_col (p_err p') = 13.
Proof. eexists _, _. split; [vm_compute; reflexivity|]. repeat split. Qed.

Lemma null_read : exists p', deserialize outer_ty outer_val (b " null") (Some params_default) = Some (false, outer_val, Some p') /\
  e_code (p_err p') = PGERR_OK.
Proof. eexists. split; [vm_compute; reflexivity|reflexivity]. Qed.
