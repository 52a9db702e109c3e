(** Texts that are not Base64 (C56). *)
From Verif Require Import Bytes BaseProofs Num Dbl Types Stream Tokenizer Write Read SpecJson SpecErr SpecTok SpecB64 SpecLenient LenientProofs.

Definition not_base64 : list (bytes * bytes) :=
  [ (b "%&'(", [NUL; NUL; NUL]);
    (b "Zg", []);
    (b "Zh==", b "f");
    (b "Zg==Zg==", b "ff");
    (b "=ZZZ", [chr 1; chr 150; chr 89]) ].

Definition plain_char (c : ascii) : bool := negb ((code c =? 34) || (code c =? 92) || (code c =? 0) || (code c =? 10)).

Lemma plain_token s x : forallb plain_char s = true -> tok_text (KStr s) ([chr 34] ++ s ++ [chr 34]) x.
Proof.
  intros H. apply kt_str. rewrite forallb_forall in H. induction s as [|c s IH]; constructor.
  - specialize (H c (or_introl eq_refl)). unfold plain_char in H. repeat split; lia.
  - apply IH. intros d D. apply H. now right.
Qed.

Lemma plain_tokens s : forallb plain_char s = true -> tokens ([chr 34] ++ s ++ [chr 34]) [] [KStr s].
Proof.
  intros H. refine (ts_tok [] ([chr 34] ++ s ++ [chr 34]) [] [] (KStr s) _ _); [constructor|].
  assert (E : drop_lf ([chr 34] ++ s ++ [chr 34]) = [chr 34] ++ s ++ [chr 34]).
  { unfold drop_lf. cbn [app filter]. change (negb (code (chr 34) =? 10)) with true. cbv iota. f_equal. rewrite filter_app.
    f_equal. rewrite forallb_forall in H. clear -H. induction s as [|c s IH]; [reflexivity|]. cbn [filter].
    assert (C : negb (code c =? 10) = true) by (specialize (H c (or_introl eq_refl)); unfold plain_char in H; lia).
    rewrite C. f_equal. apply IH. intros d D. apply H. now right. }
  rewrite E. now apply plain_token.
Qed.

Lemma not_base64_read s v : In (s, v) not_base64 ->
  (forall x, s <> rfc4648 x) /\ tokens ([chr 34] ++ s ++ [chr 34]) [] [KStr s] /\
  deserialize TB64 (VB64 []) ([chr 34] ++ s ++ [chr 34]) (Some params_default) = Some (true, VB64 v, Some params_default).
Proof.
  intros H. cbn [not_base64 In] in H.
  repeat match goal with H : _ \/ _ |- _ => destruct H as [H|H] end; try contradiction H; injection H as <- <-;
  (split; [intros x E; assert (K : exists v, rfc4648 x = rfc4648 v) by eauto; rewrite <- E in K; apply canonical in K; vm_compute in K; discriminate K|]);
  (split; [apply plain_tokens; vm_compute; reflexivity|vm_compute; reflexivity]).
Qed.
