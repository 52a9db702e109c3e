(** The exact text of a written string. *)
From Verif Require Import Bytes BaseProofs BitProofs Num Dbl Types Stream Tokenizer Write SpecJson SpecStr SpecEsc LexJson StrProofs.

Lemma esc1_text c : byte_text c (esc1 c).
Proof.
  unfold esc1.
  repeat match goal with
  | |- context [code c =? ?z] => destruct (Z.eqb_spec (code c) z) as [E|?];
      [apply code_is in E; [subst c|lia]; apply bt_short; constructor|]
  end.
  apply bt_raw. intros e H.
  inversion H; subst c;
  match goal with
  | H : code ?c <> ?z |- _ => apply H; reflexivity
  end.
Qed.

Lemma esc_raw s : exists ts, Forall2 byte_text s ts /\ esc_loop false s = (concat ts, true).
Proof.
  induction s as [|c s (ts & F & E)]; [exists []; split; [constructor|reflexivity]|].
  exists (esc1 c :: ts). split; [constructor; [apply esc1_text|exact F]|].
  cbn [esc_loop concat]. rewrite E. cbn [negb].
  destruct (Z.leb_spec (code c) 127); [reflexivity|].
  unfold esc1. repeat match goal with |- context [code c =? ?z] => destruct (Z.eqb_spec (code c) z); [lia|] end.
  reflexivity.
Qed.

Lemma hexd_lower d : 0 <= d < 16 -> ~ (65 <= code (hexd d) <= 90).
Proof. intros R. unfold hexd. destruct (Z.ltb_spec d 10); rewrite code_chr_small; lia. Qed.

Lemma u_escape_text cp : 0 <= cp < 65536 -> exists h, u_escape cp = b "\u" ++ h /\ hex4 h cp /\ lower h.
Proof.
  intros R. eexists. split; [reflexivity|]. split.
  - replace cp with (cp / 4096 * 4096 + cp / 256 mod 16 * 256 + cp / 16 mod 16 * 16 + cp mod 16) at 5
      by lia.
    constructor; apply hexd_digit; lia.
  - unfold lower. repeat (apply Forall_cons; [apply hexd_lower; lia|]). apply Forall_nil.
Qed.

Lemma esc_cp cp r o : scalar cp -> esc_loop true r = (o, true) ->
  exists e, esc_loop true (utf8_encode cp ++ r) = (e ++ o, true) /\ cp_text cp e.
Proof.
  intros [R NS] E. unfold utf8_encode.
  destruct (Z.ltb_spec cp 128); [|destruct (Z.ltb_spec cp 2048); [|destruct (Z.ltb_spec cp 65536)]].
  - cbn [app esc_loop]. rewrite E. rewrite code_chr_small by lia.
    destruct (Z.leb_spec cp 127); [|lia].
    exists (esc1 (chr cp)). split; [reflexivity|]. apply ct_ascii; [lia|apply esc1_text].
  - cbn [app esc_loop]. rewrite E. rewrite !code_chr_small by lia.
    rewrite is_cont_spec by lia. cbn [negb].
    destruct (Z.leb_spec (192 + cp / 64) 127); [lia|].
    destruct (Z.leb_spec 192 (192 + cp / 64)); [|lia].
    destruct (Z.leb_spec (192 + cp / 64) 223); [|lia]. cbn [andb].
    rewrite land31, land63, shiftl6, lor_64 by lia.
    replace ((192 + cp / 64) mod 32 * 64 + (128 + cp mod 64) mod 64) with cp by lia.
    exists (u_escape cp). split; [reflexivity|].
    destruct (u_escape_text cp) as (h & -> & HX & L); [lia|]. apply ct_u; auto; lia.
  - cbn [app esc_loop]. rewrite E. rewrite !code_chr_small by lia.
    rewrite !is_cont_spec by lia. cbn [negb].
    destruct (Z.leb_spec (224 + cp / 4096) 127); [lia|].
    destruct (Z.leb_spec 192 (224 + cp / 4096)); [|lia].
    destruct (Z.leb_spec (224 + cp / 4096) 223); [lia|].
    destruct (Z.leb_spec 224 (224 + cp / 4096)); [|lia].
    destruct (Z.leb_spec (224 + cp / 4096) 239); [|lia]. cbn [andb].
    rewrite land15, !land63, shiftl6, shiftl12, lor_4096 by lia.
    replace ((224 + cp / 4096) mod 16 * 4096 + (128 + cp / 64 mod 64) mod 64 * 64)
      with ((cp / 64) * 64) by lia.
    rewrite lor_64 by lia.
    replace (cp / 64 * 64 + (128 + cp mod 64) mod 64) with cp by lia.
    exists (u_escape cp). split; [reflexivity|].
    destruct (u_escape_text cp) as (h & -> & HX & L); [lia|]. apply ct_u; auto; lia.
  - cbn [app esc_loop]. rewrite E. rewrite !code_chr_small by lia.
    rewrite !is_cont_spec by lia. cbn [negb].
    destruct (Z.leb_spec (240 + cp / 262144) 127); [lia|].
    destruct (Z.leb_spec 192 (240 + cp / 262144)); [|lia].
    destruct (Z.leb_spec (240 + cp / 262144) 223); [lia|].
    destruct (Z.leb_spec 224 (240 + cp / 262144)); [|lia].
    destruct (Z.leb_spec (240 + cp / 262144) 239); [lia|].
    destruct (Z.leb_spec 240 (240 + cp / 262144)); [|lia].
    destruct (Z.leb_spec (240 + cp / 262144) 244); [|lia]. cbn [andb].
    rewrite land7, !land63, shiftl6, shiftl12, shiftl18, lor_262144 by lia.
    replace ((240 + cp / 262144) mod 8 * 262144 + (128 + cp / 4096 mod 64) mod 64 * 4096)
      with ((cp / 4096) * 4096) by lia.
    rewrite lor_4096 by lia.
    replace (cp / 4096 * 4096 + (128 + cp / 64 mod 64) mod 64 * 64) with (cp / 64 * 64) by lia.
    rewrite lor_64 by lia.
    replace (cp / 64 * 64 + (128 + cp mod 64) mod 64) with cp by lia.
    rewrite shiftr10, land1023. change LEAD_OFFSET with 55232.
    exists (u_escape (55232 + cp / 1024) ++ u_escape (56320 + cp mod 1024)).
    split; [now rewrite <- app_assoc|].
    destruct (u_escape_text (55232 + cp / 1024)) as (h1 & -> & HX1 & L1); [lia|].
    destruct (u_escape_text (56320 + cp mod 1024)) as (h2 & -> & HX2 & L2); [lia|].
    rewrite <- app_assoc. apply ct_pair; auto.
    + replace (55296 + (cp - 65536) / 1024) with (55232 + cp / 1024) by lia. exact HX1.
    + replace (56320 + (cp - 65536) mod 1024) with (56320 + cp mod 1024) by lia. exact HX2.
Qed.

Lemma esc_cps cps : Forall scalar cps -> exists ts, Forall2 cp_text cps ts /\
  esc_loop true (concat (map utf8_encode cps)) = (concat ts, true).
Proof.
  induction 1 as [|cp cps S F (ts & F2 & E)]; [exists []; split; [constructor|reflexivity]|].
  cbn [map concat]. destruct (esc_cp cp _ _ S E) as (e & E' & T).
  exists (e :: ts). split; [constructor; assumption|exact E'].
Qed.

Lemma text_ascii_lemma : forall (cps : list Z) (e : errinfo), Forall scalar cps ->
  exists ts, Forall2 cp_text cps ts /\
    write_string true (concat (map utf8_encode cps)) e = (PGR_OK, quoted (concat ts), e).
Proof.
  intros cps e F. destruct (esc_cps cps F) as (ts & F2 & E). exists ts. split; [exact F2|].
  unfold write_string. rewrite E. reflexivity.
Qed.

Lemma text_raw_lemma : forall (s : bytes) (e : errinfo),
  exists ts, Forall2 byte_text s ts /\ write_string false s e = (PGR_OK, quoted (concat ts), e).
Proof.
  intros s e. destruct (esc_raw s) as (ts & F & E). exists ts. split; [exact F|].
  unfold write_string. rewrite E. reflexivity.
Qed.
