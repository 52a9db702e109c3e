(** The string writer produces JSON string literals. *)
From Verif Require Import Bytes BaseProofs BitProofs Num Dbl Types Stream Tokenizer Write SpecJson SpecStr LexJson.

Lemma code_is c z : 0 <= z < 256 -> code c = z -> c = chr z.
Proof. intros R H. apply code_inj. now rewrite code_chr_small. Qed.

Lemma esc1_jchars strict c t s : okc strict c -> jchars strict t s ->
  jchars strict (esc1 c ++ t) (c :: s).
Proof.
  intros O J. unfold esc1.
  repeat match goal with
  | |- context [code c =? ?z] => destruct (Z.eqb_spec (code c) z) as [E|?];
      [apply code_is in E; [subst c|lia]; apply jc_short; [constructor|exact J]|]
  end.
  apply jc_raw; [|exact J]. unfold raw_char, okc in *. destruct strict; repeat split; lia.
Qed.

Lemma esc1_ascii c : code c < 128 -> Forall (fun x => code x < 128) (esc1 c).
Proof.
  intros H. unfold esc1.
  repeat match goal with |- context [if ?x then _ else _] => destruct x end;
  repeat constructor; auto.
Qed.

Lemma esc_loop_false strict s : Forall (okc strict) s ->
  exists o, esc_loop false s = (o, true) /\ jchars strict o s.
Proof.
  induction 1 as [|c s O F (o & E & J)]; [exists []; split; [reflexivity|constructor]|].
  cbn [esc_loop]. rewrite E. simpl negb. cbv iota.
  destruct (Z.leb_spec (code c) 127).
  - eexists; split; [reflexivity|]. now apply esc1_jchars.
  - eexists; split; [reflexivity|]. apply jc_raw; [|exact J]. unfold raw_char, okc in *.
    destruct strict; repeat split; lia.
Qed.

(** *** Hexadecimal escapes *)
Lemma hexd_digit d : 0 <= d < 16 -> hexdigit (hexd d) d.
Proof.
  intros R. unfold hexd. destruct (Z.ltb_spec d 10).
  - replace d with (code (chr (48 + d)) - 48) at 2 by (rewrite code_chr_small; lia).
    constructor. rewrite code_chr_small; lia.
  - replace d with (code (chr (87 + d)) - 87) at 2 by (rewrite code_chr_small; lia).
    constructor. rewrite code_chr_small; lia.
Qed.

Lemma u_escape_hex4 cp : 0 <= cp < 65536 -> exists h, u_escape cp = b "\u" ++ h /\ hex4 h cp.
Proof.
  intros R. eexists. split; [reflexivity|].
  replace cp with (cp / 4096 * 4096 + cp / 256 mod 16 * 256 + cp / 16 mod 16 * 16 + cp mod 16) at 5
    by lia.
  constructor; apply hexd_digit; lia.
Qed.

Lemma hexd_ascii d : 0 <= d < 16 -> code (hexd d) < 128.
Proof. intros. unfold hexd. destruct (Z.ltb_spec d 10); rewrite code_chr_small; lia. Qed.

Lemma u_escape_ascii cp : 0 <= cp < 65536 -> Forall (fun x => code x < 128) (u_escape cp).
Proof.
  intros R. unfold u_escape. repeat constructor; try reflexivity; apply hexd_ascii; lia.
Qed.

(** *** UTF-8 decoding of the writer *)
Lemma is_cont_spec y : 0 <= y < 64 -> is_cont (chr (128 + y)) = true.
Proof.
  intros R. unfold is_cont. rewrite code_chr_small by lia.
  apply (range_check (fun y => Z.land (128 + y) 192 =? 128) 64); [reflexivity|lia].
Qed.

Lemma lor_64 x y : 0 <= y < 64 -> Z.lor (x * 64) y = x * 64 + y.
Proof. intros. apply (lor_add x y 6); lia. Qed.
Lemma lor_4096 x y : 0 <= y < 4096 -> Z.lor (x * 4096) y = x * 4096 + y.
Proof. intros. apply (lor_add x y 12); lia. Qed.
Lemma lor_262144 x y : 0 <= y < 262144 -> Z.lor (x * 262144) y = x * 262144 + y.
Proof. intros. apply (lor_add x y 18); lia. Qed.

Definition all_ascii (s : bytes) : Prop := Forall (fun x => code x < 128) s.

Lemma esc_one cp r o : scalar cp -> esc_loop true r = (o, true) ->
  exists e, esc_loop true (utf8_encode cp ++ r) = (e ++ o, true) /\ all_ascii e /\
    forall strict t s, (cp < 128 -> okc strict (chr cp)) -> jchars strict t s ->
      jchars strict (e ++ t) (utf8_encode cp ++ s).
Proof.
  intros [R NS] E. unfold utf8_encode.
  destruct (Z.ltb_spec cp 128); [|destruct (Z.ltb_spec cp 2048); [|destruct (Z.ltb_spec cp 65536)]].
  - cbn [app esc_loop]. rewrite E. rewrite code_chr_small by lia.
    destruct (Z.leb_spec cp 127); [|lia].
    exists (esc1 (chr cp)). split; [reflexivity|]. split.
    + apply esc1_ascii. rewrite code_chr_small; lia.
    + intros. apply esc1_jchars; auto.
  - cbn [app esc_loop]. rewrite E. rewrite !code_chr_small by lia.
    rewrite is_cont_spec by lia. cbn [negb].
    destruct (Z.leb_spec (192 + cp / 64) 127); [lia|].
    destruct (Z.leb_spec 192 (192 + cp / 64)); [|lia].
    destruct (Z.leb_spec (192 + cp / 64) 223); [|lia]. cbn [andb].
    rewrite land31, land63, shiftl6, lor_64 by lia.
    replace ((192 + cp / 64) mod 32 * 64 + (128 + cp mod 64) mod 64) with cp by lia.
    exists (u_escape cp). split; [reflexivity|]. split; [apply u_escape_ascii; lia|].
    intros strict t s _ J. destruct (u_escape_hex4 cp) as (h & -> & HX4); [lia|].
    rewrite <- app_assoc.
    replace (chr (192 + cp / 64) :: chr (128 + cp mod 64) :: s) with (utf8_encode cp ++ s).
    2:{ unfold utf8_encode. destruct (Z.ltb_spec cp 128); [lia|]. destruct (Z.ltb_spec cp 2048); [reflexivity|lia]. }
    apply (jc_u strict h cp t s HX4); [lia|split; lia|exact J].
  - cbn [app esc_loop]. rewrite E. rewrite !code_chr_small by lia.
    rewrite !is_cont_spec by lia. cbn [negb].
    destruct (Z.leb_spec (224 + cp / 4096) 127); [lia|].
    destruct (Z.leb_spec 192 (224 + cp / 4096)); [|lia].
    destruct (Z.leb_spec (224 + cp / 4096) 223); [lia|].
    destruct (Z.leb_spec 224 (224 + cp / 4096)); [|lia].
    destruct (Z.leb_spec (224 + cp / 4096) 239); [|lia]. cbn [andb].
    rewrite land15, !land63, shiftl6, shiftl12, lor_4096 by lia.
    replace ((224 + cp / 4096) mod 16 * 4096 + (128 + cp / 64 mod 64) mod 64 * 64)
      with ((cp / 64) * 64) by lia.
    rewrite lor_64 by lia.
    replace (cp / 64 * 64 + (128 + cp mod 64) mod 64) with cp by lia.
    exists (u_escape cp). split; [reflexivity|]. split; [apply u_escape_ascii; lia|].
    intros strict t s _ J. destruct (u_escape_hex4 cp) as (h & -> & HX4); [lia|].
    rewrite <- app_assoc.
    replace (chr (224 + cp / 4096) :: chr (128 + cp / 64 mod 64) :: chr (128 + cp mod 64) :: s) with (utf8_encode cp ++ s).
    2:{ unfold utf8_encode. destruct (Z.ltb_spec cp 128); [lia|]. destruct (Z.ltb_spec cp 2048); [lia|].
        destruct (Z.ltb_spec cp 65536); [reflexivity|lia]. }
    apply (jc_u strict h cp t s HX4); [lia|split; lia|exact J].
  - cbn [app esc_loop]. rewrite E. rewrite !code_chr_small by lia.
    rewrite !is_cont_spec by lia. cbn [negb].
    destruct (Z.leb_spec (240 + cp / 262144) 127); [lia|].
    destruct (Z.leb_spec 192 (240 + cp / 262144)); [|lia].
    destruct (Z.leb_spec (240 + cp / 262144) 223); [lia|].
    destruct (Z.leb_spec 224 (240 + cp / 262144)); [|lia].
    destruct (Z.leb_spec (240 + cp / 262144) 239); [lia|].
    destruct (Z.leb_spec 240 (240 + cp / 262144)); [|lia].
    destruct (Z.leb_spec (240 + cp / 262144) 244); [|lia]. cbn [andb].
    rewrite land7, !land63, shiftl6, shiftl12, shiftl18, lor_262144 by lia.
    replace ((240 + cp / 262144) mod 8 * 262144 + (128 + cp / 4096 mod 64) mod 64 * 4096)
      with ((cp / 4096) * 4096) by lia.
    rewrite lor_4096 by lia.
    replace (cp / 4096 * 4096 + (128 + cp / 64 mod 64) mod 64 * 64) with (cp / 64 * 64) by lia.
    rewrite lor_64 by lia.
    replace (cp / 64 * 64 + (128 + cp mod 64) mod 64) with cp by lia.
    rewrite shiftr10, land1023. change LEAD_OFFSET with 55232.
    exists (u_escape (55232 + cp / 1024) ++ u_escape (56320 + cp mod 1024)).
    split; [now rewrite <- app_assoc|]. split.
    { apply Forall_app. split; apply u_escape_ascii; lia. }
    intros strict t s _ J.
    destruct (u_escape_hex4 (55232 + cp / 1024)) as (h1 & -> & HX1); [lia|].
    destruct (u_escape_hex4 (56320 + cp mod 1024)) as (h2 & -> & HX2); [lia|].
    rewrite <- !app_assoc.
    replace (chr (240 + cp / 262144) :: chr (128 + cp / 4096 mod 64) :: chr (128 + cp / 64 mod 64) :: chr (128 + cp mod 64) :: s)
      with (utf8_encode (65536 + (55232 + cp / 1024 - 55296) * 1024 + (56320 + cp mod 1024 - 56320)) ++ s).
    2:{ replace (65536 + (55232 + cp / 1024 - 55296) * 1024 + (56320 + cp mod 1024 - 56320)) with cp by lia.
        unfold utf8_encode. destruct (Z.ltb_spec cp 128); [lia|]. destruct (Z.ltb_spec cp 2048); [lia|].
        destruct (Z.ltb_spec cp 65536); [lia|reflexivity]. }
    apply (jc_pair strict h1 h2); auto; lia.
Qed.

Lemma okc_encode strict cp s : scalar cp -> Forall (okc strict) (utf8_encode cp ++ s) ->
  (cp < 128 -> okc strict (chr cp)) /\ Forall (okc strict) s.
Proof.
  intros [R _] F. apply Forall_app in F as [F1 F2]. split; [|exact F2]. intros L.
  unfold utf8_encode in F1. destruct (Z.ltb_spec cp 128); [|lia]. now inversion F1.
Qed.

Lemma esc_loop_utf8 s : utf8 s ->
  exists o, esc_loop true s = (o, true) /\ all_ascii o /\
    forall strict, Forall (okc strict) s -> jchars strict o s.
Proof.
  induction 1 as [|cp s S U (o & E & A & J)].
  - exists []. repeat split; constructor.
  - destruct (esc_one cp s o S E) as (e & E' & A' & J').
    exists (e ++ o). split; [exact E'|]. split; [apply Forall_app; auto|].
    intros strict F. apply okc_encode in F as [F1 F2]; [|exact S]. auto.
Qed.

(** Both settings of [ensure_ascii]. *)
Lemma esc_loop_jchars ea strict s : writable ea s -> Forall (okc strict) s ->
  exists o, esc_loop ea s = (o, true) /\ jchars strict o s /\ (ea = true -> all_ascii o).
Proof.
  intros W F. destruct ea.
  - destruct (esc_loop_utf8 s (W eq_refl)) as (o & E & A & J). eauto.
  - destruct (esc_loop_false strict s F) as (o & E & J). exists o. repeat split; auto. discriminate.
Qed.

Lemma write_string_jstring ea strict s e : writable ea s -> Forall (okc strict) s ->
  exists o, write_string ea s e = (PGR_OK, o, e) /\ jstring strict o s /\ (ea = true -> all_ascii o).
Proof.
  intros W F. destruct (esc_loop_jchars ea strict s W F) as (o & E & J & A).
  unfold write_string. rewrite E. eexists. split; [reflexivity|]. split.
  - exists o. auto.
  - intros X. unfold all_ascii. repeat constructor. apply Forall_app. split; [now apply A|].
    repeat constructor.
Qed.

(** The text written does not depend on the error record. *)
Lemma write_string_fst ea s e e' : snd (fst (write_string ea s e)) = snd (fst (write_string ea s e')).
Proof. unfold write_string. destruct (esc_loop ea s) as [o []]; reflexivity. Qed.
