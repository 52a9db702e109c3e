(** Reading arbitrary text as Base64. *)
From Verif Require Import Bytes BaseProofs BitProofs Num Dbl Types Stream Tokenizer Write Read SpecJson SpecInterp SpecTok SpecTakes
  SpecB64 B64Proofs SpecLenient AcceptProofs.

Lemma int_place c : b64_int (schar c) = if Ascii.eqb c "=" then 64 else place c.
Proof. destruct c as [[] [] [] [] [] [] [] []]; vm_compute; reflexivity. Qed.

Lemma place_range c : 0 <= place c < 64.
Proof.
  unfold place. destruct (find _ _) as [i|] eqn:F; [|lia]. apply find_some in F as [F _].
  apply in_map_iff in F as (k & <- & K). apply in_seq in K. lia.
Qed.

Lemma place_pad : place "=" = 0.
Proof. vm_compute. reflexivity. Qed.

Lemma group_lenient c0 c1 c2 c3 :
  b64_group (b64_int (schar c0)) (b64_int (schar c1)) (b64_int (schar c2)) (b64_int (schar c3)) =
  let n := written c0 c1 c2 c3 in
  firstn (counted c2 c3) [chr (n / 2 ^ 16); chr (n / 2 ^ 8 mod 2 ^ 8); chr (n mod 2 ^ 8)].
Proof.
  assert (A0 : chr (Z.lor (Z.shiftl (Z.land (b64_int (schar c0)) 255) 2) (Z.shiftr (Z.land (b64_int (schar c1)) 48) 4)) =
               chr (written c0 c1 c2 c3 / 2 ^ 16)).
  { rewrite !int_place. apply code_inj. unfold written.
    pose proof (place_range c0). pose proof (place_range c1). pose proof (place_range c2). pose proof (place_range c3).
    destruct (Ascii.eqb_spec c0 "="); [subst c0|]; (destruct (Ascii.eqb_spec c1 "="); [subst c1|]); rewrite ?place_pad in *;
      try change (Z.shiftr (Z.land 64 48) 4) with 0; try change (Z.shiftl (Z.land 64 255) 2) with (64 * 4);
      try rewrite land48 by assumption; try rewrite land255, shiftl2; try rewrite lor_4 by lia; rewrite ?Z.lor_0_r; rewrite !code_chr; lia. }
  unfold b64_group. rewrite A0. cbn [firstn].
  assert (E2 : forall c, (b64_int (schar c) =? 64) = Ascii.eqb c "=").
  { intros c. rewrite int_place. destruct (Ascii.eqb c "="); [reflexivity|]. pose proof (place_range c). lia. }
  rewrite !E2. unfold counted. cbv zeta.
  destruct (Ascii.eqb_spec c2 "=") as [->|N2]; [reflexivity|].
  assert (A1 : chr (Z.lor (Z.shiftl (Z.land (b64_int (schar c1)) 15) 4) (Z.shiftr (Z.land (b64_int (schar c2)) 60) 2)) =
               chr (written c0 c1 c2 c3 / 2 ^ 8 mod 2 ^ 8)).
  { rewrite !int_place. apply code_inj. unfold written.
    pose proof (place_range c0). pose proof (place_range c1). pose proof (place_range c2). pose proof (place_range c3).
    destruct (Ascii.eqb_spec c2 "="); [contradiction|]. rewrite land60 by assumption.
    destruct (Ascii.eqb_spec c1 "="); [subst c1|]; rewrite ?place_pad in *;
      try change (Z.shiftl (Z.land 64 15) 4) with 0; rewrite ?Z.lor_0_l; try rewrite land15, shiftl4; try rewrite lor_16 by lia; rewrite !code_chr; lia. }
  rewrite A1. destruct (Ascii.eqb_spec c3 "=") as [->|N3]; [reflexivity|].
  assert (A2 : chr (Z.lor (Z.shiftl (Z.land (b64_int (schar c2)) 3) 6) (b64_int (schar c3))) = chr (written c0 c1 c2 c3 mod 2 ^ 8)).
  { rewrite !int_place. apply code_inj. unfold written.
    pose proof (place_range c0). pose proof (place_range c1). pose proof (place_range c2). pose proof (place_range c3).
    destruct (Ascii.eqb_spec c2 "="); [contradiction|]. destruct (Ascii.eqb_spec c3 "="); [contradiction|].
    rewrite land3, shiftl6. rewrite lor_64' by lia. rewrite !code_chr. lia. }
  rewrite A2. reflexivity.
Qed.

Lemma list4_ind {A} (P : list A -> Prop) :
  P [] -> (forall x, P [x]) -> (forall x y, P [x; y]) -> (forall x y z, P [x; y; z]) ->
  (forall x y z u r, P r -> P (x :: y :: z :: u :: r)) -> forall l, P l.
Proof.
  intros H0 H1 H2 H3 H4. fix IH 1. intros [|x [|y [|z [|u r]]]]; [exact H0|apply H1|apply H2|apply H3|apply H4, IH].
Qed.

Lemma decode_lenient s : fst (b64_decode s) = lenient s.
Proof.
  induction s as [|x|x y|x y z|x y z u r IH] using list4_ind; try reflexivity.
  cbn [b64_decode lenient]. destruct (b64_decode r) as [o bad]. cbn [fst] in *. rewrite group_lenient, IH. reflexivity.
Qed.

Lemma base64_read old s pre post po : tokens pre post [KStr s] ->
  exists po', deserialize TB64 (VB64 old) (pre ++ post) po = Some (true, VB64 (old ++ lenient s), po').
Proof.
  intros T. apply (accepts TB64 (VB64 old) (pre ++ post) po); [reflexivity|exact I|].
  exists pre, post, [KStr s]. split; [reflexivity|]. split; [exact T|]. rewrite <- decode_lenient.
  apply tk_b64. discriminate.
Qed.

Lemma lenient_rfc v : lenient (rfc4648 v) = v.
Proof. rewrite <- b64_encode_rfc, <- decode_lenient, b64_decode_encode. reflexivity. Qed.

Lemma canonical s : (exists v, s = rfc4648 v) <-> rfc4648 (lenient s) = s.
Proof.
  split; [intros [v ->]; now rewrite lenient_rfc|intros E; exists (lenient s); congruence].
Qed.
