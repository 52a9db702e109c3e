From Verif Require Import Bytes Num Dbl Types Stream Tokenizer Write Read LexView HdrText HText CExec HParse HExec HTok SpecHTok HJson SpecRange
  SpecJson SpecInterp SpecWrite WriteProofs ErrProofs Termination HJsonProofs SpecHJson HGlueProofs HJsonGlue HSerGlue HApi SpecHApi HApiProofs.
From Coq Require Import Lia.

Lemma api_deserialize : forall ty0 v inp po, ty_wf ty0 -> has_ty ty0 v = true -> Z.of_nat (length inp) <= 2147483646 ->
  exists r v' po', deserialize ty0 v inp po = Some (r, v', po') /\
    (forall member x, holds inp x -> api_gives member ty0 "deserialize" v po x r v' po' x) /\
    (exists i, forall member, api_gives member ty0 "deserialize" v po (AV (HObj (in_val (mk_istream inp)))) r v' po' (AV (HObj (in_val i)))).
Proof.
  intros ty0 v inp po W H L. destruct (json_input ty0 v inp po W H L) as (t & r & v' & t' & G & R & D).
  destruct (text_made inp (Tok T_NONE [] 0 0) err_clear L) as (_ & _ & _ & _ & (N2 & D2 & G2) & _).
  destruct G as (N0 & D0 & G). destruct R as (N1 & D1 & R). eexists _, v', _. split; [exact D|].
  assert (A1 : forall N d, (N0 <= N)%nat -> (D0 <= d)%nat -> gives_next N d (mk_istream inp) po t).
  { intros N d LN LD. unfold gives_next. rewrite call_is. apply G; assumption. }
  assert (A2 : forall N d, (N1 <= N)%nat -> (D1 <= d)%nat ->
    gives_read (fun ea sn => json_text N d ea sn the_texts ty0) v po t r v' t').
  { intros N d LN LD. unfold gives_read. rewrite <- runtime_is.
    rewrite (R N d _ _ [(b "x", VarVal (HM v))] (b "x") [] LN LD eq_refl). reflexivity. }
  assert (A3 : forall N d, (N2 <= N)%nat -> (D2 <= d)%nat -> gives_skip N d inp).
  { intros N d LN LD. unfold gives_skip. rewrite call_is. apply G2; assumption. }
  split.
  - intros member x HX. exists (N0 + N1 + N2)%nat, (1 + D0 + D1 + D2)%nat. intros N d LN LD.
    assert (1 <= d)%nat as LD1 by lia.
    pose proof (A1 N d ltac:(lia) ltac:(lia)) as B1. pose proof (A2 N d ltac:(lia) ltac:(lia)) as B2. pose proof (A3 N d ltac:(lia) ltac:(lia)) as B3.
    unfold text_api. rewrite api_is, runtime_is. destruct member.
    + destruct (read_text N d _ LD1 x inp v po t r v' t' HX B3 B1 B2) as (m & E & l & ->). exists l. exact E.
    + destruct (read_array_text N d _ LD1 x inp v po t r v' t' HX B3 B1 B2) as (m & E & l & ->). exists l. exact E.
  - exists (tk_in t'). intros member. exists (N0 + N1 + N2)%nat, (1 + D0 + D1 + D2)%nat. intros N d LN LD.
    assert (1 <= d)%nat as LD1 by lia.
    pose proof (A1 N d ltac:(lia) ltac:(lia)) as B1. pose proof (A2 N d ltac:(lia) ltac:(lia)) as B2.
    unfold text_api. rewrite api_is, runtime_is. destruct member.
    + destruct (read_direct N d _ LD1 1 v po _ t r v' t' B1 B2) as (m & E & l & ->). exists l. exact E.
    + destruct (read_array_direct N d _ LD1 1 v po _ t r v' t' B1 B2) as (m & E & l & ->). exists l. exact E.
Qed.

Lemma api_serialize : forall ty0 v po, has_ty ty0 v = true -> Z.of_nat (longest v) <= 9223372036854775807 ->
  exists r o po', serialize ty0 v po = (r, o, po') /\
    forall member x x', given member o x x' -> api_gives member ty0 "serialize" v po x r v po' x'.
Proof.
  intros ty0 v po H L. destruct (json_output ty0 v po H L) as (r & o & e & (N0 & D0 & G) & S). eexists _, o, _. split; [exact S|].
  intros member x x' X. exists N0, (1 + D0)%nat. intros N d LN LD. assert (1 <= d)%nat as LD1 by lia.
  assert (A : gives_write (fun ea sn => json_text N d ea sn the_texts ty0) v po r o e).
  { unfold gives_write. rewrite <- runtime_is. rewrite (G N d [] (HV (HM v)) (Tok T_NONE [] 0 0) (IS [] 1 1) [] LN ltac:(lia) eq_refl). reflexivity. }
  unfold text_api. rewrite api_is, runtime_is. destruct member.
  - destruct X as [s|s|s _|s].
    + destruct (write_string N d _ s v po r o e A) as (m & E & l & ->). exists l. exact E.
    + destruct (write_vector N d _ s v po r o e A) as (m & E & l & ->). exists l. exact E.
    + destruct (write_std N d _ s v po r o e A) as (m & E & l & ->). exists l. exact E.
    + destruct (write_direct N d _ 1 s v po r o e A) as (m & E & l & ->). exists l. exact E.
  - destruct X as [s|s|s M|s]; [| |discriminate M|].
    + destruct (write_array_string N d _ s v po r o e A) as (m & E & l & ->). exists l. exact E.
    + destruct (write_array_vector N d _ s v po r o e A) as (m & E & l & ->). exists l. exact E.
    + destruct (write_array_direct N d _ 1 s v po r o e A) as (m & E & l & ->). exists l. exact E.
Qed.

(** There and back. *)
Lemma api_back : forall ms g v po, ty_wf (TMsg ms g) -> tables_ok false (TMsg ms g) -> lookup_ok (TMsg ms g) ->
  jsonable (po_ea po) false (TMsg ms g) v -> faithful (po_sn po) (TMsg ms g) v -> has_ty (TMsg ms g) v = true ->
  Z.of_nat (longest v) <= 9223372036854775807 ->
  exists o, (forall x x', given true o x x' -> api_gives true (TMsg ms g) "serialize" v po x true v (clear_params po) x') /\
    forall po2, Z.of_nat (length o) <= 2147483646 -> exists po2', forall x, holds o x ->
      api_gives true (TMsg ms g) "deserialize" (dflt (TMsg ms g)) po2 x true (persist (TMsg ms g) v) po2' x.
Proof.
  intros ms g v po W T L J F H B. destruct (api_serialize (TMsg ms g) v po H B) as (r & o & po' & S & A).
  destruct (round_trip_lemma (TMsg ms g) v po T L J F) as (text & S' & R). rewrite S in S'. injection S' as -> -> ->.
  exists text. split; [intros x x' X; exact (A true x x' X)|]. intros po2 Z.
  destruct (R [] [] po2) as [po2' R']; [constructor..|]. rewrite app_nil_l, app_nil_r in R'.
  destruct (api_deserialize (TMsg ms g) (dflt (TMsg ms g)) text po2 W (dflt_ty _ W) Z) as (r2 & v2 & po3 & E & A2 & _).
  rewrite E in R'. injection R' as -> -> ->. exists po2'. intros x X. exact (A2 true x X).
Qed.
