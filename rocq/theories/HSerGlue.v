(** The writing half of the text of json*.hh against Write.v. *)
From Coq Require Import Lia Arith.
From Verif Require Import Bytes BaseProofs Types Stream Tokenizer Write Read LexView HdrText CExec HParse HExec HTok SpecHTok HTokProofs HIgnProofs HGlueProofs
  HRunProofs HReadProofs HJson SpecRange SpecJson SpecInterp SpecWrite WriteProofs ErrProofs Termination HJsonProofs SpecHJson HJsonGlue HWriteProofs HSerProofs.

Lemma json_write : forall ea sn ty0 v e r o e', has_ty ty0 v = true -> Z.of_nat (longest v) <= 9223372036854775807 -> write ea sn ty0 v e = (r, o, e') ->
  text_writes ea sn ty0 v e r o e'.
Proof.
  intros ea sn ty0 v e r o e' H L W. exists (S (longest v)), 3%nat. intros N d vars x cur inp out LN LD G. rewrite runtime_is.
  assert (OK : ok_val N ty0 v) by (split; [exact H|split; [lia|exact L]]).
  exact (text_write N d ea sn LD ty0 v (TK cur inp e) r o e' OK W vars (HV HCtx) x out (or_introl eq_refl) G).
Qed.

(** What [serialize] makes of the result. *)
Lemma json_output : forall ty0 v po, has_ty ty0 v = true -> Z.of_nat (longest v) <= 9223372036854775807 ->
  exists r o e', text_writes (ensure_ascii (ctx_params po)) (serialize_null (ctx_params po)) ty0 v (p_err (ctx_params po)) r o e' /\
    serialize ty0 v po =
      (match r with PGR_OK => true | _ => false end, o, match r with PGR_OK => clear_params po | _ => params_set_err (clear_params po) e' end).
Proof.
  intros ty0 v po H L. destruct (write (ensure_ascii (ctx_params po)) (serialize_null (ctx_params po)) ty0 v (p_err (ctx_params po))) as [[r o] e'] eqn:W.
  exists r, o, e'. split; [eapply json_write; eassumption|]. unfold serialize. rewrite W. destruct r; reflexivity.
Qed.

(** There and back, both from the text. *)
Lemma json_back : forall ms g v po, ty_wf (TMsg ms g) -> tables_ok false (TMsg ms g) -> lookup_ok (TMsg ms g) ->
  jsonable (po_ea po) false (TMsg ms g) v -> faithful (po_sn po) (TMsg ms g) v -> has_ty (TMsg ms g) v = true ->
  Z.of_nat (longest v) <= 9223372036854775807 ->
  exists o e', text_writes (ensure_ascii (ctx_params po)) (serialize_null (ctx_params po)) (TMsg ms g) v (p_err (ctx_params po)) PGR_OK o e' /\
    forall po2, Z.of_nat (length o) <= 2147483646 -> exists t t',
      text_gives OTok "next" [] (TK (Tok T_NONE [] 0 0) (mk_istream o) (p_err (ctx_params po2))) (HL RCur []) t /\
      text_reads (TMsg ms g) t (dflt (TMsg ms g)) PGR_OK (persist (TMsg ms g) v) t'.
Proof.
  intros ms g v po W T L J F H B. destruct (json_output (TMsg ms g) v po H B) as (r & o & e' & TW & S).
  destruct (round_trip_lemma (TMsg ms g) v po T L J F) as (text & S' & R). rewrite S in S'. injection S' as S1 <- _.
  exists o, e'. split; [destruct r; [exact TW|discriminate S1..]|]. intros po2 Z.
  destruct (R [] [] po2) as [po2' R']; [constructor..|]. rewrite app_nil_l, app_nil_r in R'.
  destruct (json_input (TMsg ms g) (dflt (TMsg ms g)) o po2 W (dflt_ty _ W) Z) as (t & r2 & v' & t' & G & TR & DS).
  rewrite DS in R'. injection R' as R1 -> _. exists t, t'. split; [exact G|]. destruct r2; [exact TR|discriminate R1..].
Qed.
