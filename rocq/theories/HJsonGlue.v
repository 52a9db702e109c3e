(** The reading half of the text of json*.hh against Read.v. *)
From Verif Require Import Bytes BaseProofs Types Stream Tokenizer Write Read LexView HdrText CExec HParse HExec HTok SpecHTok HTokProofs HIgnProofs HGlueProofs
  HRunProofs HReadProofs HJson SpecRange ErrProofs Termination HJsonProofs SpecHJson.

Lemma runtime_is : runtime = the_texts.
Proof. vm_compute. reflexivity. Qed.

Lemma json_read : forall n ty0 t v r v' t', ty_wf ty0 -> has_ty ty0 v = true -> fits (tk_in t) -> read n ty0 t v = Some (r, v', t') ->
  text_reads ty0 t v r v' t'.
Proof.
  intros n ty0 t v r v' t' W H F R. exists (n + length (is_rest (tk_in t)) + length (t_val (tk_cur t)) + 5)%nat, (2 * n + 20)%nat.
  intros N d ea sn vars x out L D A. rewrite runtime_is.
  assert (D2 : (2 <= d)%nat) by lia.
  destruct (text_read N d ea sn D2 ty0 W n t v r v' t' R H) as [_ K].
  - split; [apply room_for; [exact F|lia]|]. unfold tok_fits. lia.
  - exact D.
  - apply K; [left; reflexivity|exact A].
Qed.

Lemma json_reads : forall ty0 t v, ty_wf ty0 -> has_ty ty0 v = true -> wf_is (tk_in t) -> fits (tk_in t) ->
  exists n r v' t', read n ty0 t v = Some (r, v', t') /\ text_reads ty0 t v r v' t'.
Proof.
  intros ty0 t v W H I F. destruct (read_total _ ty0 t v I (le_n _)) as (r & v' & t' & R & _).
  eexists _, r, v', t'. split; [exact R|eapply json_read; eassumption].
Qed.

(** From the input on: the first token (C68), json<T>::read, and what [deserialize] makes of its result. *)
Lemma json_input : forall ty0 v inp po, ty_wf ty0 -> has_ty ty0 v = true -> Z.of_nat (length inp) <= 2147483646 ->
  exists t r v' t',
    text_gives OTok "next" [] (TK (Tok T_NONE [] 0 0) (mk_istream inp) (p_err (ctx_params po))) (HL RCur []) t /\
    text_reads ty0 t v r v' t' /\
    deserialize ty0 v inp po =
      Some (match r with PGR_OK => true | _ => false end, v',
            match r with PGR_OK => clear_params po | _ => params_set_err (clear_params po) (tk_err t') end).
Proof.
  intros ty0 v inp po W H L. destruct (deserialize_total ty0 v inp po) as (r0 & v0 & po0 & E).
  unfold deserialize, deserialize_fuel in E |- *.
  destruct (tk_make (fuel_for inp) (mk_istream inp) (p_err (ctx_params po))) as [t|] eqn:M; [|discriminate E].
  destruct (read (fuel_for inp) ty0 t v) as [[[r v'] t']|] eqn:R; [|discriminate E].
  assert (G : text_gives OTok "next" [] (TK (Tok T_NONE [] 0 0) (mk_istream inp) (p_err (ctx_params po))) (HL RCur []) t).
  { apply (text_next (fuel_for inp)); [apply fits_made; exact L|exact M]. }
  exists t, r, v', t'. split; [exact G|]. split.
  - apply (json_read (fuel_for inp)); [exact W|exact H| |exact R].
    unfold tk_make in M. apply later_tnext in M. apply M, fits_made. exact L.
  - destruct r; reflexivity.
Qed.
