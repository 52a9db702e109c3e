(** The text of the stream and the tokenizer, executed, against Stream.v and Tokenizer.v. *)
From Coq Require Import Lia Arith.
From Verif Require Import Bytes Num Stream Tokenizer Template Cpp CLex CParse CExec Unit HdrText HText HParse HExec HTok BaseProofs SpecHTok.

Section P.
Context (N : nat) (ea : bool).
Definition callT := callD N consts ea stream_funs tok_funs.
Notation execT cl d := (hexec N consts ea cl (callT d cl)).

Lemma while_loop_S : forall k c st body s,
  while_loop (S k) c st body s =
  match c s with
  | Some (true, s1) =>
      match body s1 with
      | Some (GNext, s2) | Some (GContinue, s2) =>
          match st s2 with Some s3 => while_loop k c st body s3 | None => None end
      | Some (GBreak, s2) => Some (GNext, s2)
      | x => x
      end
  | Some (false, s1) => Some (GNext, s1)
  | None => None
  end.
Proof. reflexivity. Qed.

Lemma seq_next : forall ex k st r s s1 R,
  ex st s = Some (GNext, s1) -> seq_loop ex k r s1 = R -> seq_loop ex (S k) (st :: r) s = R.
Proof. intros; cbn [seq_loop]; rewrite H; assumption. Qed.
Lemma seq_return : forall ex k st r s x s1, ex st s = Some (GReturn x, s1) -> seq_loop ex (S k) (st :: r) s = Some (GReturn x, s1).
Proof. intros; cbn [seq_loop]; rewrite H; reflexivity. Qed.
Lemma seq_end : forall ex k s, seq_loop ex (S k) [] s = Some (GNext, s).
Proof. reflexivity. Qed.

Lemma hexec_while : forall l c cl call n e st s,
  hexec l c ea cl call (S n) (TWhile e st) s = while_loop l (hcond c ea cl call e) Some (hexec l c ea cl call n st) s.
Proof. reflexivity. Qed.

Definition fn_of (fs : list hfun) (f : string) : hfun := match hfind fs (b f) with Some x => x | None => HFun [] [] [] [] end.

Lemma run_intro : forall cl d f args s vars back fl s1 r vs R,
  bind_params (hf_params f) args s = Some (vars, back) ->
  seq_loop (execT cl d nesting) (S (length (hf_body f))) (hf_body f) (put_vars s vars) = Some (fl, s1) ->
  result_of (hf_ret f) fl s1 = Some r ->
  give_back back (s_vars s1) (s_vars s) = Some vs ->
  Some (r, put_vars s1 vs) = R ->
  run_fun N consts ea cl (callT d cl) f args s = R.
Proof.
  intros cl d f args s vars back fl s1 r vs X B E R G <-. unfold run_fun. rewrite B.
  rewrite E, R, G. reflexivity.
Qed.

Lemma call_in : forall d cl f args s fn, hfind stream_funs f = Some fn ->
  callT (S d) cl OIn [f] args s = run_fun N consts ea CStream (callT d CStream) fn args s.
Proof. intros d cl f args s fn H. unfold callT. cbn [callD]. rewrite H. reflexivity. Qed.
Lemma call_own_in : forall d f args s fn, hfind stream_funs f = Some fn ->
  callT (S d) CStream OName [f] args s = run_fun N consts ea CStream (callT d CStream) fn args s.
Proof. intros d f args s fn H. unfold callT. cbn [callD]. rewrite H. reflexivity. Qed.

Ltac ev := cbv -[callT while_loop Z.add Z.sub Z.leb Z.ltb Z.eqb Z.shiftl Z.shiftr Z.land Z.lor int_ok char_of byte_of
                 code cast_int str_eqb cat in_val is_rest is_line is_col is_eof is_peek is_next].
(** The same with the members of the stream. *)
Ltac evs := cbv -[callT while_loop Z.add Z.sub Z.leb Z.ltb Z.eqb int_ok char_of byte_of code str_eqb cat].

Definition fn_skip := Eval vm_compute in fn_of stream_funs "skip".
Definition skip_c := Eval vm_compute in match hf_body fn_skip with [TWhile c _] => c | _ => EBool false end.
Definition skip_b := Eval vm_compute in match hf_body fn_skip with [TWhile _ x] => x | _ => TBreak end.

Lemma schar_lf : forall c, (schar c =? 10) = Ascii.eqb c LF.
Proof. intros c. destruct c as [[|] [|] [|] [|] [|] [|] [|] [|]]; reflexivity. Qed.

Lemma int_ok_iff : forall z, int_ok z = true <-> -2147483648 <= z <= 2147483647.
Proof. intros z. unfold int_ok. rewrite andb_true_iff, !Z.leb_le. lia. Qed.

Lemma skip_while : forall d rest line col k c e o, (length rest < k)%nat -> fits (IS rest line col) ->
  while_loop k (hcond consts ea CStream (callT d CStream) skip_c) Some (execT CStream d 19 skip_b)
             (HSt [] c e (in_val (IS rest line col)) o) =
  Some (GNext, HSt [] c e (in_val (skip_lf rest line col)) o).
Proof.
  intros d rest. induction rest as [|x r IH]; intros line col k c e o K F; (destruct k as [|k]; [inversion K|]); rewrite while_loop_S.
  - evs. reflexivity.
  - match goal with |- match ?X with _ => _ end = _ => assert (E : X = Some (schar x =? 10, HSt [] c e (in_val (IS (x :: r) line col)) o)) end.
    { evs. reflexivity. }
    rewrite E. rewrite schar_lf. cbn [skip_lf]. destruct (Ascii.eqb x LF); [|reflexivity].
    match goal with |- match ?X with _ => _ end = _ => assert (E2 : X = Some (GNext, HSt [] c e (in_val (IS r (line + 1) 1)) o)) end.
    { assert (O : int_ok (line + 1) = true) by (apply int_ok_iff; unfold fits in F; cbn in F; lia).
      evs. rewrite O. reflexivity. }
    rewrite E2. apply IH; [cbn in K; lia|]. unfold fits in *; cbn [is_rest is_line is_col length] in *; lia.
Qed.

Lemma skip_fits : forall rest line col, fits (IS rest line col) -> fits (skip_lf rest line col).
Proof.
  induction rest as [|x r IH]; intros line col F; cbn [skip_lf]; [exact F|].
  destruct (Ascii.eqb x LF); [|exact F]. apply IH. unfold fits in *; cbn [is_rest is_line is_col length] in *; lia.
Qed.
Lemma next_fits : forall i, fits i -> fits (is_next i).
Proof.
  intros [[|x r] line col] F; [exact F|]. unfold is_next; cbn [is_rest is_line is_col]. apply skip_fits.
  unfold fits in *; cbn [is_rest is_line is_col length] in *; lia.
Qed.
Lemma skip_shorter : forall rest line col, (length (is_rest (skip_lf rest line col)) <= length rest)%nat.
Proof.
  induction rest as [|x r IH]; intros line col; cbn [skip_lf]; [reflexivity|].
  destruct (Ascii.eqb x LF); [etransitivity; [apply IH|]; cbn; lia|reflexivity].
Qed.
Lemma next_shorter : forall i, (length (is_rest (is_next i)) <= length (is_rest i))%nat.
Proof.
  intros [[|x r] line col]; [reflexivity|]. unfold is_next; cbn [is_rest is_line is_col].
  etransitivity; [apply skip_shorter|]; cbn; lia.
Qed.

(** The stream holds [i], whatever the rest is. *)
Definition with_in (s : hst) (i : istream) : hst := HSt (s_vars s) (s_cur s) (s_err s) (in_val i) (s_out s).

Ltac find := vm_compute; reflexivity.
Definition fn_eof := Eval vm_compute in fn_of stream_funs "eof".
Definition fn_peek := Eval vm_compute in fn_of stream_funs "peek".
Definition fn_next := Eval vm_compute in fn_of stream_funs "next".
Definition fn_line := Eval vm_compute in fn_of stream_funs "line".
Definition fn_column := Eval vm_compute in fn_of stream_funs "column".

Ltac fn f := eapply run_intro; [try reflexivity|cbv [f hf_body length nesting put_vars s_vars s_cur s_err s_in s_out]| | | ].
Ltac nx := eapply seq_next.
Ltac rt := eapply seq_return.
Ltac use L :=
  match goal with |- context [callT ?d ?c ?o ?w ?a ?s] =>
    let H := fresh in
    eassert (H : callT d c o w a s = _) by (eapply L; first [eassumption | lia | ev; reflexivity]); rewrite H; clear H
  end.

Lemma run_skip : forall d v c e i o, (length (is_rest i) < N)%nat -> fits i ->
  callT (S d) CStream OName [b "skip"] [] (HSt v c e (in_val i) o) =
  Some (HV HVoid, HSt v c e (in_val (skip_lf (is_rest i) (is_line i) (is_col i))) o).
Proof.
  intros d v c e [rest line col] o K F. rewrite (call_own_in d _ _ _ fn_skip) by find.
  fn fn_skip.
  { nx; [rewrite hexec_while; exact (skip_while d rest line col N c e o K F)|apply seq_end]. }
  evs; reflexivity. reflexivity. reflexivity.
Qed.

Lemma run_eof : forall d cl v c e i o,
  callT (S d) cl OIn [b "eof"] [] (HSt v c e (in_val i) o) = Some (HV (HB (is_eof i)), HSt v c e (in_val i) o).
Proof.
  intros d cl v c e [rest line col] o. rewrite (call_in d cl _ _ _ fn_eof) by find.
  destruct rest; (fn fn_eof; [rt; evs; reflexivity|evs; reflexivity|reflexivity|reflexivity]).
Qed.
Lemma run_line : forall d cl v c e i o,
  callT (S d) cl OIn [b "line"] [] (HSt v c e (in_val i) o) = Some (HV (HI IInt (is_line i)), HSt v c e (in_val i) o).
Proof.
  intros d cl v c e [rest line col] o. rewrite (call_in d cl _ _ _ fn_line) by find.
  fn fn_line; [rt; evs; reflexivity|evs; reflexivity|reflexivity|reflexivity].
Qed.
Lemma run_column : forall d cl v c e i o,
  callT (S d) cl OIn [b "column"] [] (HSt v c e (in_val i) o) = Some (HV (HI IInt (is_col i)), HSt v c e (in_val i) o).
Proof.
  intros d cl v c e [rest line col] o. rewrite (call_in d cl _ _ _ fn_column) by find.
  fn fn_column; [rt; evs; reflexivity|evs; reflexivity|reflexivity|reflexivity].
Qed.
Lemma run_peek : forall d cl v c e i o,
  callT (S d) cl OIn [b "peek"] [] (HSt v c e (in_val i) o) = Some (HV (HI IInt (is_peek i)), HSt v c e (in_val i) o).
Proof.
  intros d cl v c e [rest line col] o. rewrite (call_in d cl _ _ _ fn_peek) by find.
  destruct rest as [|x r]; fn fn_peek.
  - rt; evs; reflexivity.
  - evs; reflexivity.
  - reflexivity.
  - reflexivity.
  - nx; [evs; reflexivity|]. rt; evs; reflexivity.
  - evs; reflexivity.
  - reflexivity.
  - reflexivity.
Qed.
Lemma run_next : forall d cl v c e i o, (length (is_rest i) < N)%nat -> fits i ->
  callT (S (S d)) cl OIn [b "next"] [] (HSt v c e (in_val i) o) = Some (HV HVoid, HSt v c e (in_val (is_next i)) o).
Proof.
  intros d cl v c e [rest line col] o K F. rewrite (call_in (S d) cl _ _ _ fn_next) by find.
  destruct rest as [|x r]; fn fn_next.
  - rt; evs; reflexivity.
  - evs; reflexivity.
  - reflexivity.
  - reflexivity.
  - assert (O : int_ok (col + 1) = true) by (apply int_ok_iff; unfold fits in F; cbn in F; lia).
    nx; [evs; reflexivity|]. nx; [evs; reflexivity|]. nx; [evs; rewrite O; reflexivity|].
    assert (F' : fits (IS r line (col + 1))) by (unfold fits in *; cbn [is_rest is_line is_col length] in *; lia).
    assert (K' : (length (is_rest (IS r line (col + 1))) < N)%nat) by (cbn in *; lia).
    nx; [evs; use (run_skip d [] c e (IS r line (col + 1)) o K' F'); evs; reflexivity|apply seq_end].
  - evs; reflexivity.
  - reflexivity.
  - reflexivity.
Qed.

(** Calls on the stream at any sufficient depth. *)
Lemma at_eof : forall d cl v c e i o, (1 <= d)%nat ->
  callT d cl OIn [b "eof"] [] (HSt v c e (in_val i) o) = Some (HV (HB (is_eof i)), HSt v c e (in_val i) o).
Proof. intros [|d] * D; [lia|]. apply run_eof. Qed.
Lemma at_line : forall d cl v c e i o, (1 <= d)%nat ->
  callT d cl OIn [b "line"] [] (HSt v c e (in_val i) o) = Some (HV (HI IInt (is_line i)), HSt v c e (in_val i) o).
Proof. intros [|d] * D; [lia|]. apply run_line. Qed.
Lemma at_column : forall d cl v c e i o, (1 <= d)%nat ->
  callT d cl OIn [b "column"] [] (HSt v c e (in_val i) o) = Some (HV (HI IInt (is_col i)), HSt v c e (in_val i) o).
Proof. intros [|d] * D; [lia|]. apply run_column. Qed.
Lemma at_peek : forall d cl v c e i o, (1 <= d)%nat ->
  callT d cl OIn [b "peek"] [] (HSt v c e (in_val i) o) = Some (HV (HI IInt (is_peek i)), HSt v c e (in_val i) o).
Proof. intros [|d] * D; [lia|]. apply run_peek. Qed.
Lemma at_next : forall d cl v c e i o, (2 <= d)%nat -> (length (is_rest i) < N)%nat -> fits i ->
  callT d cl OIn [b "next"] [] (HSt v c e (in_val i) o) = Some (HV HVoid, HSt v c e (in_val (is_next i)) o).
Proof. intros [|[|d]] * D K F; try lia. apply run_next; assumption. Qed.

(** ** Statements *)
Section S.
  Context (cl : cls) (call : target -> list bytes -> list hres -> hst -> option (hres * hst)).
  Notation ex := (hexec N consts ea cl call).
  Lemma block_intro : forall n l s f s1 R,
    seq_loop (ex n) (S (length l)) l s = Some (f, s1) -> Some (f, leave_block s s1) = R -> ex (S n) (TBlock l) s = R.
  Proof. intros n l s f s1 R H <-. cbn [hexec]. rewrite H. reflexivity. Qed.
  Lemma if_true : forall n c s1 s2 s s' R, hcond consts ea cl call c s = Some (true, s') -> ex n s1 s' = R -> ex (S n) (TIf c s1 s2) s = R.
  Proof. intros n c s1 s2 s s' R H <-. cbn [hexec]. rewrite H. reflexivity. Qed.
  Lemma if_else : forall n c s1 s2 s s' R, hcond consts ea cl call c s = Some (false, s') -> ex n s2 s' = R -> ex (S n) (TIf c s1 (Some s2)) s = R.
  Proof. intros n c s1 s2 s s' R H <-. cbn [hexec]. rewrite H. reflexivity. Qed.
  Lemma if_none : forall n c s1 s s', hcond consts ea cl call c s = Some (false, s') -> ex (S n) (TIf c s1 None) s = Some (GNext, s').
  Proof. intros n c s1 s s' H. cbn [hexec]. rewrite H. reflexivity. Qed.
  Lemma switch_intro : forall n e l s x s1 t z l' f s2 R,
    heval consts ea cl call e s = Some (x, s1) -> load s1 x = Some (HI t z) -> cases_ok consts l = true ->
    case_from consts z l = Some l' ->
    seq_loop (ex n) (S (length l)) l' s1 = Some (f, s2) ->
    Some (match f with GBreak => GNext | _ => f end, leave_block s1 s2) = R ->
    ex (S n) (TSwitch e l) s = R.
  Proof.
    intros n e l s x s1 t z l' f s2 R E L C P Q <-. cbn [hexec]. rewrite E, L, C. cbv zeta. rewrite P, Q.
    destruct f; reflexivity.
  Qed.
  Lemma switch_default : forall n e l s x s1 t z f s2 R,
    heval consts ea cl call e s = Some (x, s1) -> load s1 x = Some (HI t z) -> cases_ok consts l = true ->
    case_from consts z l = None ->
    seq_loop (ex n) (S (length l)) (default_from l) s1 = Some (f, s2) ->
    Some (match f with GBreak => GNext | _ => f end, leave_block s1 s2) = R ->
    ex (S n) (TSwitch e l) s = R.
  Proof.
    intros n e l s x s1 t z f s2 R E L C P Q <-. cbn [hexec]. rewrite E, L, C. cbv zeta. rewrite P, Q.
    destruct f; reflexivity.
  Qed.
End S.
Lemma cf_hit : forall z e c r, case_val consts e = Some c -> (z =? c) = true -> case_from consts z (TCase e :: r) = Some r.
Proof. intros z e c r H Q. cbn [case_from]. rewrite H, Q. reflexivity. Qed.
Lemma cf_miss : forall z e c r R, case_val consts e = Some c -> (z =? c) = false -> case_from consts z r = R -> case_from consts z (TCase e :: r) = R.
Proof. intros z e c r R H Q <-. cbn [case_from]. rewrite H, Q. reflexivity. Qed.
Lemma cf_skip : forall z st r R, match st with TCase _ => false | _ => true end = true -> case_from consts z r = R -> case_from consts z (st :: r) = R.
Proof. intros z st r R H <-. destruct st; try discriminate H; reflexivity. Qed.
Ltac pick := repeat match goal with
  | |- case_from _ _ (TCase _ :: _) = _ => first [eapply cf_miss; [reflexivity|eassumption|] | eapply cf_hit; [reflexivity|eassumption]]
  | |- case_from _ _ [] = _ => reflexivity
  | |- case_from _ _ (_ :: _) = _ => eapply cf_skip; [reflexivity|]
  end.
Lemma seq_break : forall ex k st r s s1, ex st s = Some (GBreak, s1) -> seq_loop ex (S k) (st :: r) s = Some (GBreak, s1).
Proof. intros; cbn [seq_loop]; rewrite H; reflexivity. Qed.
Lemma seq_goto : forall ex k st r s x s1 r' R,
  ex st s = Some (GGoto x, s1) -> label_from x r = Some r' -> seq_loop ex k r' s1 = R -> seq_loop ex (S k) (st :: r) s = R.
Proof. intros; cbn [seq_loop]; rewrite H, H0; assumption. Qed.
Lemma seq_leap : forall ex k st r s x s1,
  ex st s = Some (GGoto x, s1) -> label_from x r = None -> seq_loop ex (S k) (st :: r) s = Some (GGoto x, s1).
Proof. intros; cbn [seq_loop]; rewrite H, H0; reflexivity. Qed.

Lemma call_own : forall d f args s fn, hfind tok_funs f = Some fn ->
  callT (S d) CTok OName [f] args s = run_fun N consts ea CTok (callT d CTok) fn args s.
Proof. intros d f args s fn H. unfold callT. cbn [callD]. rewrite H. reflexivity. Qed.

Ltac body_is R :=
  match goal with |- context [hexec ?l ?k ?a ?cl ?call ?n ?st ?s] =>
    let H := fresh in assert (H : hexec l k a cl call n st s = R); [|rewrite H; clear H] end.
Lemma cond_or : forall cl call x y s p q, hcond consts ea cl call x s = Some (p, s) -> hcond consts ea cl call y s = Some (q, s) ->
  hcond consts ea cl call (EBin (b "||") x y) s = Some (p || q, s).
Proof.
  intros cl call x y s p q. unfold hcond. cbn [heval].
  change (same (b "||") (b "&&")) with false. change (same (b "||") (b "||")) with true. cbn [orb].
  destruct (heval consts ea cl call x s) as [[u s1]|]; [|discriminate]. cbn [option_map].
  destruct (bind (load s1 u) truth) as [p'|]; [|discriminate]. intros H; injection H as -> ->.
  destruct p; [reflexivity|]. cbn [negb orb].
  destruct (heval consts ea cl call y s) as [[w s2]|]; [|discriminate]. cbn [option_map].
  destruct (bind (load s2 w) truth) as [q'|]; [|discriminate]. intros H; injection H as -> ->. reflexivity.
Qed.
Lemma cond_and : forall cl call x y s p q, hcond consts ea cl call x s = Some (p, s) -> hcond consts ea cl call y s = Some (q, s) ->
  hcond consts ea cl call (EBin (b "&&") x y) s = Some (p && q, s).
Proof.
  intros cl call x y s p q. unfold hcond. cbn [heval].
  change (same (b "&&") (b "&&")) with true. cbn [orb].
  destruct (heval consts ea cl call x s) as [[u s1]|]; [|discriminate]. cbn [option_map].
  destruct (bind (load s1 u) truth) as [p'|]; [|discriminate]. intros H; injection H as -> ->.
  destruct p; [|reflexivity]. cbn [andb].
  destruct (heval consts ea cl call y s) as [[w s2]|]; [|discriminate]. cbn [option_map].
  destruct (bind (load s2 w) truth) as [q'|]; [|discriminate]. intros H; injection H as -> ->. reflexivity.
Qed.
Ltac pure := first [eapply cond_or; [pure|pure] | eapply cond_and; [pure|pure] | ev; reflexivity].
Ltac cond_is B :=
  match goal with |- hexec _ _ _ ?cl ?call (S _) (TIf ?c _ _) ?s = _ =>
    assert (HC : hcond consts ea cl call c s = Some (B, s)) by (etransitivity; [pure|reflexivity]) end.
Lemma chr_schar_chr : forall z, byte_of (char_of (byte_of z)) = chr z.
Proof. intros z. unfold byte_of, char_of. apply chr_schar. Qed.

(** ** Words and numbers *)
Definition fn_ident := Eval vm_compute in fn_of tok_funs "parse_identifier".
Definition loop_c (l : list hstmt) : hexpr := match find (fun s => match s with TWhile _ _ => true | _ => false end) l with Some (TWhile c _) => c | _ => EBool false end.
Definition loop_b (l : list hstmt) : hstmt := match find (fun s => match s with TWhile _ _ => true | _ => false end) l with Some (TWhile _ x) => x | _ => TBreak end.
Definition ident_c := Eval vm_compute in loop_c (hf_body fn_ident).
Definition ident_b := Eval vm_compute in loop_b (hf_body fn_ident).

Lemma ident_while : forall d c e o n i val val' i' k, (2 <= d)%nat -> (n <= k)%nat -> (length (is_rest i) < N)%nat -> fits i ->
  parse_identifier n i val = Some (val', i') ->
  while_loop k (hcond consts ea CTok (callT d CTok) ident_c) Some (execT CTok d 19 ident_b)
             (HSt [(b "value", VarVal (HS val))] c e (in_val i) o) =
  Some (GNext, HSt [(b "value", VarVal (HS val'))] c e (in_val i') o).
Proof.
  intros d c e o n. induction n as [|n IH]; intros i val val' i' k D K L F P; [discriminate P|].
  destruct k as [|k]; [inversion K|]. rewrite while_loop_S. cbn [parse_identifier] in P.
  match goal with |- match ?X with _ => _ end = _ => eassert (E : X = _) end.
  { ev. use at_eof. ev. reflexivity. }
  rewrite E. destruct (is_eof i); [injection P as <- <-; reflexivity|].
  destruct (is_alpha_z (is_peek i)) eqn:A.
  - body_is (Some (GNext, HSt [(b "value", VarVal (HS (val ++ [chr (is_peek i)])))] c e (in_val (is_next i)) o)).
    { unfold ident_b. eapply block_intro. cbv [length].
      + nx; [ev; use at_peek; ev; reflexivity|].
        nx; [|apply seq_end].
        cond_is (is_alpha_z (is_peek i)). rewrite A in HC. eapply if_true; [exact HC|].
        eapply block_intro.
        * cbv [length]. nx; [ev; reflexivity|]. nx; [ev; use at_next; ev; reflexivity|apply seq_end].
        * ev. reflexivity.
      + rewrite <- (chr_schar_chr (is_peek i)). ev. reflexivity. }
    apply (IH (is_next i)); try assumption; [lia| |apply next_fits; assumption].
    eapply Nat.le_lt_trans; [apply next_shorter|exact L].
  - injection P as <- <-.
    body_is (Some (GBreak, HSt [(b "value", VarVal (HS val))] c e (in_val i) o)); [|reflexivity].
    unfold ident_b. eapply block_intro. cbv [length].
    + nx; [ev; use at_peek; ev; reflexivity|]. eapply seq_break.
      cond_is (is_alpha_z (is_peek i)). rewrite A in HC. eapply if_else; [exact HC|]. reflexivity.
    + ev. reflexivity.
Qed.

Lemma run_ident : forall d n v c e i o val i', (3 <= d)%nat -> (n <= N)%nat -> (length (is_rest i) < N)%nat -> fits i ->
  parse_identifier n i [] = Some (val, i') ->
  callT d CTok OName [b "parse_identifier"] [] (HSt v c e (in_val i) o) = Some (HV (HS val), HSt v c e (in_val i') o).
Proof.
  intros [|d] n v c e i o val i' D K L F P; [lia|]. rewrite (call_own d _ _ _ fn_ident) by find.
  fn fn_ident.
  - nx; [ev; reflexivity|].
    nx; [rewrite hexec_while; eapply (ident_while d c e o n i [] val i' N); first [assumption|lia]|].
    rt; ev; reflexivity.
  - ev. reflexivity.
  - reflexivity.
  - reflexivity.
Qed.

Definition fn_number := Eval vm_compute in fn_of tok_funs "parse_number".
Definition number_c := Eval vm_compute in loop_c (hf_body fn_number).
Definition number_b := Eval vm_compute in loop_b (hf_body fn_number).

Lemma number_while : forall d c e o x y n i val val' i' k, (2 <= d)%nat -> (n <= k)%nat -> (length (is_rest i) < N)%nat -> fits i ->
  parse_number_loop n i val = Some (val', i') ->
  let vs w := [(b "column", x); (b "line", y); (b "value", VarVal (HS w))] in
  while_loop k (hcond consts ea CTok (callT d CTok) number_c) Some (execT CTok d 19 number_b) (HSt (vs val) c e (in_val i) o) =
  Some (GNext, HSt (vs val') c e (in_val i') o).
Proof.
  intros d c e o x y n. cbv zeta. induction n as [|n IH]; intros i val val' i' k D K L F P; [discriminate P|].
  destruct k as [|k]; [inversion K|]. rewrite while_loop_S. cbn [parse_number_loop] in P.
  match goal with |- match ?X with _ => _ end = _ => eassert (E : X = _) end.
  { ev. use at_eof. ev. reflexivity. }
  rewrite E. destruct (is_eof i); [injection P as <- <-; reflexivity|].
  destruct (is_num_z (is_peek i)) eqn:A.
  - body_is (Some (GNext, HSt [(b "column", x); (b "line", y); (b "value", VarVal (HS (val ++ [chr (is_peek i)])))] c e (in_val (is_next i)) o)).
    { unfold number_b. eapply block_intro. cbv [length].
      + nx; [ev; use at_peek; ev; reflexivity|].
        nx; [|apply seq_end].
        cond_is (is_num_z (is_peek i)). rewrite A in HC. eapply if_true; [exact HC|].
        eapply block_intro.
        * cbv [length]. nx; [ev; reflexivity|]. nx; [ev; use at_next; ev; reflexivity|apply seq_end].
        * ev. reflexivity.
      + rewrite <- (chr_schar_chr (is_peek i)). ev. reflexivity. }
    apply (IH (is_next i)); try assumption; [lia| |apply next_fits; assumption].
    eapply Nat.le_lt_trans; [apply next_shorter|exact L].
  - injection P as <- <-.
    body_is (Some (GBreak, HSt [(b "column", x); (b "line", y); (b "value", VarVal (HS val))] c e (in_val i) o)); [|reflexivity].
    unfold number_b. eapply block_intro. cbv [length].
    + nx; [ev; use at_peek; ev; reflexivity|]. eapply seq_break.
      cond_is (is_num_z (is_peek i)). rewrite A in HC. eapply if_else; [exact HC|]. reflexivity.
    + ev. reflexivity.
Qed.

(** ** Tokens *)
Lemma at_builtin : forall d f args s vs v, (1 <= d)%nat -> hfind tok_funs f = None -> loads s args = Some vs -> builtin [f] vs = Some v ->
  callT d CTok OName [f] args s = Some (HV v, s).
Proof. intros [|d] f args s vs v D H L B; [lia|]. unfold callT. cbn [callD]. rewrite H, L, B. reflexivity. Qed.
Ltac std :=
  match goal with |- context [callT ?d ?c ?o ?w ?a ?s] =>
    let H := fresh in
    eassert (H : callT d c o w a s = _) by (eapply at_builtin; [lia|vm_compute; reflexivity|ev; reflexivity|ev; reflexivity]); rewrite H; clear H
  end.

Lemma run_number : forall d n v c e i o t i', (3 <= d)%nat -> (n <= N)%nat -> (length (is_rest i) < N)%nat -> fits i ->
  parse_number n i = Some (t, i') ->
  callT d CTok OName [b "parse_number"] [] (HSt v c e (in_val i) o) = Some (HV (tok_val t), HSt v c e (in_val i') o).
Proof.
  intros [|d] n v c e i o t i' D K L F P; [lia|]. rewrite (call_own d _ _ _ fn_number) by find.
  unfold parse_number in P. destruct (parse_number_loop n i []) as [[val j]|] eqn:Q; [|discriminate]. injection P as <- <-.
  fn fn_number.
  - nx; [ev; reflexivity|]. nx; [ev; use at_line; ev; reflexivity|]. nx; [ev; use at_column; ev; reflexivity|].
    nx; [rewrite hexec_while; eapply (number_while d c e o _ _ n i [] val j N); first [assumption|lia]|].
    rt. ev. std. ev. reflexivity.
  - ev. reflexivity.
  - reflexivity.
  - reflexivity.
Qed.

(** ** \uXXXX *)
Definition fn_utf8 := Eval vm_compute in fn_of tok_funs "parse_escaped_utf8".
Definition for_parts (l : list hstmt) : hexpr * list hexpr * hstmt :=
  match find (fun s => match s with TFor _ _ _ _ => true | _ => false end) l with
  | Some (TFor _ c p st) => (c, p, st) | _ => (EBool false, [], TBreak) end.
Definition hex_c := Eval vm_compute in fst (fst (for_parts (hf_body fn_utf8))).
Definition hex_p := Eval vm_compute in snd (fst (for_parts (hf_body fn_utf8))).
Definition hex_b := Eval vm_compute in snd (for_parts (hf_body fn_utf8)).

Lemma hex_char : forall i, is_hex_z (is_peek i) = true ->
  hex_digit_val (byte_of (char_of (byte_of (is_peek i)))) = Some (hex_val (is_peek i)) /\ (char_of (byte_of (is_peek i)) =? 0) = false.
Proof.
  intros [[|x r] l k]; [discriminate|]. unfold is_peek; cbn [is_rest].
  destruct x as [[|] [|] [|] [|] [|] [|] [|] [|]]; vm_compute; intros H; first [discriminate H|split; reflexivity].
Qed.
Lemma hex_small : forall c, is_hex_z c = true -> 0 <= hex_val c <= 15.
Proof.
  intros c H. unfold is_hex_z in H. unfold hex_val. rewrite !orb_true_iff, !andb_true_iff, !Z.leb_le in H.
  destruct (c <=? 57) eqn:E; [apply Z.leb_le in E; lia|apply Z.leb_gt in E].
  destruct (c <=? 70) eqn:G; [apply Z.leb_le in G; lia|apply Z.leb_gt in G; lia].
Qed.

Definition hex_arr (l : list Z) : hval := HArr (map (fun z => HI IChar z) l).
Definition ch (i : istream) : Z := char_of (byte_of (is_peek i)).

(** One digit. *)
Lemma hex_step : forall d c e o x y i j l, (2 <= d)%nat -> (length (is_rest i) < N)%nat -> fits i ->
  0 <= j < 4 -> length l = 5%nat ->
  let vs l := [(b "i", VarVal (HI IInt j)); (b "temp", VarVal (hex_arr l)); (b "value", x); (b "lead", y)] in
  execT CTok d 19 hex_b (HSt (vs l) c e (in_val i) o) =
  if is_hex_z (is_peek (is_next i))
  then Some (GNext, HSt (vs (set_nth (Z.to_nat j) (ch (is_next i)) l)) c e (in_val (is_next i)) o)
  else Some (GReturn (Some (HV (HB false))), HSt (vs l) c e (in_val (is_next i)) o).
Proof.
  intros d c e o x y i j l D L F J Q. cbv zeta. unfold hex_b.
  assert (J' : j = 0 \/ j = 1 \/ j = 2 \/ j = 3) by lia. clear J.
  do 6 (destruct l as [|? l]; try discriminate Q).
  destruct (is_hex_z (is_peek (is_next i))) eqn:A; destruct J' as [->|[->|[->| ->]]].
  1-4: eapply block_intro; cbv [length];
    [ nx; [ev; use at_next; ev; reflexivity|]; nx; [ev; use at_peek; ev; reflexivity|]; nx; [|apply seq_end];
      cond_is (is_hex_z (is_peek (is_next i))); rewrite A in HC; eapply if_true; [exact HC|]; ev; reflexivity
    | ev; reflexivity ].
  all: eapply block_intro; cbv [length];
    [ nx; [ev; use at_next; ev; reflexivity|]; nx; [ev; use at_peek; ev; reflexivity|]; rt;
      cond_is (is_hex_z (is_peek (is_next i))); rewrite A in HC; eapply if_else; [exact HC|]; ev; reflexivity
    | ev; reflexivity ].
Qed.

(** Four digits. *)
Definition hex_vars (x y : hvar) (j : Z) (l : list Z) : list (bytes * hvar) :=
  [(b "i", VarVal (HI IInt j)); (b "temp", VarVal (hex_arr l)); (b "value", x); (b "lead", y)].
Definition hex_loop (d k : nat) : hst -> option (hflow * hst) :=
  while_loop k (hcond consts ea CTok (callT d CTok) hex_c) (heffects consts ea CTok (callT d CTok) hex_p) (execT CTok d 19 hex_b).

Lemma hex_more : forall d k c e o x y i j l, (2 <= d)%nat -> (length (is_rest i) < N)%nat -> fits i ->
  0 <= j < 4 -> length l = 5%nat ->
  hex_loop d (S k) (HSt (hex_vars x y j l) c e (in_val i) o) =
  if is_hex_z (is_peek (is_next i))
  then hex_loop d k (HSt (hex_vars x y (j + 1) (set_nth (Z.to_nat j) (ch (is_next i)) l)) c e (in_val (is_next i)) o)
  else Some (GReturn (Some (HV (HB false))), HSt (hex_vars x y j l) c e (in_val (is_next i)) o).
Proof.
  intros d k c e o x y i j l D L F J Q. unfold hex_loop at 1. rewrite while_loop_S.
  match goal with |- match ?X with _ => _ end = _ => assert (E : X = Some (j <? 4, HSt (hex_vars x y j l) c e (in_val i) o)) end.
  { unfold hex_vars, hex_arr. generalize (map (fun z => HI IChar z) l). intros l'. ev. reflexivity. }
  rewrite E. replace (j <? 4) with true by (symmetry; apply Z.ltb_lt; lia).
  unfold hex_vars at 1. rewrite (hex_step d c e o x y i j l D L F J Q).
  destruct (is_hex_z (is_peek (is_next i))); [|reflexivity].
  match goal with |- match ?X with _ => _ end = _ => assert (E2 : X = Some (HSt (hex_vars x y (j + 1) (set_nth (Z.to_nat j) (ch (is_next i)) l)) c e (in_val (is_next i)) o)) end.
  { assert (O : int_ok (j + 1) = true) by (apply int_ok_iff; lia).
    unfold hex_vars, hex_arr. generalize (set_nth (Z.to_nat j) (ch (is_next i)) l). intros l'.
    generalize (map (fun z => HI IChar z) l'). intros l2. ev. rewrite O. ev. reflexivity. }
  rewrite E2. reflexivity.
Qed.
Lemma hex_end : forall d k c e o x y i l, hex_loop d (S k) (HSt (hex_vars x y 4 l) c e (in_val i) o) =
  Some (GNext, HSt (hex_vars x y 4 l) c e (in_val i) o).
Proof.
  intros d k c e o x y i l. unfold hex_loop. rewrite while_loop_S.
  match goal with |- match ?X with _ => _ end = _ => assert (E : X = Some (4 <? 4, HSt (hex_vars x y 4 l) c e (in_val i) o)) end.
  { unfold hex_vars, hex_arr. generalize (map (fun z => HI IChar z) l). intros l'. ev. reflexivity. }
  rewrite E. reflexivity.
Qed.

Lemma hex_for : forall d k c e o x y i, (2 <= d)%nat -> (length (is_rest i) < N)%nat -> fits i ->
  match read_hex 4 i 0 with
  | (Some z, i') => exists l, hex_array 0 (map (fun z => HI IChar z) l) = Some z /\ length l = 5%nat /\ 0 <= z <= 65535 /\
      hex_loop d (5 + k) (HSt (hex_vars x y 0 [0;0;0;0;0]) c e (in_val i) o) = Some (GNext, HSt (hex_vars x y 4 l) c e (in_val i') o)
  | (None, i') => exists j l,
      hex_loop d (5 + k) (HSt (hex_vars x y 0 [0;0;0;0;0]) c e (in_val i) o) =
      Some (GReturn (Some (HV (HB false))), HSt (hex_vars x y j l) c e (in_val i') o)
  end.
Proof.
  intros d k c e o x y i D L F.
  assert (L1 : (length (is_rest (is_next i)) < N)%nat) by (eapply Nat.le_lt_trans; [apply next_shorter|exact L]).
  assert (L2 : (length (is_rest (is_next (is_next i))) < N)%nat) by (eapply Nat.le_lt_trans; [apply next_shorter|exact L1]).
  assert (L3 : (length (is_rest (is_next (is_next (is_next i)))) < N)%nat) by (eapply Nat.le_lt_trans; [apply next_shorter|exact L2]).
  pose proof (next_fits _ F) as F1. pose proof (next_fits _ F1) as F2. pose proof (next_fits _ F2) as F3.
  cbn [read_hex Nat.add].
  rewrite (hex_more d (4 + k) c e o x y i 0) by (first [assumption|lia|reflexivity]).
  destruct (is_hex_z (is_peek (is_next i))) eqn:A1; [|eexists _, _; reflexivity].
  rewrite (hex_more d (3 + k) c e o x y (is_next i) (0 + 1)) by (first [assumption|lia|reflexivity]).
  destruct (is_hex_z (is_peek (is_next (is_next i)))) eqn:A2; [|eexists _, _; reflexivity].
  rewrite (hex_more d (2 + k) c e o x y (is_next (is_next i)) (0 + 1 + 1)) by (first [assumption|lia|reflexivity]).
  destruct (is_hex_z (is_peek (is_next (is_next (is_next i))))) eqn:A3; [|eexists _, _; reflexivity].
  rewrite (hex_more d (1 + k) c e o x y (is_next (is_next (is_next i))) (0 + 1 + 1 + 1)) by (first [assumption|lia|reflexivity]).
  destruct (is_hex_z (is_peek (is_next (is_next (is_next (is_next i)))))) eqn:A4; [|eexists _, _; reflexivity].
  exists [ch (is_next i); ch (is_next (is_next i)); ch (is_next (is_next (is_next i))); ch (is_next (is_next (is_next (is_next i)))); 0].
  split; [|split; [reflexivity|split]].
  - unfold ch. cbn [map hex_array].
    rewrite (proj2 (hex_char _ A1)), (proj1 (hex_char _ A1)), (proj2 (hex_char _ A2)), (proj1 (hex_char _ A2)),
            (proj2 (hex_char _ A3)), (proj1 (hex_char _ A3)), (proj2 (hex_char _ A4)), (proj1 (hex_char _ A4)).
    reflexivity.
  - pose proof (hex_small _ A1); pose proof (hex_small _ A2); pose proof (hex_small _ A3); pose proof (hex_small _ A4). lia.
  - apply (hex_end d k).
Qed.

Ltac known :=
  repeat match goal with
         | |- context [int_ok ?z] => let v := eval vm_compute in (int_ok z) in
             match v with true => change (int_ok z) with true | false => change (int_ok z) with false end
         | |- context [Z.leb ?x ?y] => let v := eval vm_compute in (Z.leb x y) in
             match v with true => change (Z.leb x y) with true | false => change (Z.leb x y) with false end
         | |- context [int_ok ?z] => let H := fresh in assert (H : int_ok z = true) by (apply int_ok_iff; lia); rewrite H; clear H
         end.

Definition is_lead (z : Z) : Prop := z = 0 \/ 55296 <= z <= 56319.

Lemma cast_same : forall z, -2147483648 <= z <= 2147483647 -> cast_int true 32 z = z.
Proof.
  intros z H. unfold cast_int. change (2 ^ (32 - 1)) with 2147483648. change (2 ^ 32) with 4294967296.
  rewrite Z.mod_small; lia.
Qed.

Definition bt (z : Z) : bytes := [byte_of (char_of (byte_of z))].
Definition val2 (s : bytes) (y z : Z) : bytes := cat (cat s (bt y)) (bt z).
Definition val3 (s : bytes) (x y z : Z) : bytes := cat (val2 s x y) (bt z).
Definition val4 (s : bytes) (w x y z : Z) : bytes := cat (val3 s w x y) (bt z).
Lemma bin_intro : forall cl call op x y s u s1 w s2 v v' r R,
  heval consts ea cl call x s = Some (u, s1) -> same op (b "&&") || same op (b "||") = false ->
  heval consts ea cl call y s1 = Some (w, s2) -> load s2 u = Some v -> load s2 w = Some v' ->
  match v with HOs => false | _ => true end = true ->
  operation op v v' = Some r -> Some (HV r, s2) = R -> heval consts ea cl call (EBin op x y) s = R.
Proof.
  intros cl call op x y s u s1 w s2 v v' r R HX NB HY L1 L2 NO OP <-. cbn [heval]. rewrite HX, NB, HY, L1, L2, OP.
  destruct v; try discriminate NO; reflexivity.
Qed.
Lemma set_intro : forall cl call n op x y s w s1 s2 r p v old v' s3,
  heval consts ea cl call y s = Some (w, s1) -> heval consts ea cl call x s1 = Some (HL r p, s2) ->
  load s2 w = Some v -> peek_at s2 r p = Some old ->
  (if same op (b "=") then fitted old v else if same op (b "+=") then added old v else None) = Some v' ->
  store s2 r p v' = Some s3 ->
  hexec N consts ea cl call (S n) (TExpr [ESet op x y]) s = Some (GNext, s3).
Proof.
  intros cl call n op x y s w s1 s2 r p v old v' s3 HY HX L P F ST. cbn [hexec heffects heval].
  rewrite HY, HX, L, P, F, ST. reflexivity.
Qed.
Lemma cat4 : forall s w x y z, val4 s w x y z = s ++ [chr w; chr x; chr y; chr z].
Proof. intros. unfold val4, val3, val2, bt, cat. rewrite !chr_schar_chr, <- !app_assoc. reflexivity. Qed.
Lemma cat3 : forall s x y z, val3 s x y z = s ++ [chr x; chr y; chr z].
Proof. intros. unfold val3, val2, bt, cat. rewrite !chr_schar_chr, <- !app_assoc. reflexivity. Qed.
Lemma cat2 : forall s y z, val2 s y z = s ++ [chr y; chr z].
Proof. intros. unfold val2, bt, cat. rewrite !chr_schar_chr, <- !app_assoc. reflexivity. Qed.
Lemma for_intro : forall cl call n i c p st s s1 f s2 R,
  hexec N consts ea cl call n i s = Some (GNext, s1) ->
  while_loop N (hcond consts ea cl call c) (heffects consts ea cl call p) (hexec N consts ea cl call n st) s1 = Some (f, s2) ->
  Some (f, leave_block s s2) = R ->
  hexec N consts ea cl call (S n) (TFor i c p st) s = R.
Proof. intros cl call n i c p st s s1 f s2 R H1 H2 <-. cbn [hexec]. rewrite H1, H2. reflexivity. Qed.

Lemma run_utf8 : forall d v1 v2 v3 c e i o val lead, (3 <= d)%nat -> (5 <= N)%nat -> (length (is_rest i) < N)%nat -> fits i -> is_lead lead ->
  let vs w z := [(b "c", v1); (b "column", v2); (b "line", v3); (b "value", VarVal (HS w)); (b "lead", VarVal (HI IInt z))] in
  callT d CTok OName [b "parse_escaped_utf8"] [HL (RVar (b "value")) []; HL (RVar (b "lead")) []] (HSt (vs val lead) c e (in_val i) o) =
  match parse_escaped_utf8 i val lead with
  | (Some (val', lead'), i') => Some (HV (HB true), HSt (vs val' lead') c e (in_val i') o)
  | (None, i') => Some (HV (HB false), HSt (vs val lead) c e (in_val i') o)
  end.
Proof.
  intros [|d] v1 v2 v3 c e i o val lead D M L F LD; [lia|]. cbv zeta. rewrite (call_own d _ _ _ fn_utf8) by find.
  unfold parse_escaped_utf8.
  pose proof (hex_for d (N - 5) c e o (VarVal (HS val)) (VarVal (HI IInt lead)) i ltac:(lia) L F) as H.
  replace (5 + (N - 5))%nat with N in H by lia.
  destruct (read_hex 4 i 0) as [[cp|] i'] eqn:RH.
  - destruct H as [l [HA [LL [Z1 HF]]]]. unfold hex_loop in HF.
    assert (HB1 : hfind tok_funs (b "strtol") = None) by (vm_compute; reflexivity).
    assert (ST : forall s, loads s [HL (RVar (b "temp")) []; HV HNull; HV (HI IInt 16)] = Some [hex_arr l; HNull; HI IInt 16] ->
                 callT d CTok OName [b "strtol"] [HL (RVar (b "temp")) []; HV HNull; HV (HI IInt 16)] s = Some (HV (HI ILong cp), s)).
    { intros s LS. eapply at_builtin; [lia|exact HB1|exact LS|]. unfold hex_arr.
      cbv [builtin]. change (same (b "strtol") (b "token")) with false. change (same (b "strtol") (b "strtol")) with true. cbv iota.
      rewrite map_length, LL. cbv [Nat.leb]. rewrite HA. reflexivity. }
    assert (Z2 : -2147483648 <= cp <= 2147483647) by lia.
    Ltac prefix HF ST Z1 :=
      eapply run_intro; [ev; reflexivity
        |cbv [fn_utf8 hf_body length nesting put_vars s_vars s_cur s_err s_in s_out];
         nx; [ev; reflexivity|];
         nx; [eapply for_intro; [ev; reflexivity|exact HF|reflexivity]|];
         nx; [unfold hex_vars, hex_arr; ev; use ST; ev; rewrite (cast_same _ Z1); reflexivity|]
        | | | ].
    destruct ((55296 <=? cp) && (cp <=? 56319)) eqn:C1.
    { prefix HF ST Z2.
      - rt. cond_is ((55296 <=? cp) && (cp <=? 56319)). rewrite C1 in HC. eapply if_true; [exact HC|].
        eapply block_intro; [cbv [length]; nx; [ev; reflexivity|]; rt; ev; reflexivity|reflexivity].
      - ev; reflexivity.
      - ev; reflexivity.
      - ev; reflexivity. }
    destruct ((56320 <=? cp) && (cp <=? 57343)) eqn:C2.
    { destruct (lead =? 0) eqn:C3.
      - prefix HF ST Z2.
        + rt. cond_is ((55296 <=? cp) && (cp <=? 56319)). rewrite C1 in HC. eapply if_else; [exact HC|]. clear HC.
          cond_is ((56320 <=? cp) && (cp <=? 57343)). rewrite C2 in HC. eapply if_true; [exact HC|]. clear HC.
          eapply block_intro; [cbv [length]; rt|reflexivity].
          cond_is (lead =? 0). rewrite C3 in HC. eapply if_true; [exact HC|]. ev; reflexivity.
        + ev; reflexivity.
        + ev; reflexivity.
        + ev; reflexivity.
      - apply Z.eqb_neq in C3. destruct LD as [LD|LD]; [contradiction|].
        assert (SH : Z.shiftl lead 10 = lead * 1024) by (rewrite Z.shiftl_mul_pow2 by lia; reflexivity).
        apply andb_true_iff in C2 as C2'. rewrite !Z.leb_le in C2'.
        prefix HF ST Z2.
        + nx.
          * cond_is ((55296 <=? cp) && (cp <=? 56319)). rewrite C1 in HC. eapply if_else; [exact HC|]. clear HC.
            cond_is ((56320 <=? cp) && (cp <=? 57343)). rewrite C2 in HC. eapply if_true; [exact HC|]. clear HC.
            eapply block_intro; [cbv [length]|].
            -- nx; [cond_is (lead =? 0); rewrite (proj2 (Z.eqb_neq _ _) C3) in HC; eapply if_none; exact HC|].
               nx; [ev; known; ev; reflexivity|].
               assert (O0 : (0 <=? lead) = true) by (apply Z.leb_le; lia).
               assert (O1 : int_ok (Z.shiftl lead 10) = true) by (apply int_ok_iff; lia).
               assert (O2 : int_ok (Z.shiftl lead 10 + cp) = true) by (apply int_ok_iff; lia).
               assert (O3 : int_ok (Z.shiftl lead 10 + cp + (65536 - Z.shiftl 55296 10 - 56320)) = true)
                 by (apply int_ok_iff; change (Z.shiftl 55296 10) with 56623104; lia).
               nx.
               { eapply set_intro.
                 { eapply bin_intro.
                   { eapply bin_intro; [ev; rewrite O0, O1; reflexivity|reflexivity|ev; reflexivity|ev; reflexivity|ev; reflexivity|reflexivity|
                                        ev; rewrite O2; reflexivity|reflexivity]. }
                   { reflexivity. } { ev; reflexivity. } { ev; reflexivity. } { ev; reflexivity. } { reflexivity. }
                   { ev; rewrite O3; reflexivity. } { reflexivity. } }
                 { ev; reflexivity. } { ev; reflexivity. } { ev; reflexivity. } { ev; reflexivity. } { ev; reflexivity. } }
               do 4 (nx; [ev; reflexivity|]). apply seq_end.
            -- ev; reflexivity.
          * nx; [ev; reflexivity|]. rt; ev; reflexivity.
        + ev; reflexivity.
        + ev; reflexivity.
        + rewrite <- cat4. ev; reflexivity. }
    destruct ((128 <=? cp) && (cp <=? 2047)) eqn:C4.
    { prefix HF ST Z2.
      - nx.
        + cond_is ((55296 <=? cp) && (cp <=? 56319)). rewrite C1 in HC. eapply if_else; [exact HC|]. clear HC.
          cond_is ((56320 <=? cp) && (cp <=? 57343)). rewrite C2 in HC. eapply if_else; [exact HC|]. clear HC.
          cond_is ((128 <=? cp) && (cp <=? 2047)). rewrite C4 in HC. eapply if_true; [exact HC|]. clear HC.
          eapply block_intro; [cbv [length]; do 2 (nx; [ev; reflexivity|]); apply seq_end|ev; reflexivity].
        + nx; [ev; reflexivity|]. rt; ev; reflexivity.
      - ev; reflexivity.
      - ev; reflexivity.
      - rewrite <- cat2. ev; reflexivity. }
    destruct ((2048 <=? cp) && (cp <=? 65535)) eqn:C5.
    { prefix HF ST Z2.
      - nx.
        + cond_is ((55296 <=? cp) && (cp <=? 56319)). rewrite C1 in HC. eapply if_else; [exact HC|]. clear HC.
          cond_is ((56320 <=? cp) && (cp <=? 57343)). rewrite C2 in HC. eapply if_else; [exact HC|]. clear HC.
          cond_is ((128 <=? cp) && (cp <=? 2047)). rewrite C4 in HC. eapply if_else; [exact HC|]. clear HC.
          cond_is ((2048 <=? cp) && (cp <=? 65535)). rewrite C5 in HC. eapply if_true; [exact HC|]. clear HC.
          eapply block_intro; [cbv [length]; do 3 (nx; [ev; reflexivity|]); apply seq_end|ev; reflexivity].
        + nx; [ev; reflexivity|]. rt; ev; reflexivity.
      - ev; reflexivity.
      - ev; reflexivity.
      - rewrite <- cat3. ev; reflexivity. }
    prefix HF ST Z2.
    + rt. cond_is ((55296 <=? cp) && (cp <=? 56319)). rewrite C1 in HC. eapply if_else; [exact HC|]. clear HC.
      cond_is ((56320 <=? cp) && (cp <=? 57343)). rewrite C2 in HC. eapply if_else; [exact HC|]. clear HC.
      cond_is ((128 <=? cp) && (cp <=? 2047)). rewrite C4 in HC. eapply if_else; [exact HC|]. clear HC.
      cond_is ((2048 <=? cp) && (cp <=? 65535)). rewrite C5 in HC. eapply if_else; [exact HC|]. clear HC.
      ev; reflexivity.
    + ev; reflexivity.
    + ev; reflexivity.
    + ev; reflexivity.
  - destruct H as [j [l HF]]. unfold hex_loop in HF.
    eapply run_intro; [ev; reflexivity|cbv [fn_utf8 hf_body length nesting put_vars s_vars s_cur s_err s_in s_out]| | | ].
    + nx; [ev; reflexivity|]. rt. eapply for_intro; [ev; reflexivity|exact HF|reflexivity].
    + ev; reflexivity.
    + ev; reflexivity.
    + ev; reflexivity.
Qed.

(** ** Strings *)
Definition fn_string := Eval vm_compute in fn_of tok_funs "parse_string".
Definition string_c := Eval vm_compute in loop_c (hf_body fn_string).
Definition string_b := Eval vm_compute in loop_b (hf_body fn_string).
Definition str_vars (line col : Z) (w : bytes) (z : Z) : list (bytes * hvar) :=
  [(b "column", VarVal (HI IInt col)); (b "line", VarVal (HI IInt line)); (b "value", VarVal (HS w)); (b "lead", VarVal (HI IInt z))].

Lemma utf8_lead : forall i val lead val' lead' i', is_lead lead ->
  parse_escaped_utf8 i val lead = (Some (val', lead'), i') -> is_lead lead'.
Proof.
  intros i val lead val' lead' i' LD P. unfold parse_escaped_utf8 in P.
  destruct (read_hex 4 i 0) as [[cp|] j]; [|discriminate].
  destruct ((55296 <=? cp) && (cp <=? 56319)) eqn:C.
  - injection P as _ <- _. right. rewrite andb_true_iff, !Z.leb_le in C. lia.
  - destruct ((56320 <=? cp) && (cp <=? 57343)).
    + destruct (lead =? 0); [discriminate|]. injection P as _ <- _. now left.
    + destruct ((128 <=? cp) && (cp <=? 2047)); [injection P as _ <- _; now left|].
      destruct ((2048 <=? cp) && (cp <=? 65535)); [injection P as _ <- _; now left|discriminate].
Qed.
Lemma hex_shorter : forall k i acc r i', read_hex k i acc = (r, i') ->
  (length (is_rest i') <= length (is_rest i))%nat /\ (fits i -> fits i').
Proof.
  induction k as [|k IH]; intros i acc r i' H; cbn [read_hex] in H; [injection H as _ <-; auto|].
  destruct (is_hex_z (is_peek (is_next i))).
  - apply IH in H as [H1 H2]. split; [etransitivity; [exact H1|apply next_shorter]|intros F; apply H2, next_fits, F].
  - injection H as _ <-. split; [apply next_shorter|apply next_fits].
Qed.
Lemma utf8_shorter : forall i val lead r i', parse_escaped_utf8 i val lead = (r, i') ->
  (length (is_rest i') <= length (is_rest i))%nat /\ (fits i -> fits i').
Proof.
  intros i val lead r i' P. unfold parse_escaped_utf8 in P. destruct (read_hex 4 i 0) as [[cp|] j] eqn:H; apply hex_shorter in H.
  - repeat match type of P with (if ?x then _ else _) = _ => destruct x end; injection P as _ <-; exact H.
  - injection P as _ <-; exact H.
Qed.

Ltac given := repeat match goal with H : (_ =? _) = _ |- _ => rewrite H end.

Lemma string_while : forall d c e o line col n i lead val t i' k, (4 <= d)%nat -> (5 <= N)%nat -> (n <= k)%nat ->
  (length (is_rest i) < N)%nat -> fits i -> is_lead lead ->
  parse_string_loop n i lead val line col = Some (t, i') ->
  exists f val' lead',
    while_loop k (hcond consts ea CTok (callT d CTok) string_c) Some (execT CTok d 19 string_b)
               (HSt (str_vars line col val lead) c e (in_val i) o) =
    Some (f, HSt (str_vars line col val' lead') c e (in_val i') o) /\
    (f = GReturn (Some (HV (tok_val t))) \/ ((f = GNext \/ f = GGoto (b "ESCAPE")) /\ t = Tok T_NONE [] line col)).
Proof.
  intros d c e o line col n. induction n as [|n IH]; intros i lead val t i' k D M K L F LD P; [discriminate P|].
  destruct k as [|k]; [inversion K|]. rewrite while_loop_S. cbn [parse_string_loop] in P.
  assert (K' : (n <= k)%nat) by lia.
  assert (E : hcond consts ea CTok (callT d CTok) string_c (HSt (str_vars line col val lead) c e (in_val i) o) =
              Some (negb (is_eof i), HSt (str_vars line col val lead) c e (in_val i) o)).
  { ev. use at_eof. ev. reflexivity. }
  rewrite E. destruct (is_eof i); cbn [negb]; [injection P as <- <-; exists GNext; eauto 10|].
  assert (L1 : (length (is_rest (is_next i)) < N)%nat) by (eapply Nat.le_lt_trans; [apply next_shorter|exact L]).
  pose proof (next_fits _ F) as F1.
  cbv zeta in P.
  destruct (is_peek (is_next i) =? 34) eqn:C1.
  { injection P as <- <-. eexists _, _, _. split.
    - body_is (Some (GReturn (Some (HV (tok_val (Tok T_STRING val 0 0)))), HSt (str_vars line col val lead) c e (in_val (is_next (is_next i))) o));
        [|reflexivity].
      unfold string_b. eapply block_intro; [cbv [length]|].
      + nx; [ev; use at_next; ev; reflexivity|]. nx; [ev; use at_peek; ev; reflexivity|]. rt.
        cond_is (is_peek (is_next i) =? 34). rewrite C1 in HC. eapply if_true; [exact HC|].
        eapply block_intro; [cbv [length]|].
        * nx; [ev; use at_next; ev; reflexivity|]. rt. ev. std. ev. reflexivity.
        * ev; reflexivity.
      + ev; reflexivity.
    - left. reflexivity. }
  destruct (is_peek (is_next i) =? 92) eqn:C2.
  2: { destruct (is_peek (is_next i) =? 0) eqn:C3.
    - injection P as <- <-. eexists _, val, lead. split; [|right; split; [right; reflexivity|reflexivity]].
      body_is (Some (GGoto (b "ESCAPE"), HSt (str_vars line col val lead) c e (in_val (is_next i)) o)); [|reflexivity].
      unfold string_b. eapply block_intro; [cbv [length]|].
      + nx; [ev; use at_next; ev; reflexivity|]. nx; [ev; use at_peek; ev; reflexivity|].
        nx; [cond_is (is_peek (is_next i) =? 34); rewrite C1 in HC; eapply if_none; exact HC|].
        eapply seq_leap; [|reflexivity].
        cond_is (is_peek (is_next i) =? 92). rewrite C2 in HC. eapply if_else; [exact HC|]. clear HC.
        eapply block_intro; [cbv [length]|].
        * eapply seq_leap; [|reflexivity]. cond_is (is_peek (is_next i) =? 0). rewrite C3 in HC. eapply if_true; [exact HC|]. reflexivity.
        * ev; reflexivity.
      + ev; reflexivity.
    - body_is (Some (GNext, HSt (str_vars line col (val ++ [chr (is_peek (is_next i))]) lead) c e (in_val (is_next i)) o)).
      + unfold string_b. eapply block_intro; [cbv [length]|].
        * nx; [ev; use at_next; ev; reflexivity|]. nx; [ev; use at_peek; ev; reflexivity|].
          nx; [cond_is (is_peek (is_next i) =? 34); rewrite C1 in HC; eapply if_none; exact HC|].
          nx; [|apply seq_end].
          cond_is (is_peek (is_next i) =? 92). rewrite C2 in HC. eapply if_else; [exact HC|]. clear HC.
          eapply block_intro; [cbv [length]|].
          -- nx; [cond_is (is_peek (is_next i) =? 0); rewrite C3 in HC; eapply if_none; exact HC|].
             nx; [ev; reflexivity|apply seq_end].
          -- ev; reflexivity.
        * rewrite <- (chr_schar_chr (is_peek (is_next i))). ev; reflexivity.
      + apply (IH (is_next i)); assumption. }
  assert (L2 : (length (is_rest (is_next (is_next i))) < N)%nat) by (eapply Nat.le_lt_trans; [apply next_shorter|exact L1]).
  pose proof (next_fits _ F1) as F2.
  destruct (short_escape (is_peek (is_next (is_next i)))) as [x|] eqn:SE.
  { body_is (Some (GNext, HSt (str_vars line col (val ++ [x]) lead) c e (in_val (is_next (is_next i))) o)); [|apply IH; assumption].
    unfold string_b. eapply block_intro; [cbv [length]|].
    - nx; [ev; use at_next; ev; reflexivity|]. nx; [ev; use at_peek; ev; reflexivity|].
      nx; [cond_is (is_peek (is_next i) =? 34); rewrite C1 in HC; eapply if_none; exact HC|].
      nx; [|apply seq_end].
      cond_is (is_peek (is_next i) =? 92). rewrite C2 in HC. eapply if_true; [exact HC|]. clear HC.
      eapply block_intro; [cbv [length]|].
      + nx; [ev; use at_next; ev; reflexivity|]. nx; [ev; use at_peek; ev; reflexivity|]. nx; [|apply seq_end].
        instantiate (1 := HSt ((b "c", VarVal (HI IInt (is_peek (is_next (is_next i))))) :: str_vars line col (val ++ [x]) lead) c e (in_val (is_next (is_next i))) o).
        unfold short_escape in SE.
        do 8 match type of SE with (if ?x =? ?y then _ else _) = _ => destruct (x =? y) eqn:?Q;
          [injection SE as <-;
           eapply switch_intro; [ev; reflexivity|ev; reflexivity|vm_compute; reflexivity|pick
                                |cbv [length]; nx; [ev; reflexivity|]; eapply seq_break; reflexivity|ev; reflexivity]|] end.
        discriminate SE.
      + ev; reflexivity.
    - ev; reflexivity. }
  unfold short_escape in SE.
  do 8 match type of SE with (if ?x =? ?y then _ else _) = _ => destruct (x =? y) eqn:?Q; [discriminate SE|] end.
  destruct (is_peek (is_next (is_next i)) =? 117) eqn:QU.
  - pose proof (run_utf8 d (VarVal (HI IInt (is_peek (is_next (is_next i))))) (VarVal (HI IInt col)) (VarVal (HI IInt line)) c e
                  (is_next (is_next i)) o val lead ltac:(lia) M L2 F2 LD) as U. cbv zeta in U.
    destruct (parse_escaped_utf8 (is_next (is_next i)) val lead) as [[[val1 lead1]|] j] eqn:PU.
    + pose proof (utf8_shorter _ _ _ _ _ PU) as [S1 S2].
      body_is (Some (GNext, HSt (str_vars line col val1 lead1) c e (in_val j) o));
        [|apply IH; try assumption; [lia|auto|exact (utf8_lead _ _ _ _ _ _ LD PU)]].
      unfold string_b. eapply block_intro; [cbv [length]|].
      * nx; [ev; use at_next; ev; reflexivity|]. nx; [ev; use at_peek; ev; reflexivity|].
        nx; [cond_is (is_peek (is_next i) =? 34); rewrite C1 in HC; eapply if_none; exact HC|].
        nx; [|apply seq_end].
        cond_is (is_peek (is_next i) =? 92). rewrite C2 in HC. eapply if_true; [exact HC|]. clear HC.
        eapply block_intro; [cbv [length]|].
        -- nx; [ev; use at_next; ev; reflexivity|]. nx; [ev; use at_peek; ev; reflexivity|]. nx; [|apply seq_end].
           eapply switch_intro; [ev; reflexivity|ev; reflexivity|vm_compute; reflexivity|pick
             |cbv [length]; nx; [eapply if_none; ev; use U; ev; reflexivity|]; eapply seq_break; reflexivity|ev; reflexivity].
        -- ev; reflexivity.
      * ev; reflexivity.
    + injection P as <- <-. eexists _, val, lead. split; [|right; split; [right; reflexivity|reflexivity]].
      body_is (Some (GGoto (b "ESCAPE"), HSt (str_vars line col val lead) c e (in_val j) o)); [|reflexivity].
      unfold string_b. eapply block_intro; [cbv [length]|].
      * nx; [ev; use at_next; ev; reflexivity|]. nx; [ev; use at_peek; ev; reflexivity|].
        nx; [cond_is (is_peek (is_next i) =? 34); rewrite C1 in HC; eapply if_none; exact HC|].
        eapply seq_leap; [|reflexivity].
        cond_is (is_peek (is_next i) =? 92). rewrite C2 in HC. eapply if_true; [exact HC|]. clear HC.
        eapply block_intro; [cbv [length]|].
        -- nx; [ev; use at_next; ev; reflexivity|]. nx; [ev; use at_peek; ev; reflexivity|]. eapply seq_leap; [|reflexivity].
           eapply switch_intro; [ev; reflexivity|ev; reflexivity|vm_compute; reflexivity|pick
             |cbv [length]; eapply seq_leap; [eapply if_true; [ev; use U; ev; reflexivity|reflexivity]|reflexivity]|ev; reflexivity].
        -- ev; reflexivity.
      * ev; reflexivity.
  - injection P as <- <-. eexists _, val, lead. split; [|right; split; [right; reflexivity|reflexivity]].
    body_is (Some (GGoto (b "ESCAPE"), HSt (str_vars line col val lead) c e (in_val (is_next (is_next i))) o)); [|reflexivity].
    unfold string_b. eapply block_intro; [cbv [length]|].
    * nx; [ev; use at_next; ev; reflexivity|]. nx; [ev; use at_peek; ev; reflexivity|].
      nx; [cond_is (is_peek (is_next i) =? 34); rewrite C1 in HC; eapply if_none; exact HC|].
      eapply seq_leap; [|reflexivity].
      cond_is (is_peek (is_next i) =? 92). rewrite C2 in HC. eapply if_true; [exact HC|]. clear HC.
      eapply block_intro; [cbv [length]|].
      -- nx; [ev; use at_next; ev; reflexivity|]. nx; [ev; use at_peek; ev; reflexivity|]. eapply seq_leap; [|reflexivity].
         eapply switch_default; [ev; reflexivity|ev; reflexivity|vm_compute; reflexivity|pick
           |cbv [length default_from]; eapply seq_leap; [reflexivity|reflexivity]|ev; reflexivity].
      -- ev; reflexivity.
    * ev; reflexivity.
Qed.

Lemma run_string : forall d n v c e i o t i', (5 <= d)%nat -> (5 <= N)%nat -> (n <= N)%nat -> (length (is_rest i) < N)%nat -> fits i ->
  parse_string n i = Some (t, i') ->
  callT d CTok OName [b "parse_string"] [] (HSt v c e (in_val i) o) = Some (HV (tok_val t), HSt v c e (in_val i') o).
Proof.
  intros [|d] n v c e i o t i' D M K L F P; [lia|]. rewrite (call_own d _ _ _ fn_string) by find.
  unfold parse_string in P. destruct (is_peek i =? 34) eqn:C.
  - destruct (string_while d c e o (is_line i) (is_col i) n i 0 [] t i' N) as [f [val' [lead' [W Q]]]]; try assumption; [lia|now left|].
    fn fn_string.
    + nx; [ev; reflexivity|]. nx; [ev; reflexivity|]. nx; [ev; use at_line; ev; reflexivity|]. nx; [ev; use at_column; ev; reflexivity|].
      nx; [eapply if_none; ev; use at_peek; ev; rewrite C; reflexivity|].
      instantiate (1 := HSt (str_vars (is_line i) (is_col i) val' lead') c e (in_val i') o).
      instantiate (1 := GReturn (Some (HV (tok_val t)))).
      destruct Q as [->|[[-> | ->] ->]].
      * rt. rewrite hexec_while. exact W.
      * nx; [rewrite hexec_while; exact W|]. nx; [reflexivity|]. rt. ev. std. ev. reflexivity.
      * eapply seq_goto; [rewrite hexec_while; exact W|reflexivity|]. rt. ev. std. ev. reflexivity.
    + ev; reflexivity.
    + reflexivity.
    + reflexivity.
  - injection P as <- <-. fn fn_string.
    + nx; [ev; reflexivity|]. nx; [ev; reflexivity|]. nx; [ev; use at_line; ev; reflexivity|]. nx; [ev; use at_column; ev; reflexivity|].
      eapply seq_goto; [eapply if_true; [ev; use at_peek; ev; rewrite C; reflexivity|reflexivity]|reflexivity|].
      rt. ev. std. ev. reflexivity.
    + ev; reflexivity.
    + reflexivity.
    + reflexivity.
Qed.

(** ** The next token *)
Definition fn_tnext := Eval vm_compute in fn_of tok_funs "next".
Definition tnext_c := Eval vm_compute in loop_c (hf_body fn_tnext).
Definition tnext_b := Eval vm_compute in loop_b (hf_body fn_tnext).

Lemma do_return : forall cl call n st s r s1, hexec N consts ea cl call n st s = Some (GReturn r, s1) ->
  hexec N consts ea cl call (S n) (TDo st (EBool false)) s = Some (GReturn r, s1).
Proof. intros cl call n st s r s1 H. cbn [hexec]. rewrite H. reflexivity. Qed.

Ltac labels := repeat match goal with |- seq_loop _ _ (TCase _ :: _) _ = _ => eapply seq_next; [reflexivity|]
                                    | |- seq_loop _ _ (TDefault :: _) _ = _ => eapply seq_next; [reflexivity|] end.
Ltac sw tac := eapply switch_intro; [ev; reflexivity|ev; reflexivity|vm_compute; reflexivity|pick|cbv [length]; labels; tac|ev; reflexivity].

Lemma next_while : forall d e o n i cur t i' k, (6 <= d)%nat -> (5 <= N)%nat -> (n <= k)%nat -> (n <= N)%nat ->
  (length (is_rest i) < N)%nat -> fits i ->
  next_loop n i = Some (t, i') ->
  exists f cur',
    while_loop k (hcond consts ea CTok (callT d CTok) tnext_c) Some (execT CTok d 19 tnext_b) (HSt [] (tok_val cur) e (in_val i) o) =
    Some (f, HSt [] (tok_val cur') e (in_val i') o) /\
    ((f = GReturn (Some (HL RCur [])) /\ cur' = t) \/ (f = GNext /\ t = Tok T_EOS [] (is_line i') (is_col i'))).
Proof.
  intros d e o n. induction n as [|n IH]; intros i cur t i' k D M K KN L F P; [discriminate P|].
  destruct k as [|k]; [inversion K|]. rewrite while_loop_S. cbn [next_loop] in P.
  assert (K' : (n <= k)%nat) by lia. assert (KN' : (n <= N)%nat) by lia.
  assert (E : hcond consts ea CTok (callT d CTok) tnext_c (HSt [] (tok_val cur) e (in_val i) o) =
              Some (negb (is_eof i), HSt [] (tok_val cur) e (in_val i) o)).
  { ev. use at_eof. ev. reflexivity. }
  rewrite E. clear E. destruct (is_eof i); cbn [negb]; [injection P as <- <-; exists GNext, cur; auto|].
  assert (L1 : (length (is_rest (is_next i)) < N)%nat) by (eapply Nat.le_lt_trans; [apply next_shorter|exact L]).
  pose proof (next_fits _ F) as F1.
  cbv zeta in P.
  Ltac here P := match goal with Q : (is_peek ?i =? ?k) = true |- _ =>
     let Q' := fresh in assert (Q' := proj1 (Z.eqb_eq _ _) Q); rewrite Q' in P;
     cbv [is_ws_z punct is_num_start_z orb andb Z.eqb Z.leb Z.compare Pos.compare Pos.compare_cont Pos.eqb] in P; clear Q' end.
  Ltac head := nx; [ev; use at_peek; ev; reflexivity|]; nx; [ev; use at_line; ev; reflexivity|]; nx; [ev; use at_column; ev; reflexivity|].
  Ltac blank P IH i cur e o :=
    here P; body_is (Some (GNext, HSt [] (tok_val cur) e (in_val (is_next i)) o)); [|apply (IH (is_next i)); assumption];
    unfold tnext_b; eapply block_intro; [cbv [length]; head; nx; [|apply seq_end];
      sw ltac:(nx; [ev; use at_next; ev; reflexivity|]; eapply seq_break; reflexivity)|ev; reflexivity].
  destruct (is_peek i =? 32) eqn:Q1; [blank P IH i cur e o|].
  destruct (is_peek i =? 9) eqn:Q2; [blank P IH i cur e o|].
  destruct (is_peek i =? 13) eqn:Q3; [blank P IH i cur e o|].
  destruct (is_peek i =? 10) eqn:Q4; [blank P IH i cur e o|].
  Ltac sign P :=
    here P; injection P as <- <-; eexists _, _; split; [|left; split; reflexivity];
    match goal with |- context [hexec ?l ?k ?a ?cl ?call ?n ?st ?s] => 
      let H := fresh in eassert (H : hexec l k a cl call n st s = Some (GReturn (Some (HL RCur [])), _)); [|rewrite H; clear H; reflexivity] end;
    unfold tnext_b; eapply block_intro; [cbv [length]; head; rt;
      sw ltac:(rt; eapply do_return; eapply block_intro; [cbv [length]; nx; [ev; std; ev; reflexivity|];
               nx; [ev; use at_next; ev; reflexivity|]; rt; ev; reflexivity|ev; reflexivity])|ev; reflexivity].
  destruct (is_peek i =? 123) eqn:Q5; [sign P|].
  destruct (is_peek i =? 125) eqn:Q6; [sign P|].
  destruct (is_peek i =? 91) eqn:Q7; [sign P|].
  destruct (is_peek i =? 93) eqn:Q8; [sign P|].
  destruct (is_peek i =? 58) eqn:Q9; [sign P|].
  destruct (is_peek i =? 44) eqn:Q10; [sign P|].
  destruct (is_peek i =? 34) eqn:Q11.
  { here P. eexists _, t. split; [|left; split; reflexivity].
    body_is (Some (GReturn (Some (HL RCur [])), HSt [] (tok_val t) e (in_val i') o)); [|reflexivity].
    unfold tnext_b. eapply block_intro; [cbv [length]; head; rt|].
    - sw ltac:(rt; ev; use (run_string d n); ev; reflexivity).
    - ev; reflexivity. }
  Ltac digit P n d t i' e o :=
    here P; eexists _, t; split; [|left; split; reflexivity];
    body_is (Some (GReturn (Some (HL RCur [])), HSt [] (tok_val t) e (in_val i') o)); [|reflexivity];
    unfold tnext_b; eapply block_intro; [cbv [length]; head; rt; sw ltac:(rt; ev; use (run_number d n); ev; reflexivity)|ev; reflexivity].
  destruct (is_peek i =? 45) eqn:Q12; [digit P n d t i' e o|].
  destruct (is_peek i =? 48) eqn:D0; [digit P n d t i' e o|].
  destruct (is_peek i =? 49) eqn:D1; [digit P n d t i' e o|].
  destruct (is_peek i =? 50) eqn:D2; [digit P n d t i' e o|].
  destruct (is_peek i =? 51) eqn:D3; [digit P n d t i' e o|].
  destruct (is_peek i =? 52) eqn:D4; [digit P n d t i' e o|].
  destruct (is_peek i =? 53) eqn:D5; [digit P n d t i' e o|].
  destruct (is_peek i =? 54) eqn:D6; [digit P n d t i' e o|].
  destruct (is_peek i =? 55) eqn:D7; [digit P n d t i' e o|].
  destruct (is_peek i =? 56) eqn:D8; [digit P n d t i' e o|].
  destruct (is_peek i =? 57) eqn:D9; [digit P n d t i' e o|].
  assert (W : is_ws_z (is_peek i) = false) by (unfold is_ws_z; given; reflexivity).
  assert (U : punct (is_peek i) = None) by (unfold punct; given; reflexivity).
  assert (S0 : is_num_start_z (is_peek i) = false).
  { unfold is_num_start_z. rewrite Q12. cbn [orb]. apply andb_false_iff. rewrite !Z.leb_gt. 
    apply Z.eqb_neq in D0, D1, D2, D3, D4, D5, D6, D7, D8, D9. lia. }
  rewrite W, U, S0 in P. clear W U S0.
  destruct (parse_identifier n i []) as [[w j]|] eqn:PI; [|discriminate].
  exists (GReturn (Some (HL RCur []))), t.
  assert (J : j = i') by (repeat match type of P with (if ?x then _ else _) = _ => destruct x end; congruence). subst j.
  split; [|left; split; reflexivity].
  body_is (Some (GReturn (Some (HL RCur [])), HSt [] (tok_val t) e (in_val i') o)); [|reflexivity].
  unfold tnext_b. eapply block_intro; [cbv [length]; head; rt|].
  - eapply switch_default; [ev; reflexivity|ev; reflexivity|vm_compute; reflexivity|pick|cbv [length default_from]|].
    + nx; [ev; use (run_ident d n); ev; reflexivity|].
      instantiate (1 := HSt [(b "value", VarVal (HS w)); (b "column", VarVal (HI IInt (is_col i))); (b "line", VarVal (HI IInt (is_line i)));
                             (b "c", VarVal (HI IInt (is_peek i)))] (tok_val t) e (in_val i') o).
      instantiate (1 := GReturn (Some (HL RCur []))).
      destruct (bytes_eqb w (b "true")) eqn:W1.
      { injection P as <-. rt. cond_is (bytes_eqb w (b "true")). rewrite W1 in HC. eapply if_true; [exact HC|]. ev. std. ev. reflexivity. }
      nx; [cond_is (bytes_eqb w (b "true")); rewrite W1 in HC; eapply if_none; exact HC|].
      destruct (bytes_eqb w (b "false")) eqn:W2.
      { injection P as <-. rt. cond_is (bytes_eqb w (b "false")). rewrite W2 in HC. eapply if_true; [exact HC|]. ev. std. ev. reflexivity. }
      nx; [cond_is (bytes_eqb w (b "false")); rewrite W2 in HC; eapply if_none; exact HC|].
      destruct (bytes_eqb w (b "null")) eqn:W3.
      { injection P as <-. rt. cond_is (bytes_eqb w (b "null")). rewrite W3 in HC. eapply if_true; [exact HC|]. ev. std. ev. reflexivity. }
      nx; [cond_is (bytes_eqb w (b "null")); rewrite W3 in HC; eapply if_none; exact HC|].
      injection P as <-. rt. ev. std. ev. reflexivity.
    + ev; reflexivity.
  - ev; reflexivity.
Qed.
End P.
