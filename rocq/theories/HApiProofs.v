(** The functions of HApi.v against [deserialize] (Read.v) and [serialize] (Write.v). *)
From Coq Require Import Lia Arith.
From Verif Require Import Bytes BaseProofs Types Stream Tokenizer Write Read LexView HdrText CParse CExec HParse HExec HTok SpecHTok HTokProofs HIgnProofs
  HGlueProofs HRunProofs HReadProofs HJson SpecRange ErrProofs Termination HJsonProofs SpecHJson HJsonGlue HSerGlue HApi SpecHApi.

Lemma api_is : api = the_api.
Proof. vm_compute. reflexivity. Qed.

Lemma call_is : forall N ea, callD N (x_consts the_texts) ea (x_stream the_texts) (x_tok the_texts) = text_call N ea.
Proof. intros N ea. rewrite text_call_is. reflexivity. Qed.

(** ** ErrorInfo::clear, the constructors *)
Lemma cleared : forall N d e,
  error_clear N d the_texts the_api [(b "code", HI IErr (err_z (e_code e))); (b "message", HS (e_msg e)); (b "line", HI IInt (e_line e)); (b "column", HI IInt (e_col e))]
  = Some [(b "code", HI IErr 0); (b "message", HS []); (b "line", HI IInt 0); (b "column", HI IInt 0)].
Proof. intros N d e. reflexivity. Qed.

Lemma one_call : forall loops c ea cl call f s x s1, call OName [f] [] s = Some (x, s1) -> s_vars s = [] ->
  seq_loop (hexec loops c ea cl call nesting) 2 [TExpr [ECall (EName [f]) []]] s = Some (GNext, s1).
Proof.
  intros loops c ea cl call f s x s1 H V. eapply seq_next; [|reflexivity].
  change (hexec loops c ea cl call nesting (TExpr [ECall (EName [f]) []]) s) with
    (option_map (fun s2 => (GNext, s2))
      (match (match assoc (s_vars s) f with None => call OName [f] [] s | Some _ => None end) with Some (_, s2) => Some s2 | None => None end)).
  rewrite V. cbn [assoc]. rewrite H. reflexivity.
Qed.

Lemma own_in : forall N c ea st tk d f args s, callD N c ea st tk (S d) CStream OName [f] args s = callD N c ea st tk (S d) CStream OIn [f] args s.
Proof. reflexivity. Qed.
Lemma own_tok : forall N c ea st tk d f args s x, hfind tk f = Some x ->
  callD N c ea st tk (S d) CTok OName [f] args s = callD N c ea st tk (S d) CTok OTok [f] args s.
Proof. intros N c ea st tk d f args s x H. cbn [callD]. rewrite H. reflexivity. Qed.

Lemma stream_new : forall N d inp, (1 <= d)%nat ->
  callD N (x_consts the_texts) false (x_stream the_texts) (x_tok the_texts) d CStream OIn [b "skip"] []
    (mem [] (TK (Tok T_NONE [] 0 0) (IS inp 1 1) err_clear) [])
  = Some (HV HVoid, mem [] (TK (Tok T_NONE [] 0 0) (mk_istream inp) err_clear) []) ->
  new_stream N d the_texts the_api (HIt inp) (HIt []) = Some (in_val (mk_istream inp)).
Proof.
  intros N d inp D H. destruct d as [|d]; [lia|].
  change (new_stream N (S d) the_texts the_api (HIt inp) (HIt [])) with
    (class_run N (S d) the_texts (x_stream the_texts) [TExpr [ECall (EName [b "skip"]) []]] (in_val (IS inp 1 1))).
  unfold class_run. change (S (length [TExpr [ECall (EName [b "skip"]) []]])) with 2%nat.
  rewrite <- own_in in H. pose proof (one_call N (x_consts the_texts) false CStream _ _ _ _ _ H eq_refl) as E.
  change (HSt [] (tok_val (Tok T_NONE [] 0 0)) (err_val err_clear) (in_val (IS inp 1 1)) []) with (mem [] (TK (Tok T_NONE [] 0 0) (IS inp 1 1) err_clear) []).
  rewrite E. reflexivity.
Qed.

Lemma tok_new : forall N d i e t m pin ppar m1 m2, (1 <= d)%nat ->
  callD N (x_consts the_texts) false (x_stream the_texts) (x_tok the_texts) d CTok OTok [b "next"] [] (mem [] (TK (Tok T_NONE [] 0 0) i e) [])
  = Some (HL RCur [], mem [] t []) ->
  at_place m pin = Some (AV (HObj (in_val i))) -> at_place m (sub_place ppar (b "error")) = Some (AV (err_val e)) ->
  put_place m pin (AV (HObj (in_val (tk_in t)))) = Some m1 -> put_place m1 (sub_place ppar (b "error")) (AV (err_val (tk_err t))) = Some m2 ->
  new_tokenizer N d the_texts the_api pin ppar m
  = Some (AO [(b "current_", AV (tok_val (tk_cur t))); (b "input_", AR pin); (b "error_", AR (sub_place ppar (b "error")))], m2).
Proof.
  intros N d i e t m pin ppar m1 m2 D H P1 P2 P3 P4. destruct d as [|d]; [lia|].
  change (new_tokenizer N (S d) the_texts the_api pin ppar m) with
    (match at_place m pin, at_place m (sub_place ppar (b "error")) with
     | Some (AV (HObj i)), Some (AV err) =>
         match seq_loop (hexec N (x_consts the_texts) false CTok (callD N (x_consts the_texts) false (x_stream the_texts) (x_tok the_texts) (S d) CTok) nesting)
                        2 [TExpr [ECall (EName [b "next"]) []]] (HSt [] (tok_val (Tok T_NONE [] 0 0)) err i []) with
         | Some (GNext, s) =>
             match put_place m pin (AV (HObj (s_in s))) with
             | Some m1 =>
                 option_map (fun m2 => (AO [(b "current_", AV (s_cur s)); (b "input_", AR pin); (b "error_", AR (sub_place ppar (b "error")))], m2))
                            (put_place m1 (sub_place ppar (b "error")) (AV (s_err s)))
             | None => None
             end
         | _ => None
         end
     | _, _ => None
     end).
  rewrite P1, P2. erewrite <- own_tok in H; [|reflexivity].
  pose proof (one_call N (x_consts the_texts) false CTok _ _ _ _ _ H eq_refl) as E.
  change (HSt [] (tok_val (Tok T_NONE [] 0 0)) (err_val e) (in_val i) []) with (mem [] (TK (Tok T_NONE [] 0 0) i e) []).
  rewrite E. cbn [mem s_in s_cur s_err]. rewrite P3, P4. reflexivity.
Qed.

(** ** The serializer *)
Lemma read_done : forall ser ctx x m ea sn v tok i cur err pin r v' i' cur' err' m1 m2 m3 m4,
  at_place m (sub_place ctx (b "tok")) = Some (AP (Some tok)) ->
  flag m (sub_place ctx (b "params")) "ensure_ascii" = Some ea -> flag m (sub_place ctx (b "params")) "serialize_null" = Some sn ->
  at_place m x = Some (AV (HM v)) ->
  at_place m tok = Some (AO [(b "current_", AV cur); (b "input_", AR pin); (b "error_", AR (sub_place (sub_place ctx (b "params")) (b "error")))]) ->
  at_place m pin = Some (AV (HObj i)) -> at_place m (sub_place (sub_place ctx (b "params")) (b "error")) = Some (AV err) ->
  place_eqb (sub_place (sub_place ctx (b "params")) (b "error")) (sub_place (sub_place ctx (b "params")) (b "error")) = true ->
  ser ea sn (b "read") [HV HCtx; HL (RVar (b "x")) []] (HSt [(b "x", VarVal (HM v))] cur err i [])
  = Some (HV r, HSt [(b "x", VarVal (HM v'))] cur' err' i' []) ->
  put_place m pin (AV (HObj i')) = Some m1 -> put_place m1 (sub_place (sub_place ctx (b "params")) (b "error")) (AV err') = Some m2 ->
  put_place m2 (sub_place tok (b "current_")) (AV cur') = Some m3 -> put_place m3 x (AV (HM v')) = Some m4 ->
  ser_read ser ctx x m = Some (AV r, m4).
Proof.
  intros ser ctx x m ea sn v tok i cur err pin r v' i' cur' err' m1 m2 m3 m4 H1 H2 H3 H4 H5 H6 H7 H8 H9 P1 P2 P3 P4.
  unfold ser_read. rewrite H1, H2, H3, H4, H5, H6, H7, H8, H9. cbn [s_vars s_in s_err s_cur]. rewrite P1, P2, P3, P4. reflexivity.
Qed.

Lemma write_done : forall ser ctx x m ea sn v out err r o err' s m1 m2,
  at_place m (sub_place ctx (b "os")) = Some (AP (Some out)) ->
  flag m (sub_place ctx (b "params")) "ensure_ascii" = Some ea -> flag m (sub_place ctx (b "params")) "serialize_null" = Some sn ->
  at_place m x = Some (AV (HM v)) ->
  at_place m (sub_place (sub_place ctx (b "params")) (b "error")) = Some (AV err) ->
  ser ea sn (b "write") [HV HCtx; HV (HM v)] (HSt [] (tok_val (Tok T_NONE [] 0 0)) err (in_val (IS [] 1 1)) []) = Some (HV r, s) ->
  s_out s = o -> s_err s = err' ->
  append 3 m out o = Some m1 -> put_place m1 (sub_place (sub_place ctx (b "params")) (b "error")) (AV err') = Some m2 ->
  ser_write ser ctx x m = Some (AV r, m2).
Proof.
  intros ser ctx x m ea sn v out err r o err' s m1 m2 H1 H2 H3 H4 H5 H6 <- <- P1 P2.
  unfold ser_write. rewrite H1, H2, H3, H4, H5, H6, P1, P2. reflexivity.
Qed.

Lemma call_read : forall ser ws ctx x m, existsb (fun w => words_eqb ws (w ++ [b "read"])) w_ser = true ->
  ser_call ser ws [RP ctx; RP x] m = ser_read ser ctx x m.
Proof. intros ser ws ctx x m H. unfold ser_call. rewrite H. reflexivity. Qed.
Lemma call_write : forall ser ws ctx x m, existsb (fun w => words_eqb ws (w ++ [b "read"])) w_ser = false ->
  existsb (fun w => words_eqb ws (w ++ [b "write"])) w_ser = true -> ser_call ser ws [RP ctx; RP x] m = ser_write ser ctx x m.
Proof. intros ser ws ctx x m H H'. unfold ser_call. rewrite H, H'. reflexivity. Qed.

(** ** Statements *)
Section Steps.
  Context (N d : nat) (X : htext) (A : atext) (ser : bool -> bool -> callee) (call : bytes -> list ares -> amem -> option (aval * amem)).
  Notation ex := (aexec N d X A ser call).
  Notation ev := (aeval N d X A ser call).

  Lemma step_expr : forall n e r s x s1 R, ev e s = Some (x, s1) -> ex n r s1 = R -> ex (S n) (TExpr [e] :: r) s = R.
  Proof. intros n e r s x s1 R H K. cbn [aexec]. rewrite H. exact K. Qed.
  Lemma step_context : forall n t x r s v s1 R, after_words w_alias t = None -> words_eqb (unqualified t) [b "json_context"] = true ->
    new_context X A = Some v -> aadd x v s = Some s1 -> ex n r s1 = R -> ex (S n) (TVar t x None None :: r) s = R.
  Proof. intros n t x r s v s1 R H1 H2 H3 H4 K. cbn [aexec]. rewrite H1, H2, H3, H4. exact K. Qed.
  Lemma step_alias : forall n t t' x r s s1 R, after_words w_alias t = Some t' -> aadd x (AType t') s = Some s1 -> ex n r s1 = R ->
    ex (S n) (TVar t x None None :: r) s = R.
  Proof. intros n t t' x r s s1 R H1 H2 K. cbn [aexec]. rewrite H1, H2. exact K. Qed.
  Lemma step_var : forall n t x e r s u s1 v w s2 R, ev e s = Some (u, s1) -> aload (t_mem s1) u = Some (AV v) -> typed t v = Some w ->
    aadd x (AV w) s1 = Some s2 -> ex n r s2 = R -> ex (S n) (TVar t x None (Some e) :: r) s = R.
  Proof. intros n t x e r s u s1 v w s2 R H1 H2 H3 H4 K. cbn [aexec]. rewrite H1, H2, H3, H4. exact K. Qed.
  Lemma step_obj : forall n t x es r s xs s1 v m s2 R, aargs N d X A ser call es s = Some (xs, s1) ->
    (match t, xs with
     | [y], [RP p] => None
     | _, _ => aobject N d X A t xs (t_mem s1)
     end) = Some (v, m) -> aadd x v (ASt (t_env s1) m) = Some s2 -> ex n r s2 = R -> ex (S n) (TObj t x es :: r) s = R.
  Proof.
    intros n t x es r s xs s1 v m s2 R H1 H2 H3 K. cbn [aexec]. rewrite H1.
    destruct t as [|y [|y' t]]; [|destruct xs as [|[?|p] [|? ?]]|]; try discriminate H2; cbv iota; rewrite H2, H3; exact K.
  Qed.
  Lemma step_iter : forall n y x es r s p s1 q t v s2 R, aargs N d X A ser call es s = Some ([RP p], s1) -> assoc (t_env s1) y = Some q ->
    at_place (t_mem s1) q = Some (AType t) -> out_iterator t p (t_mem s1) = Some v -> aadd x v s1 = Some s2 -> ex n r s2 = R ->
    ex (S n) (TObj [y] x es :: r) s = R.
  Proof.
    intros n y x es r s p s1 q t v s2 R H1 H2 H3 H4 H5 K. cbn [aexec]. rewrite H1, H2, H3, H4. unfold option_map.
    replace (ASt (t_env s1) (t_mem s1)) with s1 by (destruct s1; reflexivity). rewrite H5. exact K.
  Qed.
  Lemma step_true : forall n c st r s u s1 v s2 R, ev c s = Some (u, s1) -> aload (t_mem s1) u = Some (AV v) -> truth v = Some true ->
    ex n (match st with TBlock l' => l' | _ => [st] end) s1 = Some (ANext, s2) -> Nat.eqb (length (t_env s2)) (length (t_env s1)) = true ->
    ex n r s2 = R -> ex (S n) (TIf c st None :: r) s = R.
  Proof. intros n c st r s u s1 v s2 R H1 H2 H3 H4 H5 K. cbn [aexec]. rewrite H1, H2, H3, H4, H5. exact K. Qed.
  Lemma step_true_return : forall n c st r s u s1 v w s2, ev c s = Some (u, s1) -> aload (t_mem s1) u = Some (AV v) -> truth v = Some true ->
    ex n (match st with TBlock l' => l' | _ => [st] end) s1 = Some (AReturn w, s2) -> ex (S n) (TIf c st None :: r) s = Some (AReturn w, s2).
  Proof. intros n c st r s u s1 v w s2 H1 H2 H3 H4. cbn [aexec]. rewrite H1, H2, H3, H4. reflexivity. Qed.
  Lemma step_false : forall n c st r s u s1 v R, ev c s = Some (u, s1) -> aload (t_mem s1) u = Some (AV v) -> truth v = Some false ->
    ex n r s1 = R -> ex (S n) (TIf c st None :: r) s = R.
  Proof. intros n c st r s u s1 v R H1 H2 H3 K. cbn [aexec]. rewrite H1, H2, H3. exact K. Qed.
  Lemma step_return : forall n e r s u s1 v, ev e s = Some (u, s1) -> aload (t_mem s1) u = Some v -> ex (S n) (TReturn (Some e) :: r) s = Some (AReturn v, s1).
  Proof. intros n e r s u s1 v H1 H2. cbn [aexec]. rewrite H1, H2. reflexivity. Qed.

  Lemma step_tok : forall n t x es r s i p s1 v m s2 R, aargs N d X A ser call es s = Some ([RP i; RP p], s1) ->
    words_eqb (unqualified t) [b "tokenizer"] = true -> new_tokenizer N d X A i p (t_mem s1) = Some (v, m) ->
    aadd x v (ASt (t_env s1) m) = Some s2 -> ex n r s2 = R -> ex (S n) (TObj t x es :: r) s = R.
  Proof.
    intros n t x es r s i p s1 v m s2 R H1 H2 H3 H4 K. eapply step_obj; [exact H1| |exact H4|exact K].
    assert (E : aobject N d X A t [RP i; RP p] (t_mem s1) = Some (v, m)) by (unfold aobject; rewrite H2; exact H3).
    destruct t as [|y [|y' t]]; exact E.
  Qed.
  Lemma step_stream : forall n t x es r s first last s1 l s2 R, aargs N d X A ser call es s = Some ([RV (AV first); RV (AV last)], s1) ->
    words_eqb (unqualified t) [b "tokenizer"] = false -> existsb (words_eqb t) w_in_types = true -> new_stream N d X A first last = Some l ->
    aadd x (AV (HObj l)) s1 = Some s2 -> ex n r s2 = R -> ex (S n) (TObj t x es :: r) s = R.
  Proof.
    intros n t x es r s first last s1 l s2 R H1 H2 H3 H4 H5 K.
    eapply (step_obj n t x es r s _ s1 (AV (HObj l)) (t_mem s1)); [exact H1| |destruct s1; exact H5|exact K].
    assert (E : aobject N d X A t [RV (AV first); RV (AV last)] (t_mem s1) = Some (AV (HObj l), t_mem s1)) by (unfold aobject; rewrite H2, H3, H4; reflexivity).
    destruct t as [|y [|y' t]]; exact E.
  Qed.

  (** Calls. *)
  Lemma eval_ser : forall ws args s xs s1 v m, aargs N d X A ser call args s = Some (xs, s1) -> words_eqb ws w_move = false ->
    ser_call ser ws xs (t_mem s1) = Some (v, m) -> ev (ECall (EName ws) args) s = Some (RV v, ASt (t_env s1) m).
  Proof.
    intros ws args s xs s1 v m H1 H2 H3. unfold aargs in H1. cbn [aeval]. rewrite H1, H2, H3. reflexivity.
  Qed.
  Lemma eval_call : forall g args s xs s1 v m, aargs N d X A ser call args s = Some (xs, s1) -> words_eqb [g] w_move = false ->
    ser_call ser [g] xs (t_mem s1) = None -> call g xs (t_mem s1) = Some (v, m) -> ev (ECall (EName [g]) args) s = Some (RV v, ASt (t_env s1) m).
  Proof.
    intros g args s xs s1 v m H1 H2 H3 H4. unfold aargs in H1. cbn [aeval]. rewrite H1, H2, H3, H4. reflexivity.
  Qed.

  Lemma run_step : forall this f args m s v s1 w, abind (hf_params f) args (match this with Some p => [(b "this", p)] | None => [] end) m = Some s ->
    ex (S (S (length (hf_body f)))) (hf_body f) s = Some (AReturn (AV v), s1) -> typed (hf_ret f) v = Some w ->
    arun N d X A ser call this f args m = Some (AV w, t_mem s1).
  Proof. intros this f args m s v s1 w H1 H2 H3. unfold arun. rewrite H1, H2, H3. reflexivity. Qed.
  Lemma run_last : forall this f args m s v env m' w, abind (hf_params f) args (match this with Some p => [(b "this", p)] | None => [] end) m = Some s ->
    ex (S (S (length (hf_body f)))) (hf_body f) s = Some (AReturn (AV v), ASt env m') -> typed (hf_ret f) v = Some w ->
    arun N d X A ser call this f args m = Some (AV w, m').
  Proof. intros this f args m s v env m' w H1 H2 H3. unfold arun. rewrite H1, H2, H3. reflexivity. Qed.
End Steps.

Lemma call_step : forall N d X A ser fs this k f args m vs g, aloads m args = Some vs -> overload fs f vs = Some g ->
  acall N d X A ser fs this (S k) f args m = arun N d X A ser (acall N d X A ser fs this k) this g args m.
Proof. intros N d X A ser fs this k f args m vs g H1 H2. cbn [acall]. rewrite H1, H2. reflexivity. Qed.

(** ** deserialize and deserialize_array on an istream *)
Ltac vc := vm_compute; reflexivity.

(** [t]: the tokenizer after its constructor; [t']: after the serializer. *)
Section Core.
  Context (N d : nat) (ser : bool -> bool -> callee) (call : bytes -> list ares -> amem -> option (aval * amem)) (D : (1 <= d)%nat).

  Definition some_po (po : option params) : option place := match po with Some _ => Some (1%nat, []) | None => None end.
  Definition par_obj (po : option params) : aval := match po with Some p => params_val p | None => AV HVoid end.

  Definition gives_read (v : val) (po : option params) (t : tokenizer) (r : pgr) (v' : val) (t' : tokenizer) : Prop :=
    ser (ensure_ascii (ctx_params po)) (serialize_null (ctx_params po)) (b "read") [HV HCtx; HL (RVar (b "x")) []]
      (mem [(b "x", VarVal (HM v))] t [])
    = Some (HV (HI IInt (pgr_z r)), mem [(b "x", VarVal (HM v'))] t' []).
  Definition gives_next (i : istream) (po : option params) (t : tokenizer) : Prop :=
    callD N (x_consts the_texts) false (x_stream the_texts) (x_tok the_texts) d CTok OTok [b "next"] []
      (mem [] (TK (Tok T_NONE [] 0 0) i (p_err (ctx_params po))) [])
    = Some (HL RCur [], mem [] t []).

  Ltac deser i po t t' H1 H2 :=
    eapply step_context; [vc..|];
    match po with
    | Some _ => eapply step_true; [vc|vc|vc|eapply step_expr; [vc|]; eapply step_expr; [vc|]; reflexivity|vc|]
    | None => eapply step_false; [vc|vc|vc|]
    end;
    eapply step_tok; [vc|vc|eapply (tok_new N d i (p_err (ctx_params po)) t); [exact D|exact H1|vc|vc|vc|vc]|vc|];
    eapply step_expr; [vc|];
    eapply step_var; [eapply eval_ser; [vc|vc|erewrite call_read; [|vc]; eapply read_done; [vc|vc|vc|vc|vc|vc|vc|vc|exact H2|vc|vc|vc|vc]]|vc|vc|vc|].

  Definition left_po (r : pgr) (po : option params) (e : errinfo) : option params :=
    match r with PGR_OK => clear_params po | _ => params_set_err (clear_params po) e end.
  Definition good (r : pgr) : bool := match r with PGR_OK => true | _ => false end.

  Ltac rest r po :=
    match r with
    | PGR_OK => eapply step_true_return; [vc|vc|vc|eapply step_return; vc]
    | _ => eapply step_false; [vc|vc|vc|];
           match po with
           | Some _ => eapply step_true; [vc|vc|vc|eapply step_expr; [vc|]; reflexivity|vc|]
           | None => eapply step_false; [vc|vc|vc|]
           end; eapply step_return; vc
    end.
  Ltac start := erewrite call_step; [|reflexivity|reflexivity]; eapply run_step; [reflexivity| |]; [cbn [hf_body length]|].
  Ltac reads v po i t r v' t' H1 H2 :=
    intros v po i t r v' t' H1 H2; destruct po as [p|]; destruct r; eexists; (split; [start; [|]|]);
    [deser i (Some p) t t' H1 H2; rest PGR_OK (Some p)|vc|eexists; vc
    |deser i (Some p) t t' H1 H2; rest PGR_ERROR (Some p)|vc|eexists; vc
    |deser i (Some p) t t' H1 H2; rest PGR_NIL (Some p)|vc|eexists; vc
    |deser i (@None params) t t' H1 H2; rest PGR_OK (@None params)|vc|eexists; vc
    |deser i (@None params) t t' H1 H2; rest PGR_ERROR (@None params)|vc|eexists; vc
    |deser i (@None params) t t' H1 H2; rest PGR_NIL (@None params)|vc|eexists; vc].

  Lemma read_direct : forall k v po i t r v' t', gives_next i po t -> gives_read v po t r v' t' ->
    exists m, acall N d the_texts the_api ser (a_entity the_api) (Some (0%nat, [])) (S k) (b "deserialize") [RP (2%nat, []); params_arg po] (objects v po (AV (HObj (in_val i))))
    = Some (AV (HB (good r)), m) /\ exists l, m = objects v' (left_po r po (tk_err t')) (AV (HObj (in_val (tk_in t')))) ++ l.
  Proof. intros k. reads v po i t r v' t' H1 H2. Qed.
  Lemma read_array_direct : forall k v po i t r v' t', gives_next i po t -> gives_read v po t r v' t' ->
    exists m, acall N d the_texts the_api ser (a_array the_api) None (S k) (b "deserialize_array") [RP (0%nat, []); RP (2%nat, []); params_arg po] (objects v po (AV (HObj (in_val i))))
    = Some (AV (HB (good r)), m) /\ exists l, m = objects v' (left_po r po (tk_err t')) (AV (HObj (in_val (tk_in t')))) ++ l.
  Proof. intros k. reads v po i t r v' t' H1 H2. Qed.

  (** The same with the stream and the pointer as variables of the caller. *)
  Definition via (v : val) (po : option params) (x : aval) (i : istream) : amem := objects v po x ++ [AP (some_po po); AV (HObj (in_val i))].
  Lemma read_via : forall k x v po i t r v' t', gives_next i po t -> gives_read v po t r v' t' ->
    exists m, acall N d the_texts the_api ser (a_entity the_api) (Some (0%nat, [])) (S k) (b "deserialize") [RP (4%nat, []); RP (3%nat, [])] (via v po x i)
    = Some (AV (HB (good r)), m) /\ exists l, m = objects v' (left_po r po (tk_err t')) x ++ l.
  Proof. intros k x. reads v po i t r v' t' H1 H2. Qed.
  Lemma read_array_via : forall k x v po i t r v' t', gives_next i po t -> gives_read v po t r v' t' ->
    exists m, acall N d the_texts the_api ser (a_array the_api) None (S k) (b "deserialize_array") [RP (0%nat, []); RP (4%nat, []); RP (3%nat, [])] (via v po x i)
    = Some (AV (HB (good r)), m) /\ exists l, m = objects v' (left_po r po (tk_err t')) x ++ l.
  Proof. intros k x. reads v po i t r v' t' H1 H2. Qed.

  (** From a string or a vector. *)
  Definition gives_skip (inp : bytes) : Prop :=
    callD N (x_consts the_texts) false (x_stream the_texts) (x_tok the_texts) d CStream OIn [b "skip"] []
      (mem [] (TK (Tok T_NONE [] 0 0) (IS inp 1 1) err_clear) [])
    = Some (HV HVoid, mem [] (TK (Tok T_NONE [] 0 0) (mk_istream inp) err_clear) []).
  Ltac outer H E :=
    erewrite call_step; [|reflexivity|reflexivity]; eapply run_last; [reflexivity| |]; [cbn [hf_body length]|];
    [eapply step_stream; [vc|vc|vc|exact (stream_new N d _ D H)|reflexivity|]; eapply step_return; [eapply eval_call; [reflexivity|vc|reflexivity|exact E]|reflexivity]|vc].

  Lemma read_text : forall x inp v po t r v' t', holds inp x -> gives_skip inp -> gives_next (mk_istream inp) po t -> gives_read v po t r v' t' ->
    exists m, acall N d the_texts the_api ser (a_entity the_api) (Some (0%nat, [])) 2 (b "deserialize") [RP (2%nat, []); params_arg po] (objects v po x)
    = Some (AV (HB (good r)), m) /\ exists l, m = objects v' (left_po r po (tk_err t')) x ++ l.
  Proof.
    intros x inp v po t r v' t' HX H0 H1 H2. destruct (read_via 0 x v po _ t r v' t' H1 H2) as (m & E & l & L). exists m.
    split; [|exists l; exact L]. destruct HX; destruct po as [p|]; outer H0 E.
  Qed.
  Lemma read_array_text : forall x inp v po t r v' t', holds inp x -> gives_skip inp -> gives_next (mk_istream inp) po t -> gives_read v po t r v' t' ->
    exists m, acall N d the_texts the_api ser (a_array the_api) None 2 (b "deserialize_array") [RP (0%nat, []); RP (2%nat, []); params_arg po] (objects v po x)
    = Some (AV (HB (good r)), m) /\ exists l, m = objects v' (left_po r po (tk_err t')) x ++ l.
  Proof.
    intros x inp v po t r v' t' HX H0 H1 H2. destruct (read_array_via 0 x v po _ t r v' t' H1 H2) as (m & E & l & L). exists m.
    split; [|exists l; exact L]. destruct HX; destruct po as [p|]; outer H0 E.
  Qed.

  (** ** serialize and serialize_array *)
  Definition gives_write (v : val) (po : option params) (r : pgr) (o : bytes) (e : errinfo) : Prop :=
    ser (ensure_ascii (ctx_params po)) (serialize_null (ctx_params po)) (b "write") [HV HCtx; HV (HM v)]
      (mem [] (TK (Tok T_NONE [] 0 0) (IS [] 1 1) (p_err (ctx_params po))) [])
    = Some (HV (HI IInt (pgr_z r)), mem [] (TK (Tok T_NONE [] 0 0) (IS [] 1 1) e) o).
  Ltac serial po H :=
    eapply step_context; [vc..|]; eapply step_expr; [vc|];
    match po with
    | Some _ => eapply step_true; [vc|vc|vc|eapply step_expr; [vc|]; eapply step_expr; [vc|]; reflexivity|vc|]
    | None => eapply step_false; [vc|vc|vc|]
    end;
    eapply step_var; [eapply eval_ser; [vc|vc|erewrite call_write; [|vc|vc]; eapply write_done; [vc|vc|vc|vc|vc|exact H|reflexivity|reflexivity|vc|vc]]|vc|vc|vc|].
  Ltac writes po r H :=
    destruct po as [p|]; destruct r; eexists; (split; [start; [|]|]);
    [serial (Some p) H; rest PGR_OK (Some p)|vc|eexists; vc
    |serial (Some p) H; rest PGR_ERROR (Some p)|vc|eexists; vc
    |serial (Some p) H; rest PGR_NIL (Some p)|vc|eexists; vc
    |serial (@None params) H; rest PGR_OK (@None params)|vc|eexists; vc
    |serial (@None params) H; rest PGR_ERROR (@None params)|vc|eexists; vc
    |serial (@None params) H; rest PGR_NIL (@None params)|vc|eexists; vc].

  Lemma write_direct : forall k s v po r o e, gives_write v po r o e ->
    exists m, acall N d the_texts the_api ser (a_entity the_api) (Some (0%nat, [])) (S k) (b "serialize") [RP (2%nat, []); params_arg po] (objects v po (AGot s))
    = Some (AV (HB (good r)), m) /\ exists l, m = objects v (left_po r po e) (AGot (s ++ o)) ++ l.
  Proof. intros k s v po r o e H. writes po r H. Qed.
  Lemma write_array_direct : forall k s v po r o e, gives_write v po r o e ->
    exists m, acall N d the_texts the_api ser (a_array the_api) None (S k) (b "serialize_array") [RP (0%nat, []); RP (2%nat, []); params_arg po] (objects v po (AGot s))
    = Some (AV (HB (good r)), m) /\ exists l, m = objects v (left_po r po e) (AGot (s ++ o)) ++ l.
  Proof. intros k s v po r o e H. writes po r H. Qed.

  (** Through an iterator_ostream of the caller. *)
  Definition sink (v : val) (po : option params) (x : aval) (t : list bytes) : amem :=
    objects v po x ++ [AP (some_po po); AType t; ABack (2%nat, []); AO [(b "beg_", ABack (2%nat, []))]].
  Inductive grows (o : bytes) : aval -> aval -> Prop :=
    | GrowsString : forall s, grows o (AV (HS s)) (AV (HS (s ++ o)))
    | GrowsVector : forall s, grows o (AChars s) (AChars (s ++ o))
    | GrowsStd : forall s, grows o (AStd s) (AStd (s ++ o)).
  Lemma write_via : forall k x x' w v po r o e, grows o x x' -> gives_write v po r o e ->
    exists m, acall N d the_texts the_api ser (a_entity the_api) (Some (0%nat, [])) (S k) (b "serialize") [RP (6%nat, []); RP (3%nat, [])] (sink v po x w)
    = Some (AV (HB (good r)), m) /\ exists l, m = objects v (left_po r po e) x' ++ l.
  Proof. intros k x x' w v po r o e G H. destruct G; writes po r H. Qed.
  Lemma write_array_via : forall k x x' w v po r o e, grows o x x' -> gives_write v po r o e ->
    exists m, acall N d the_texts the_api ser (a_array the_api) None (S k) (b "serialize_array") [RP (0%nat, []); RP (6%nat, []); RP (3%nat, [])] (sink v po x w)
    = Some (AV (HB (good r)), m) /\ exists l, m = objects v (left_po r po e) x' ++ l.
  Proof. intros k x x' w v po r o e G H. destruct G; writes po r H. Qed.

  Ltac outer_write E :=
    erewrite call_step; [|reflexivity|reflexivity]; eapply run_last; [reflexivity| |]; [cbn [hf_body length]|];
    [eapply step_alias; [vc|vc|]; eapply step_iter; [vc|vc|vc|vc|vc|]; eapply step_obj; [vc|vc|vc|];
     eapply step_return; [eapply eval_call; [reflexivity|vc|reflexivity|exact E]|reflexivity]|vc].
  Lemma write_string : forall s v po r o e, gives_write v po r o e ->
    exists m, acall N d the_texts the_api ser (a_entity the_api) (Some (0%nat, [])) 2 (b "serialize") [RP (2%nat, []); params_arg po] (objects v po (AV (HS s)))
    = Some (AV (HB (good r)), m) /\ exists l, m = objects v (left_po r po e) (AV (HS (s ++ o))) ++ l.
  Proof.
    intros s v po r o e H. destruct (write_via 0 _ _ w_string_back v po r o e (GrowsString o s) H) as (m & E & l & L). exists m.
    split; [|exists l; exact L]. destruct po as [p|]; outer_write E.
  Qed.
  Lemma write_vector : forall s v po r o e, gives_write v po r o e ->
    exists m, acall N d the_texts the_api ser (a_entity the_api) (Some (0%nat, [])) 2 (b "serialize") [RP (2%nat, []); params_arg po] (objects v po (AChars s))
    = Some (AV (HB (good r)), m) /\ exists l, m = objects v (left_po r po e) (AChars (s ++ o)) ++ l.
  Proof.
    intros s v po r o e H. destruct (write_via 0 _ _ w_vector_back v po r o e (GrowsVector o s) H) as (m & E & l & L). exists m.
    split; [|exists l; exact L]. destruct po as [p|]; outer_write E.
  Qed.
  Lemma write_std : forall s v po r o e, gives_write v po r o e ->
    exists m, acall N d the_texts the_api ser (a_entity the_api) (Some (0%nat, [])) 2 (b "serialize") [RP (2%nat, []); params_arg po] (objects v po (AStd s))
    = Some (AV (HB (good r)), m) /\ exists l, m = objects v (left_po r po e) (AStd (s ++ o)) ++ l.
  Proof.
    intros s v po r o e H. destruct (write_via 0 _ _ w_std_iter v po r o e (GrowsStd o s) H) as (m & E & l & L). exists m.
    split; [|exists l; exact L]. destruct po as [p|]; outer_write E.
  Qed.
  Lemma write_array_string : forall s v po r o e, gives_write v po r o e ->
    exists m, acall N d the_texts the_api ser (a_array the_api) None 2 (b "serialize_array") [RP (0%nat, []); RP (2%nat, []); params_arg po] (objects v po (AV (HS s)))
    = Some (AV (HB (good r)), m) /\ exists l, m = objects v (left_po r po e) (AV (HS (s ++ o))) ++ l.
  Proof.
    intros s v po r o e H. destruct (write_array_via 0 _ _ w_string_back v po r o e (GrowsString o s) H) as (m & E & l & L). exists m.
    split; [|exists l; exact L]. destruct po as [p|]; outer_write E.
  Qed.
  Lemma write_array_vector : forall s v po r o e, gives_write v po r o e ->
    exists m, acall N d the_texts the_api ser (a_array the_api) None 2 (b "serialize_array") [RP (0%nat, []); RP (2%nat, []); params_arg po] (objects v po (AChars s))
    = Some (AV (HB (good r)), m) /\ exists l, m = objects v (left_po r po e) (AChars (s ++ o)) ++ l.
  Proof.
    intros s v po r o e H. destruct (write_array_via 0 _ _ w_vector_back v po r o e (GrowsVector o s) H) as (m & E & l & L). exists m.
    split; [|exists l; exact L]. destruct po as [p|]; outer_write E.
  Qed.
End Core.
