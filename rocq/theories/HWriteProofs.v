(** The text of json*.hh, executed: writing. *)
From Coq Require Import Lia Arith.
From Verif Require Import Bytes Num Dbl Types Stream Tokenizer Read Write Template Cpp CLex CParse CExec Unit HdrText HText HParse HExec HTok BaseProofs
  SpecHTok HTokProofs HIgnProofs HJson HRunProofs HReadProofs BitProofs.

Definition fn_nwrite := Eval vm_compute in fn_of (x_num the_texts) "write".
Definition fn_bwrite := Eval vm_compute in fn_of (x_bool the_texts) "write".
Definition fn_fwrite := Eval vm_compute in fn_of (x_field the_texts) "write".
Definition fn_swrite := Eval vm_compute in fn_of (x_str the_texts) "write".
Definition fn_sfwrite := Eval vm_compute in fn_of (x_sfield the_texts) "write".
Definition fn_seterror := Eval vm_compute in fn_of (x_free the_texts) "set_error".
Definition fn_escaped := Eval vm_compute in fn_of (x_free the_texts) "write_escaped_utf8".

(** The tokenizer with another error: that of the parameters. *)
Definition with_err (t : tokenizer) (e : errinfo) : tokenizer := TK (tk_cur t) (tk_in t) e.
Lemma with_same : forall t, with_err t (tk_err t) = t.
Proof. intros []. reflexivity. Qed.
Lemma with_with : forall t e e', with_err (with_err t e) e' = with_err t e'.
Proof. reflexivity. Qed.
Lemma with_get : forall t e, tk_err (with_err t e) = e.
Proof. reflexivity. Qed.

Section W.
Context (N d : nat) (ea : bool).

(** [f], called with a context and a value of [P], writes as [w]. *)
Definition writes {A} (P : A -> Prop) (inj : A -> hval) (f : list hres -> hst -> option (hres * hst)) (w : A -> errinfo -> wres) : Prop :=
  forall v t r x e, P v -> w v (tk_err t) = (r, x, e) ->
  forall vars a c o, ctx_arg vars a -> load (mem vars t o) c = Some (inj v) ->
    f [a; c] (mem vars t o) = Some (HV (HI IInt (pgr_z r)), mem vars (with_err t e) (o ++ x)).

Lemma nwrite : forall p call, p <> PBool ->
  (forall a v s, load s a = Some (HM (VPrim v)) -> call OName [b "number_to_string"] [a] s = Some (HV (HS (prim_text v)), s)) ->
  writes (fun _ => True) (fun v => HM (VPrim v)) (run_fun N (num_consts p) ea CNone call fn_nwrite) (fun v e => (PGR_OK, prim_text v, e)).
Proof.
  intros p call NB C v t r x e _ W vars a c o A G. injection W as <- <- <-. rewrite with_same.
  eapply (run_val N _ ea call fn_nwrite (b "value")); [reflexivity|exact A|exact G|reflexivity| |].
  { body fn_nwrite. nx; [ev; ext C; ev; reflexivity|]. rt. ev. reflexivity. }
  reflexivity.
Qed.
Lemma bwrite : forall call,
  writes (fun v => exists x, v = VBool x) (fun v => HM (VPrim v)) (run_fun N consts ea CNone call fn_bwrite) (fun v e => (PGR_OK, prim_text v, e)).
Proof.
  intros call v t r x e [y ->] W vars a c o A G. injection W as <- <- <-. rewrite with_same.
  destruct y; (eapply (run_val N _ ea call fn_bwrite (b "value")); [reflexivity|exact A|exact G|reflexivity| |]).
  1,3: body fn_bwrite; nx; [ev; reflexivity|]; rt; ev; reflexivity.
  all: reflexivity.
Qed.

(** json-number.hh:126-135: [wr] of the value itself. *)
Lemma fwrite : forall p call wr,
  writes (fun v => pval_ok p v = true) (fun v => HM (VPrim v)) (fun args s => call OName (w_T ++ [b "write"]) args s) wr ->
  writes (fun v : bool * pval => pval_ok p (snd v) = true) (fun v => HM (VField (fst v) (snd v))) (run_fun N (([b "T"], HRaw p) :: consts) ea CNone call fn_fwrite)
    (fun v e => if fst v then (PGR_OK, b "null", e) else wr (snd v) e).
Proof.
  intros p call wr C [em v] t r x e K W vars a c o A G. cbn [fst snd] in *. destruct em.
  - injection W as <- <- <-. rewrite with_same.
    eapply (run_val N _ ea call fn_fwrite (b "value")); [reflexivity|exact A|exact G|reflexivity| |].
    { body fn_fwrite. rt. eapply g_if; [ev; reflexivity|]. eapply g_block; [cbv [length]; nx; [ev; reflexivity|]; rt; ev; reflexivity|reflexivity]. }
    reflexivity.
  - eapply (run_val N _ ea call fn_fwrite (b "value")); [reflexivity|exact A|exact G|reflexivity| |].
    { body fn_fwrite. nx; [eapply g_none; ev; reflexivity|]. nx; [ev; reflexivity|]. rt.
      ev. ext (C v t r x e K W). ev. reflexivity. }
    reflexivity.
Qed.
(** json-string.hh:166-174. *)
Lemma sfwrite : forall call wr (P : bytes -> Prop),
  (forall v t r x e, P (snd v) -> wr (snd v) (tk_err t) = (r, x, e) ->
    forall vars a c o, ctx_arg vars a -> load (mem vars t o) c = Some (HM (VStr (fst v) (snd v))) ->
      call OName (w_str ++ [b "write"]) [a; c] (mem vars t o) = Some (HV (HI IInt (pgr_z r)), mem vars (with_err t e) (o ++ x))) ->
  writes (fun v : bool * bytes => P (snd v)) (fun v => HM (VStr (fst v) (snd v))) (run_fun N consts ea CNone call fn_sfwrite)
    (fun v e => if fst v && match snd v with [] => true | _ => false end then (PGR_OK, b "null", e) else wr (snd v) e).
Proof.
  intros call wr P C [em v] t r x e K W vars a c o A G. cbn [fst snd] in *. destruct (em && match v with [] => true | _ => false end) eqn:E.
  - injection W as <- <- <-. rewrite with_same.
    eapply (run_val N _ ea call fn_sfwrite (b "value")); [reflexivity|exact A|exact G|reflexivity| |].
    { destruct em; [|discriminate E]. destruct v; [|discriminate E].
      body fn_sfwrite. rt. eapply g_if; [ev; reflexivity|]. eapply g_block; [cbv [length]; nx; [ev; reflexivity|]; rt; ev; reflexivity|reflexivity]. }
    reflexivity.
  - eapply (run_val N _ ea call fn_sfwrite (b "value")); [reflexivity|exact A|exact G|reflexivity| |].
    { body fn_sfwrite. nx; [eapply g_none; destruct em; destruct v; try discriminate E; ev; reflexivity|]. rt.
      ev. ext (C (em, v) t r x e K W). ev. reflexivity. }
    reflexivity.
Qed.

(** json.hh:21-29. *)
Lemma seterror : forall call c m msg vars t o, cstr m = msg ->
  run_fun N consts ea CNone call fn_seterror [HL RErr []; HV (HI IErr (err_z c)); HV (HPtr m)] (mem vars t o) =
    Some (HV (HI IInt 1), mem vars (with_err t (set_error c msg (tk_err t))) o).
Proof.
  intros call c m msg vars t o H. subst msg. unfold run_fun.
  set (vs := [(b "error", VarRef RErr []); (b "code", VarVal (HI IErr (err_z c))); (b "msg", VarVal (HS (cstr m)))]).
  assert (Q : seq_loop (hexec N consts ea CNone call nesting) (S (length (hf_body fn_seterror))) (hf_body fn_seterror) (mem vs t o) =
    Some (GReturn (Some (HV (HI IPgr 1))), mem vs (with_err t (set_error c (cstr m) (tk_err t))) o)).
  { unfold vs. destruct (negb (err_z (e_code (tk_err t)) =? 0)) eqn:E.
    - assert (S : set_error c (cstr m) (tk_err t) = tk_err t) by (unfold set_error; destruct (e_code (tk_err t)); [discriminate E|..]; reflexivity).
      rewrite S, with_same. body fn_seterror. rt. eapply g_if; [cnd E|]. ev. reflexivity.
    - assert (S : set_error c (cstr m) (tk_err t) = EI c (cstr m) 0 0) by (unfold set_error; destruct (e_code (tk_err t)); [|discriminate E..]; reflexivity).
      rewrite S. body fn_seterror. nx; [eapply g_none; cnd E|]. nx; [ev; reflexivity|]. nx; [ev; reflexivity|]. nx; [ev; reflexivity|]. rt. ev. reflexivity. }
  change (bind_params (hf_params fn_seterror) _ _) with (Some (vs, [] : list (bytes * bytes))).
  cbv iota. change (put_vars (mem vars ?t o) ?z) with (mem z t o). rewrite Q. reflexivity.
Qed.
End W.
