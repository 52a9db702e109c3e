(** The text of json*.hh, executed: reading. *)
From Coq Require Import Lia Arith.
From Verif Require Import Bytes Num Dbl Types Stream Tokenizer Read Write Template Cpp CLex CParse CExec Unit HdrText HText HParse HExec HTok BaseProofs
  SpecHTok HTokProofs HIgnProofs HJson HRunProofs.

Definition call_t := target -> list bytes -> list hres -> hst -> option (hres * hst).

Definition fn_nread := Eval vm_compute in fn_of (x_num the_texts) "read".
Definition fn_nclear := Eval vm_compute in fn_of (x_num the_texts) "clear".
Definition fn_bread := Eval vm_compute in fn_of (x_bool the_texts) "read".
Definition fn_bclear := Eval vm_compute in fn_of (x_bool the_texts) "clear".
Definition fn_fread := Eval vm_compute in fn_of (x_field the_texts) "read".
Definition fn_sread := Eval vm_compute in fn_of (x_str the_texts) "read".
Definition fn_sfread := Eval vm_compute in fn_of (x_sfield the_texts) "read".

Ltac ev := cbv -[callT while_loop Z.add Z.sub Z.leb Z.ltb Z.eqb Z.shiftl Z.shiftr Z.land Z.lor int_ok char_of byte_of
                 code cast_int str_eqb cat in_val is_rest is_line is_col is_eof is_peek is_next
                 t_id t_val t_line t_col tid_z err_z e_code e_msg e_line e_col tk_cur tk_in tk_err tk_error cstr pgr_z
                 string_to_prim prim_text pzero set_error].
Ltac nx := eapply seq_next.
Ltac rt := eapply seq_return.
Ltac use L :=
  match goal with |- context [?call OTok ?w ?x ?s] =>
    let H := fresh in
    eassert (H : call OTok w x s = _) by (eapply L; first [eassumption | lia | ev; reflexivity]); rewrite H; clear H
  end.
Ltac ctx := right; exists (b "ctx"); split; reflexivity.
Ltac ext L :=
  match goal with |- context [?call OName ?w ?x ?s] =>
    let H := fresh in
    eassert (H : call OName w x s = _) by (eapply L; first [eassumption | lia | ctx | ev; reflexivity]); rewrite H; clear H
  end.
Ltac body f := cbv [f hf_body length nesting].
(** [E]: what the condition of the statement is. *)
Ltac cnd E :=
  match type of E with ?B = _ =>
  match goal with |- hcond ?cs ?ea ?cl ?call ?c ?s = _ =>
    let HC := fresh in assert (HC : hcond cs ea cl call c s = Some (B, s)) by (ev; reflexivity); rewrite E in HC; exact HC end end.

Ltac cnd2 E :=
  match type of E with ?B = _ =>
  match goal with |- hcond ?cs ?ea ?cl ?call ?c ?s = _ =>
    let HC := fresh in assert (HC : hcond cs ea cl call c s = Some (B, s)) by first [eapply g_and; [|intros _]; ev; reflexivity | eapply g_or; [|intros _]; ev; reflexivity];
    rewrite E in HC; exact HC end end.

Section R.
Context (N d : nat) (ea : bool).

(** [f], called with a context and a variable, reads as [rd] into values of [P]. *)
Definition reads {A} (P : A -> Prop) (inj : A -> hval) (f : list hres -> hst -> option (hres * hst)) (rd : nat -> tokenizer -> A -> rres A) : Prop :=
  forall n t v r v' t', rd n t v = Some (r, v', t') -> P v -> place N n t -> (2 * n + 20 <= d)%nat ->
  goes N t t' /\
  forall vars a x o, ctx_arg vars a -> assoc vars x = Some (VarVal (inj v)) ->
    f [a; HL (RVar x) []] (mem vars t o) = Some (HV (HI IInt (pgr_z r)), mem (update vars x (VarVal (inj v'))) t' o).

(** A value of type bool is one of bool. *)
Definition prim_kind (p : prim) (v : pval) : Prop := p = PBool -> exists x, v = VBool x.
Definition num_consts (p : prim) : list (list bytes * hval) := ([b "(T) 0"], HM (VPrim (pzero p))) :: consts.

Lemma nread : forall p call, p <> PBool -> tok_calls N d ea call ->
  (forall a x s, load s a = Some (HS x) -> call OName w_to_number [a] s = Some (HV (HM (VPrim (string_to_prim p x))), s)) ->
  reads (prim_kind p) (fun v => HM (VPrim v)) (run_fun N (num_consts p) ea CNone call fn_nread) (fun n => read_prim n p).
Proof.
  intros p call NB T C n t v r v' t' R _ M D. unfold read_prim in R.
  pose (z := tid_z (t_id (tk_cur t))).
  assert (Q : ((z =? 9) = true /\ r = PGR_NIL /\ v' = v /\ t' = t) \/
    ((z =? 9) = false /\ negb (z =? 12) = true /\ r = PGR_ERROR /\ v' = v /\ t' = tk_error PGERR_INVALID_VALUE (b "invalid numeric value") t) \/
    ((z =? 9) = false /\ negb (z =? 12) = false /\ r = PGR_OK /\ v' = string_to_prim p (t_val (tk_cur t)) /\ tk_next n t = Some t')).
  { unfold z. unfold tk_id in R. destruct (t_id (tk_cur t)); destruct p; try congruence; unfold rfail in R;
      try (injection R as <- <- <-; auto 10; fail);
      destruct (tk_next n t); try discriminate R; injection R as <- <- <-; auto 10. }
  clear R. unfold z in Q. clear z. destruct Q as [[E [-> [-> ->]]]|[[E1 [E2 [-> [-> ->]]]]|[E1 [E2 [-> [-> X]]]]]].
  - split; [apply goes_refl|]. intros vars a x o A G. eapply (run_ref N _ ea call fn_nread (b "value")); [reflexivity|exact A|exact G|reflexivity| | | ].
    { body fn_nread. nx; [ev; use (j_peek N d ea call T t); ev; reflexivity|].
      rt. eapply g_if; [cnd E|ev; reflexivity]. }
    all: reflexivity.
  - split; [apply goes_error; apply goes_refl|]. intros vars a x o A G. eapply (run_ref N _ ea call fn_nread (b "value")); [reflexivity|exact A|exact G|reflexivity| | | ].
    { body fn_nread. nx; [ev; use (j_peek N d ea call T t); ev; reflexivity|].
      nx; [eapply g_none; cnd E1|]. rt. eapply g_if; [cnd E2|].
      ev; use (j_error N d ea call T t PGERR_INVALID_VALUE); ev; reflexivity. }
    all: reflexivity.
  - split; [eapply goes_tnext; [exact M|]; exact X|]. intros vars a x o A G. eapply (run_ref N _ ea call fn_nread (b "value")); [reflexivity|exact A|exact G|reflexivity| | | ].
    { body fn_nread. nx; [ev; use (j_peek N d ea call T t); ev; reflexivity|].
      nx; [eapply g_none; cnd E1|]. nx; [eapply g_none; cnd E2|].
      nx; [ev; ext C; ev; reflexivity|].
      nx; [ev; use (j_next N d ea call T n t); ev; reflexivity|].
      rt. ev. reflexivity. }
    all: reflexivity.
Qed.

Lemma bread : forall call, tok_calls N d ea call ->
  reads (prim_kind PBool) (fun v => HM (VPrim v)) (run_fun N consts ea CNone call fn_bread) (fun n => read_prim n PBool).
Proof.
  intros call T n t v r v' t' R K M D. destruct (K eq_refl) as [w ->]. clear K. unfold read_prim in R. pose (z := tid_z (t_id (tk_cur t))).
  assert (Q : ((z =? 9) = true /\ r = PGR_NIL /\ v' = VBool w /\ t' = t) \/
    ((z =? 9) = false /\ negb (z =? 10) && negb (z =? 11) = true /\ r = PGR_ERROR /\ v' = VBool w /\ t' = tk_error PGERR_INVALID_VALUE (b "invalid boolean value") t) \/
    ((z =? 9) = false /\ negb (z =? 10) && negb (z =? 11) = false /\ r = PGR_OK /\ v' = VBool (z =? 10) /\ tk_next n t = Some t')).
  { unfold z. unfold tk_id in R. destruct (t_id (tk_cur t)); unfold rfail in R;
      try (injection R as <- <- <-; auto 10; fail);
      destruct (tk_next n t); try discriminate R; injection R as <- <- <-; auto 10. }
  clear R. unfold z in Q. clear z. destruct Q as [[E [-> [-> ->]]]|[[E1 [E2 [-> [-> ->]]]]|[E1 [E2 [-> [-> X]]]]]].
  - split; [apply goes_refl|]. intros vars a x o A G. eapply (run_ref N _ ea call fn_bread (b "value")); [reflexivity|exact A|exact G|reflexivity| | | ].
    { body fn_bread. nx; [ev; use (j_peek N d ea call T t); ev; reflexivity|].
      rt. eapply g_if; [cnd E|ev; reflexivity]. }
    all: reflexivity.
  - split; [apply goes_error; apply goes_refl|]. intros vars a x o A G. eapply (run_ref N _ ea call fn_bread (b "value")); [reflexivity|exact A|exact G|reflexivity| | | ].
    { body fn_bread. nx; [ev; use (j_peek N d ea call T t); ev; reflexivity|].
      nx; [eapply g_none; cnd E1|]. rt. eapply g_if; [cnd2 E2|].
      ev; use (j_error N d ea call T t PGERR_INVALID_VALUE); ev; reflexivity. }
    all: reflexivity.
  - split; [eapply goes_tnext; [exact M|]; exact X|]. intros vars a x o A G. eapply (run_ref N _ ea call fn_bread (b "value")); [reflexivity|exact A|exact G|reflexivity| | | ].
    { body fn_bread. nx; [ev; use (j_peek N d ea call T t); ev; reflexivity|].
      nx; [eapply g_none; cnd E1|]. nx; [eapply g_none; cnd2 E2|].
      nx; [ev; reflexivity|].
      nx; [ev; use (j_next N d ea call T n t); ev; reflexivity|].
      rt. ev. reflexivity. }
    all: reflexivity.
Qed.

(** [clear] of a number. *)
Definition clears (p : prim) (f : list hres -> hst -> option (hres * hst)) : Prop :=
  forall t vars x o w, assoc vars x = Some (VarVal w) -> w = HRaw p ->
    f [HL (RVar x) []] (mem vars t o) = Some (HV HVoid, mem (update vars x (VarVal (HM (VPrim (pzero p))))) t o).
Lemma run_one : forall cs call f p x vars t o v vs1 w,
  match hf_params f with [(T, y)] => by_ref T && same y p | _ => false end = true ->
  assoc vars x = Some (VarVal v) -> is_ctx v = false -> words_eqb (hf_ret f) [b "void"] = true ->
  seq_loop (hexec N cs ea CNone call nesting) (S (length (hf_body f))) (hf_body f) (mem [(p, VarVal v)] t o) = Some (GNext, mem vs1 t o) ->
  assoc vs1 p = Some w ->
  run_fun N cs ea CNone call f [HL (RVar x) []] (mem vars t o) = Some (HV HVoid, mem (update vars x w) t o).
Proof.
  intros cs call f p x vars t o v vs1 w P G I R E B. unfold run_fun. destruct (hf_params f) as [|[T y] [|]]; try discriminate P.
  apply andb_prop in P as [P1 P2]. apply same_eq in P2. subst y. cbn [bind_params]. rewrite P1. cbn [get_root s_vars mem]. rewrite G.
  destruct v; try discriminate I; cbn [existsb]; change (put_vars (mem vars t o) ?z) with (mem z t o); rewrite E; cbn [result_of]; rewrite R;
    cbn [give_back s_vars mem]; rewrite B; reflexivity.
Qed.
Lemma nclear : forall p call, clears p (run_fun N (num_consts p) ea CNone call fn_nclear).
Proof.
  intros p call t vars x o w G ->. eapply (run_one _ _ _ (b "value")); [reflexivity|exact G|reflexivity|reflexivity| | ].
  { body fn_nclear. nx; [ev; reflexivity|]. apply seq_end. }
  reflexivity.
Qed.
Lemma bclear : forall call, clears PBool (run_fun N consts ea CNone call fn_bclear).
Proof.
  intros call t vars x o w G ->. eapply (run_one _ _ _ (b "value")); [reflexivity|exact G|reflexivity|reflexivity| | ].
  { body fn_bclear. nx; [ev; reflexivity|]. apply seq_end. }
  reflexivity.
Qed.

(** A field of a number (json-number.hh:117-125). *)
Definition field_consts (p : prim) : list (list bytes * hval) := ([b "T"], HRaw p) :: consts.
Definition w_T_read : list bytes := w_T ++ [b "read"].
Lemma zero_kind : forall p, prim_kind p (pzero p).
Proof. intros p ->. exists false. reflexivity. Qed.
Lemma fread : forall p call, clears p (call OName (w_T ++ [b "clear"])) ->
  reads (prim_kind p) (fun v => HM (VPrim v)) (call OName (w_T ++ [b "read"])) (fun n => read_prim n p) ->
  reads (fun v => match v with VField _ _ => True | _ => False end) HM (run_fun N (field_consts p) ea CNone call fn_fread)
    (fun n t v => match v with VField em x => read_fieldnum n p t em x | _ => Some (PGR_ERROR, v, t) end).
Proof.
  intros p call C Q n t v r v' t' R K M D. destruct v as [|em w| | | |]; try contradiction. clear K.
  unfold read_fieldnum in R. destruct (read_prim n p t (pzero p)) as [[[r1 temp] t1]|] eqn:P; [|discriminate R].
  destruct (Q n t (pzero p) r1 temp t1 P (zero_kind p) M D) as [L X].
  assert (t' = t1 /\ r = r1 /\ v' = match r1 with PGR_NIL => VField em w | _ => VField false temp end) as [-> [-> ->]]
    by (destruct r1; injection R as <- <- <-; auto).
  split; [exact L|]. intros vars a x o A G.
  destruct r1; (eapply (run_ref N _ ea call fn_fread (b "value")); [reflexivity|exact A|exact G|reflexivity| | | ];
  [ body fn_fread; nx; [ev; reflexivity|]; nx; [ev; ext (C t); ev; reflexivity|]; nx; [ev; ext X; ev; reflexivity|];
    nx; [first [eapply g_none; ev; reflexivity | eapply g_if; ev; reflexivity]|]; rt; ev; reflexivity
  | reflexivity | reflexivity]).
Qed.

(** ** Strings *)
Lemma sread : forall call, tok_calls N d ea call ->
  reads (fun _ => True) HS (run_fun N consts ea CNone call fn_sread) read_string.
Proof.
  intros call T n t v r v' t' R _ M D. unfold read_string in R.
  assert (Q : ((tid_z (t_id (tk_cur t)) =? 9) = true /\ r = PGR_NIL /\ v' = v /\ t' = t) \/
    ((tid_z (t_id (tk_cur t)) =? 9) = false /\ exists k t1, tk_expect n T_STRING t = Some (k, t1) /\
      if k : bool then r = PGR_OK /\ v' = t_val (tk_cur t) /\ t' = t1
      else r = PGR_ERROR /\ v' = v /\ t' = tk_error PGERR_INVALID_VALUE (b "invalid string value") t1)).
  { unfold tk_id in R. unfold rfail in R. destruct (tk_expect n T_STRING t) as [[[] t1]|];
    destruct (t_id (tk_cur t)); first [discriminate R|injection R as <- <- <-]; auto; right; (split; [reflexivity|]); do 2 eexists; (split; [reflexivity|]); cbn; auto. }
  clear R. destruct Q as [[E [-> [-> ->]]]|[E [[|] [t1 [X [-> [-> ->]]]]]]].
  - split; [apply goes_refl|]. intros vars a x o A G. eapply (run_ref N _ ea call fn_sread (b "value")); [reflexivity|exact A|exact G|reflexivity| | | ].
    { body fn_sread. nx; [ev; use (j_peek N d ea call T t); ev; reflexivity|].
      rt. eapply g_if; [cnd E|ev; reflexivity]. }
    all: reflexivity.
  - split; [eapply goes_expect; [exact M|]; exact X|]. intros vars a x o A G. eapply (run_ref N _ ea call fn_sread (b "value")); [reflexivity|exact A|exact G|reflexivity| | | ].
    { body fn_sread. nx; [ev; use (j_peek N d ea call T t); ev; reflexivity|].
      nx; [eapply g_none; cnd E|].
      nx; [eapply g_none; ev; use (j_expect N d ea call T n t T_STRING); ev; reflexivity|].
      nx; [ev; reflexivity|]. rt. ev. reflexivity. }
    all: reflexivity.
  - split; [apply goes_error; eapply goes_expect; [exact M|]; exact X|]. intros vars a x o A G. eapply (run_ref N _ ea call fn_sread (b "value")); [reflexivity|exact A|exact G|reflexivity| | | ].
    { body fn_sread. nx; [ev; use (j_peek N d ea call T t); ev; reflexivity|].
      nx; [eapply g_none; cnd E|].
      rt. eapply g_if; [ev; use (j_expect N d ea call T n t T_STRING); ev; reflexivity|].
      ev; use (j_error N d ea call T t1 PGERR_INVALID_VALUE); ev; reflexivity. }
    all: reflexivity.
Qed.
Lemma sfread : forall call,
  reads (fun _ => True) HS (call OName (w_str ++ [b "read"])) read_string ->
  reads (fun v => match v with VStr _ _ => True | _ => False end) HM (run_fun N consts ea CNone call fn_sfread)
    (fun n t v => match v with VStr null s => read_strfield n t null s | _ => Some (PGR_ERROR, v, t) end).
Proof.
  intros call Q n t v r v' t' R K M D. destruct v as [| |nl w| | |]; try contradiction. clear K.
  unfold read_strfield in R. destruct (read_string n t []) as [[[r1 temp] t1]|] eqn:P; [|discriminate R].
  destruct (Q n t [] r1 temp t1 P I M D) as [L X]. cbn in R. injection R as <- <- <-.
  split; [exact L|]. intros vars a x o A G.
  destruct r1; (eapply (run_ref N _ ea call fn_sfread (b "value")); [reflexivity|exact A|exact G|reflexivity| | | ];
  [ body fn_sfread; nx; [ev; reflexivity|]; nx; [ev; reflexivity|]; nx; [ev; ext X; ev; reflexivity|];
    nx; [ev; reflexivity|]; nx; [ev; reflexivity|]; rt; ev; reflexivity
  | reflexivity | reflexivity]).
Qed.
End R.
