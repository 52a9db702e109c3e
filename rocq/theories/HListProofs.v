(** The text of json-array.hh and json.hh, executed: reading of containers and messages. *)
From Coq Require Import Lia Arith.
From Verif Require Import Bytes Num Dbl Types Stream Tokenizer Read Write Template Cpp CLex CParse CExec Unit HdrText HText HParse HExec HTok BaseProofs
  SpecHTok HTokProofs HIgnProofs HJson HRunProofs HReadProofs.

Definition fn_aread := Eval vm_compute in fn_of (x_arr the_texts) "read".
Definition fn_oread := Eval vm_compute in fn_of (x_free the_texts) "read_object".
(** The loop of the third statement. *)
Definition third_c (l : list hstmt) : hexpr := match l with [_; _; TIf _ (TBlock (TWhile c _ :: _)) None; _] => c | _ => EBool false end.
Definition third_b (l : list hstmt) : hstmt := match l with [_; _; TIf _ (TBlock (TWhile _ x :: _)) None; _] => x | _ => TBreak end.
Definition aread_c := Eval vm_compute in third_c (hf_body fn_aread).
Definition aread_b := Eval vm_compute in third_b (hf_body fn_aread).
Definition oread_c := Eval vm_compute in third_c (hf_body fn_oread).
Definition oread_b := Eval vm_compute in third_b (hf_body fn_oread).

Section L.
Context (N d : nat) (ea : bool).

Definition arr_consts (dv : val) : list (list bytes * hval) := (w_elem_type, HM dv) :: consts.
Definition arr_vars (l : list val) : list (bytes * hvar) := [(b "ctx", VarVal HCtx); (b "value", VarVal (HM (VList l)))].

Lemma arr_body : forall (P : val -> Prop) rd dv call, tok_calls N d ea call -> P dv ->
  reads N d P HM (call OName (w_elem ++ [b "read"])) rd ->
  forall nf t l r1 x t1, rd nf t dv = Some (r1, x, t1) -> place N nf t -> (2 * nf + 20 <= d)%nat ->
  forall o, 
  match r1 with
  | PGR_ERROR => hexec N (arr_consts dv) ea CNone call 17 aread_b (mem (arr_vars l) t o) = Some (GReturn (Some (HV (HI IInt 1))), mem (arr_vars l) t1 o)
  | _ => 
    let l1 := match r1 with PGR_OK => l ++ [x] | _ => l end in
    match tk_expect nf T_COMMA t1 with
    | None => True
    | Some (true, t2) => hexec N (arr_consts dv) ea CNone call 17 aread_b (mem (arr_vars l) t o) = Some (GNext, mem (arr_vars l1) t2 o)
    | Some (false, t2) => 
       match tk_expect nf T_ARRE t2 with
       | None => True
       | Some (true, t3) => hexec N (arr_consts dv) ea CNone call 17 aread_b (mem (arr_vars l) t o) = Some (GBreak, mem (arr_vars l1) t3 o)
       | Some (false, t3) => hexec N (arr_consts dv) ea CNone call 17 aread_b (mem (arr_vars l) t o) =
            Some (GReturn (Some (HV (HI IInt 1))), mem (arr_vars l1) (tk_error PGERR_INVALID_ARRAY (b "invalid array") t3) o)
       end
    end
  end.
Proof.
  intros P rd dv call T PD Q nf t l r1 x t1 E M D o. destruct (Q nf t dv r1 x t1 E PD M D) as [L X].
  assert (M1 : place N nf t1) by (eapply place_goes; [|exact M|exact L]; lia).
  Ltac head X := body aread_b; nx; [ev; reflexivity|]; nx; [ev; ext X; ev; reflexivity|]; nx; [eapply g_none; ev; reflexivity|];
    nx; [first [eapply g_if; ev; reflexivity | eapply g_none; ev; reflexivity]|].
  destruct r1.
  2: { eapply g_block; [body aread_b; nx; [ev; reflexivity|]; nx; [ev; ext X; ev; reflexivity|]; rt; eapply g_if; ev; reflexivity|reflexivity]. }
  all: cbv zeta; destruct (tk_expect nf T_COMMA t1) as [[[] t2]|] eqn:C; [| |exact I].
  1, 3: eapply g_block; [head X; nx; [eapply g_none; ev; use (j_expect N d ea call T nf t1 T_COMMA); ev; reflexivity|]; apply seq_end|reflexivity].
  all: assert (M2 : place N nf t2) by (eapply place_goes; [|exact M1|eapply goes_expect; [exact M|]; exact C]; lia).
  all: destruct (tk_expect nf T_ARRE t2) as [[[] t3]|] eqn:F; [| |exact I].
  1, 3: eapply g_block; [head X; eapply seq_break; eapply g_if; [ev; use (j_expect N d ea call T nf t1 T_COMMA); ev; reflexivity|];
      eapply g_block; [cbv [length]; eapply seq_break; eapply g_if; [ev; use (j_expect N d ea call T nf t2 T_ARRE); ev; reflexivity|reflexivity]|ev; reflexivity]|reflexivity].
  all: eapply g_block; [head X; rt; eapply g_if; [ev; use (j_expect N d ea call T nf t1 T_COMMA); ev; reflexivity|];
      eapply g_block; [cbv [length]; nx; [eapply g_none; ev; use (j_expect N d ea call T nf t2 T_ARRE); ev; reflexivity|];
         rt; ev; use (j_error N d ea call T t3 PGERR_INVALID_ARRAY); ev; reflexivity|ev; reflexivity]|reflexivity].
Qed.

Lemma arr_while : forall (P : val -> Prop) rd dv call, tok_calls N d ea call -> P dv ->
  reads N d P HM (call OName (w_elem ++ [b "read"])) rd ->
  forall nf, (2 * nf + 20 <= d)%nat -> forall n t l r l' t', array_loop n nf (rd nf) dv t l = Some (r, l', t') -> place N nf t ->
  goes N t t' /\
  forall k o, (n <= k)%nat -> exists fl,
    while_loop k (hcond (arr_consts dv) ea CNone call aread_c) Some (hexec N (arr_consts dv) ea CNone call 17 aread_b) (mem (arr_vars l) t o) =
      Some (fl, mem (arr_vars l') t' o) /\
    (fl = GReturn (Some (HV (HI IInt (pgr_z r)))) \/ (fl = GNext /\ r = PGR_OK)).
Proof.
  intros P rd dv call T PD Q nf D. induction n as [|n IH]; intros t l r l' t' R M; [discriminate R|]. cbn [array_loop] in R.
  destruct (rd nf t dv) as [[[r1 x] t1]|] eqn:E; [|discriminate R].
  assert (B := arr_body P rd dv call T PD Q nf t l r1 x t1 E M D).
  destruct (Q nf t dv r1 x t1 E PD M D) as [L _].
  assert (CT : forall o, hcond (arr_consts dv) ea CNone call aread_c (mem (arr_vars l) t o) = Some (true, mem (arr_vars l) t o)) by reflexivity.
  destruct (match r1 with PGR_ERROR => true | _ => false end) eqn:K.
  { destruct r1; try discriminate K. injection R as <- <- <-. split; [exact L|]. intros [|k] o KN; [lia|]. rewrite while_loop_S, CT, B.
    eexists. split; [reflexivity|]. left. reflexivity. }
  assert (exists l1, (l1 = match r1 with PGR_OK => l ++ [x] | _ => l end) /\
    match tk_expect nf T_COMMA t1 with
          | None => None
          | Some (true, t2) => array_loop n nf (rd nf) dv t2 l1
          | Some (false, t2) =>
              match tk_expect nf T_ARRE t2 with
              | None => None
              | Some (true, t3) => Some (PGR_OK, l1, t3)
              | Some (false, t3) => rfail PGERR_INVALID_ARRAY (b "invalid array") l1 t3
              end
          end = Some (r, l', t') /\ forall o,
    match tk_expect nf T_COMMA t1 with
    | None => True
    | Some (true, t2) => hexec N (arr_consts dv) ea CNone call 17 aread_b (mem (arr_vars l) t o) = Some (GNext, mem (arr_vars l1) t2 o)
    | Some (false, t2) => 
       match tk_expect nf T_ARRE t2 with
       | None => True
       | Some (true, t3) => hexec N (arr_consts dv) ea CNone call 17 aread_b (mem (arr_vars l) t o) = Some (GBreak, mem (arr_vars l1) t3 o)
       | Some (false, t3) => hexec N (arr_consts dv) ea CNone call 17 aread_b (mem (arr_vars l) t o) =
            Some (GReturn (Some (HV (HI IInt 1))), mem (arr_vars l1) (tk_error PGERR_INVALID_ARRAY (b "invalid array") t3) o)
       end
    end) as [l1 [_ [R1 B1]]].
  { destruct r1; try discriminate K; (eexists; split; [reflexivity|split; [exact R|exact B]]). }
  clear R B K. destruct (tk_expect nf T_COMMA t1) as [[c t2]|] eqn:C; [|discriminate R1].
  assert (L2 := goes_trans _ _ _ _ L (goes_expect _ _ _ _ _ _ _ M C)).
  destruct c.
  - assert (M2 : place N nf t2) by (eapply place_goes; [|exact M|exact L2]; lia).
    destruct (IH t2 l1 r l' t' R1 M2) as [L3 W]. split; [eapply goes_trans; eassumption|].
    intros [|k] o KN; [lia|]. destruct (W k o) as [fl [W1 W2]]; [lia|]. exists fl. split; [|exact W2].
    rewrite while_loop_S, CT, B1. exact W1.
  - destruct (tk_expect nf T_ARRE t2) as [[c t3]|] eqn:F; [|discriminate R1].
    assert (L3 := goes_trans _ _ _ _ L2 (goes_expect _ _ _ _ _ _ _ M F)).
    destruct c; injection R1 as <- <- <-; (split; [try apply goes_error; exact L3|]);
      intros [|k] o KN; try lia; rewrite while_loop_S, CT, B1; eexists; (split; [reflexivity|]); auto.
Qed.

Lemma tk_not_nil : forall A t (x y : A), match tk_id t with T_NIL => x | _ => y end = if tid_z (t_id (tk_cur t)) =? 9 then x else y.
Proof. intros A t x y. unfold tk_id. destruct (t_id (tk_cur t)); reflexivity. Qed.

Lemma aread : forall (P : val -> Prop) rd dv call, tok_calls N d ea call -> P dv ->
  reads N d P HM (call OName (w_elem ++ [b "read"])) rd ->
  reads N d (fun _ => True) (fun l => HM (VList l)) (run_fun N (arr_consts dv) ea CNone call fn_aread) (fun n => read_array n (rd n) dv).
Proof.
  intros P rd dv call T PD Q n t l r l' t' R _ M D. unfold read_array in R. rewrite tk_not_nil in R.
  destruct (tid_z (t_id (tk_cur t)) =? 9) eqn:E.
  { injection R as <- <- <-. split; [apply goes_refl|]. intros vars a x o A G.
    eapply (run_ref N _ ea call fn_aread (b "value")); [reflexivity|exact A|exact G|reflexivity| | | ].
    { body fn_aread. rt. eapply g_if; [ev; use (j_peek N d ea call T t); ev; rewrite E; reflexivity|ev; reflexivity]. }
    all: reflexivity. }
  assert (E1 : forall o, hexec N (arr_consts dv) ea CNone call 20 (match hf_body fn_aread with x :: _ => x | _ => TBreak end) (mem (arr_vars l) t o) = Some (GNext, mem (arr_vars l) t o)).
  { intros o. cbv [hf_body fn_aread]. eapply g_none. ev. use (j_peek N d ea call T t). ev. rewrite E. reflexivity. }
  destruct (tk_expect n T_ARRS t) as [[c t1]|] eqn:X1; [|discriminate R]. assert (L1 := goes_expect _ _ _ _ _ _ _ M X1).
  destruct c.
  2: { injection R as <- <- <-. split; [apply goes_error; exact L1|]. intros vars a x o A G.
    eapply (run_ref N _ ea call fn_aread (b "value")); [reflexivity|exact A|exact G|reflexivity| | | ].
    { body fn_aread. nx; [apply E1|]. rt. eapply g_if; [ev; use (j_expect N d ea call T n t T_ARRS); ev; reflexivity|].
      ev; use (j_error N d ea call T t1 PGERR_INVALID_ARRAY); ev; reflexivity. }
    all: reflexivity. }
  assert (M1 : place N n t1) by (eapply place_goes; [|exact M|exact L1]; lia).
  destruct (tk_expect n T_ARRE t1) as [[c t2]|] eqn:X2; [|discriminate R]. assert (L2 := goes_trans _ _ _ _ L1 (goes_expect _ _ _ _ _ _ _ M X2)).
  destruct c.
  { injection R as <- <- <-. split; [exact L2|]. intros vars a x o A G.
    eapply (run_ref N _ ea call fn_aread (b "value")); [reflexivity|exact A|exact G|reflexivity| | | ].
    { body fn_aread. nx; [apply E1|]. nx; [eapply g_none; ev; use (j_expect N d ea call T n t T_ARRS); ev; reflexivity|].
      nx; [eapply g_none; ev; use (j_expect N d ea call T n t1 T_ARRE); ev; reflexivity|]. rt. ev. reflexivity. }
    all: reflexivity. }
  assert (M2 : place N n t2) by (eapply place_goes; [|exact M|exact L2]; lia).
  destruct (arr_while P rd dv call T PD Q n D n t2 l r l' t' R M2) as [L3 W]. split; [eapply goes_trans; eassumption|].
  intros vars a x o A G. destruct (W N o) as [fl [W1 W2]]; [apply M|].
  destruct W2 as [->|[-> ->]]; (eapply (run_ref N _ ea call fn_aread (b "value")); [reflexivity|exact A|exact G|reflexivity| | | ]).
  1: { body fn_aread. nx; [apply E1|]. nx; [eapply g_none; ev; use (j_expect N d ea call T n t T_ARRS); ev; reflexivity|].
    rt. eapply g_if; [ev; use (j_expect N d ea call T n t1 T_ARRE); ev; reflexivity|].
    eapply g_block; [cbv [length]; rt; rewrite g_while; exact W1|reflexivity]. }
  3: { body fn_aread. nx; [apply E1|]. nx; [eapply g_none; ev; use (j_expect N d ea call T n t T_ARRS); ev; reflexivity|].
    nx.
    + eapply g_if; [ev; use (j_expect N d ea call T n t1 T_ARRE); ev; reflexivity|].
      eapply g_block; [cbv [length]; nx; [rewrite g_while; exact W1|apply seq_end]|reflexivity].
    + rt. ev. reflexivity. }
  all: reflexivity.
Qed.

(** ** Messages *)
Definition obj_vars (vs : list val) : list (bytes * hvar) := [(b "ctx", VarVal HCtx); (b "object", VarVal (HM (VMsg vs)))].
(** [f] reads the member of a name. *)
Definition reads_member (P : list val -> Prop) (f : list hres -> hst -> option (hres * hst)) (rf : nat -> bytes -> tokenizer -> list val -> rres (list val)) : Prop :=
  forall n name t v r v' t', rf n name t v = Some (r, v', t') -> P v -> place N n t -> (2 * n + 20 <= d)%nat ->
  goes N t t' /\ P v' /\
  forall vars o, assoc vars (b "ctx") = Some (VarVal HCtx) -> assoc vars (b "name") = Some (VarVal (HS name)) -> assoc vars (b "object") = Some (VarVal (HM (VMsg v))) ->
    f [HL (RVar (b "ctx")) []; HL (RVar (b "name")) []; HL (RVar (b "object")) []] (mem vars t o) =
    Some (HV (HI IInt (pgr_z r)), mem (update vars (b "object") (VarVal (HM (VMsg v')))) t' o).

Notation runs call vs t o R := (hexec N consts ea CNone call 17 oread_b (mem (obj_vars vs) t o) = Some R).

(** What one round does; [object_loop] in one step. *)
Definition round (rf : nat -> bytes -> tokenizer -> list val -> rres (list val)) (nf : nat) (t : tokenizer) (vs : list val)
  : option (hflow * pgr * list val * tokenizer) :=
  match tk_expect nf T_STRING t with
  | None => None
  | Some (false, t1) => Some (GReturn (Some (HV (HI IInt 1))), PGR_ERROR, vs, tk_error PGERR_INVALID_NAME (b "object key must be string") t1)
  | Some (true, t1) =>
      match tk_expect nf T_COLON t1 with
      | None => None
      | Some (false, t2) => Some (GReturn (Some (HV (HI IInt 1))), PGR_ERROR, vs, tk_error PGERR_INVALID_SEPARATOR (b "field name and value must be separated by ':'") t2)
      | Some (true, t2) =>
          match rf nf (t_val (tk_cur t)) t2 vs with
          | None => None
          | Some (PGR_ERROR, vs1, t3) => Some (GReturn (Some (HV (HI IInt 1))), PGR_ERROR, vs1, t3)
          | Some (r, vs1, t3) =>
              match (match r with PGR_OK => Some (PGR_OK, t3) | _ => ignore_value nf t3 end) with
              | None => None
              | Some (PGR_ERROR, t4) => Some (GReturn (Some (HV (HI IInt 1))), PGR_ERROR, vs1, t4)
              | Some (_, t4) =>
                  match tk_expect nf T_COMMA t4 with
                  | None => None
                  | Some (true, t5) => Some (GContinue, PGR_OK, vs1, t5)
                  | Some (false, t5) =>
                      match tk_expect nf T_OBJE t5 with
                      | None => None
                      | Some (true, t6) => Some (GBreak, PGR_OK, vs1, t6)
                      | Some (false, t6) => Some (GReturn (Some (HV (HI IInt 1))), PGR_ERROR, vs1, tk_error PGERR_INVALID_OBJECT (b "invalid JSON object") t6)
                      end
                  end
              end
          end
      end
  end.
Lemma object_round : forall rf n nf t vs, object_loop (S n) nf (rf nf) t vs =
  match round rf nf t vs with
  | None => None
  | Some (GContinue, _, vs', t') => object_loop n nf (rf nf) t' vs'
  | Some (_, r, vs', t') => Some (r, vs', t')
  end.
Proof.
  intros. cbn [object_loop]. unfold round, rfail.
  repeat match goal with
  | |- context [match tk_expect ?a ?x ?y with _ => _ end] => destruct (tk_expect a x y) as [[[] ?]|]; try reflexivity
  | |- context [match rf ?a ?x ?y ?z with _ => _ end] => destruct (rf a x y z) as [[[[] ?] ?]|]; try reflexivity
  | |- context [match ignore_value ?a ?x with _ => _ end] => destruct (ignore_value a x) as [[[] ?]|]; try reflexivity
  end.
Qed.
Lemma obj_body : forall (P : list val -> Prop) rf call, tok_calls N d ea call ->
  reads_member P (call OName (w_J ++ [b "read_field"])) rf ->
  forall nf t vs fl r vs' t', round rf nf t vs = Some (fl, r, vs', t') -> P vs -> place N nf t -> (2 * nf + 20 <= d)%nat ->
  goes N t t' /\ P vs' /\ forall o, runs call vs t o (fl, mem (obj_vars vs') t' o).
Proof.
  intros P rf call T Q nf t vs fl r vs' t' R K M D. unfold round in R.
  assert (E0 : forall o, hexec N consts ea CNone call 16 (match oread_b with TBlock (x :: _) => x | _ => TBreak end) (mem (obj_vars vs) t o) =
     Some (GNext, mem ((b "name", VarVal (HS (t_val (tk_cur t)))) :: obj_vars vs) t o)).
  { intros o. cbv [oread_b]. ev. use (j_peek N d ea call T t). ev. reflexivity. }
  destruct (tk_expect nf T_STRING t) as [[c t1]|] eqn:X1; [|discriminate R]. assert (L1 := goes_expect _ _ _ _ _ _ _ M X1).
  destruct c.
  2: { injection R as <- <- <- <-. split; [apply goes_error; exact L1|]. split; [exact K|]. intros o.
    eapply g_block; [body oread_b; nx; [apply E0|]; rt; eapply g_if; [ev; use (j_expect N d ea call T nf t T_STRING); ev; reflexivity|];
      ev; use (j_error N d ea call T t1 PGERR_INVALID_NAME); ev; reflexivity|reflexivity]. }
  assert (M1 : place N nf t1) by (eapply place_goes; [|exact M|exact L1]; lia).
  destruct (tk_expect nf T_COLON t1) as [[c t2]|] eqn:X2; [|discriminate R]. assert (L2 := goes_trans _ _ _ _ L1 (goes_expect _ _ _ _ _ _ _ M X2)).
  destruct c.
  2: { injection R as <- <- <- <-. split; [apply goes_error; exact L2|]. split; [exact K|]. intros o.
    eapply g_block; [body oread_b; nx; [apply E0|]; nx; [eapply g_none; ev; use (j_expect N d ea call T nf t T_STRING); ev; reflexivity|];
      rt; eapply g_if; [ev; use (j_expect N d ea call T nf t1 T_COLON); ev; reflexivity|];
      ev; use (j_error N d ea call T t2 PGERR_INVALID_SEPARATOR); ev; reflexivity|reflexivity]. }
  assert (M2 : place N nf t2) by (eapply place_goes; [|exact M|exact L2]; lia).
  destruct (rf nf (t_val (tk_cur t)) t2 vs) as [[[r1 vs1] t3]|] eqn:F; [|discriminate R].
  destruct (Q nf (t_val (tk_cur t)) t2 vs r1 vs1 t3 F K M2 D) as [L3' [K1 X3]]. assert (L3 := goes_trans _ _ _ _ L2 L3'). clear L3'.
  assert (M3 : place N nf t3) by (eapply place_goes; [|exact M|exact L3]; lia).
  pose (env z := (b "result", VarVal (HI IInt z)) :: (b "name", VarVal (HS (t_val (tk_cur t)))) :: obj_vars vs1).
  assert (B : forall o fl z tz, 
    seq_loop (hexec N consts ea CNone call 16) 6 (match oread_b with TBlock (_ :: _ :: _ :: _ :: l) => l | _ => [] end) (mem (env (pgr_z r1)) t3 o) =
       Some (fl, mem (env z) tz o) -> runs call vs t o (fl, mem (obj_vars vs1) tz o)).
  { intros o fl0 z tz H. unfold env in H. eapply g_block; [body oread_b; nx; [apply E0|];
      nx; [eapply g_none; ev; use (j_expect N d ea call T nf t T_STRING); ev; reflexivity|];
      nx; [eapply g_none; ev; use (j_expect N d ea call T nf t1 T_COLON); ev; reflexivity|];
      nx; [ev; ext X3; ev; reflexivity|]; exact H|reflexivity]. }
  destruct (match r1 with PGR_ERROR => true | _ => false end) eqn:KE.
  { destruct r1; try discriminate KE. injection R as <- <- <- <-. split; [exact L3|]. split; [exact K1|]. intros o.
    apply (B o _ 1 t3). unfold oread_b, env. rt. eapply g_if; ev; reflexivity. }
  (* the value that is skipped *)
  assert (R' : match (match r1 with PGR_OK => Some (PGR_OK, t3) | _ => ignore_value nf t3 end) with
              | None => None
              | Some (PGR_ERROR, t4) => Some (GReturn (Some (HV (HI IInt 1))), PGR_ERROR, vs1, t4)
              | Some (_, t4) =>
                  match tk_expect nf T_COMMA t4 with
                  | None => None
                  | Some (true, t5) => Some (GContinue, PGR_OK, vs1, t5)
                  | Some (false, t5) =>
                      match tk_expect nf T_OBJE t5 with
                      | None => None
                      | Some (true, t6) => Some (GBreak, PGR_OK, vs1, t6)
                      | Some (false, t6) => Some (GReturn (Some (HV (HI IInt 1))), PGR_ERROR, vs1, tk_error PGERR_INVALID_OBJECT (b "invalid JSON object") t6)
                      end
                  end
              end = Some (fl, r, vs', t')) by (destruct r1; try discriminate KE; exact R).
  clear R. destruct (match r1 with PGR_OK => Some (PGR_OK, t3) | _ => ignore_value nf t3 end) as [[r2 t4]|] eqn:Y; [|discriminate R'].
  assert (L4 : goes N t t4).
  { destruct r1; [injection Y as <- <-; exact L3|discriminate KE|].
    eapply goes_trans; [exact L3|]. eapply goes_ignore; eassumption. }
  assert (M4 : place N nf t4) by (eapply place_goes; [|exact M|exact L4]; lia).
  destruct (match r2 with PGR_ERROR => true | _ => false end) eqn:KE2.
  { destruct r2; try discriminate KE2. injection R' as <- <- <- <-. split; [exact L4|]. split; [exact K1|]. intros o.
    apply (B o _ 1 t4). unfold oread_b, env. destruct r1; try discriminate KE; [discriminate Y|].
    nx; [eapply g_none; ev; reflexivity|]. rt. eapply g_if; [ev; reflexivity|].
    eapply g_block; [cbv [length]; nx; [ev; use (j_ignore N d ea call T nf t3); ev; reflexivity|]; rt; eapply g_if; ev; reflexivity|ev; reflexivity]. }
  assert (B2 : forall o fl tz, (forall z, 
    seq_loop (hexec N consts ea CNone call 16) 4 (match oread_b with TBlock (_ :: _ :: _ :: _ :: _ :: _ :: l) => l | _ => [] end) (mem (env z) t4 o) =
       Some (fl, mem (env z) tz o)) -> runs call vs t o (fl, mem (obj_vars vs1) tz o)).
  { intros o fl0 tz H. destruct r1; try discriminate KE.
    - injection Y as <- <-. apply (B o fl0 0 tz). unfold oread_b. nx; [eapply g_none; ev; reflexivity|]. nx; [eapply g_none; ev; reflexivity|]. exact (H 0).
    - apply (B o fl0 (pgr_z r2) tz). unfold oread_b, env. nx; [eapply g_none; ev; reflexivity|].
      destruct r2; try discriminate KE2; (nx; [eapply g_if; [ev; reflexivity|];
        eapply g_block; [cbv [length]; nx; [ev; use (j_ignore N d ea call T nf t3); ev; reflexivity|]; nx; [eapply g_none; ev; reflexivity|]; apply seq_end|ev; reflexivity]|]; exact (H _)). }
  assert (R2 : match tk_expect nf T_COMMA t4 with
                  | None => None
                  | Some (true, t5) => Some (GContinue, PGR_OK, vs1, t5)
                  | Some (false, t5) =>
                      match tk_expect nf T_OBJE t5 with
                      | None => None
                      | Some (true, t6) => Some (GBreak, PGR_OK, vs1, t6)
                      | Some (false, t6) => Some (GReturn (Some (HV (HI IInt 1))), PGR_ERROR, vs1, tk_error PGERR_INVALID_OBJECT (b "invalid JSON object") t6)
                      end
                  end = Some (fl, r, vs', t')) by (destruct r2; try discriminate KE2; exact R').
  clear R' B. destruct (tk_expect nf T_COMMA t4) as [[c t5]|] eqn:X5; [|discriminate R2]. assert (L5 := goes_trans _ _ _ _ L4 (goes_expect _ _ _ _ _ _ _ M X5)).
  destruct c.
  { injection R2 as <- <- <- <-. split; [exact L5|]. split; [exact K1|]. intros o. apply B2. intros z. unfold oread_b, env.
    eapply g_continue. eapply g_if; [ev; use (j_expect N d ea call T nf t4 T_COMMA); ev; reflexivity|reflexivity]. }
  assert (M5 : place N nf t5) by (eapply place_goes; [|exact M|exact L5]; lia).
  destruct (tk_expect nf T_OBJE t5) as [[c t6]|] eqn:X6; [|discriminate R2]. assert (L6 := goes_trans _ _ _ _ L5 (goes_expect _ _ _ _ _ _ _ M X6)).
  destruct c; injection R2 as <- <- <- <-; (split; [try apply goes_error; exact L6|]); (split; [exact K1|]); intros o; apply B2; intros z; unfold oread_b, env;
    (nx; [eapply g_none; ev; use (j_expect N d ea call T nf t4 T_COMMA); ev; reflexivity|]).
  - eapply seq_break. eapply g_if; [ev; use (j_expect N d ea call T nf t5 T_OBJE); ev; reflexivity|reflexivity].
  - nx; [eapply g_none; ev; use (j_expect N d ea call T nf t5 T_OBJE); ev; reflexivity|]. rt.
    ev; use (j_error N d ea call T t6 PGERR_INVALID_OBJECT); ev; reflexivity.
Qed.
Lemma obj_while : forall (P : list val -> Prop) rf call, tok_calls N d ea call ->
  reads_member P (call OName (w_J ++ [b "read_field"])) rf ->
  forall nf, (2 * nf + 20 <= d)%nat -> forall n t vs r vs' t', object_loop n nf (rf nf) t vs = Some (r, vs', t') -> P vs -> place N nf t ->
  goes N t t' /\
  forall k o, (n <= k)%nat -> exists fl,
    while_loop k (hcond consts ea CNone call oread_c) Some (hexec N consts ea CNone call 17 oread_b) (mem (obj_vars vs) t o) =
      Some (fl, mem (obj_vars vs') t' o) /\
    (fl = GReturn (Some (HV (HI IInt (pgr_z r)))) \/ (fl = GNext /\ r = PGR_OK)).
Proof.
  intros P rf call T Q nf D. induction n as [|n IH]; intros t vs r vs' t' R K M; [discriminate R|]. rewrite object_round in R.
  destruct (round rf nf t vs) as [[[[fl r1] vs1] t1]|] eqn:E; [|discriminate R].
  destruct (obj_body P rf call T Q nf t vs fl r1 vs1 t1 E K M D) as [L [K1 B]].
  assert (CT : forall o, hcond consts ea CNone call oread_c (mem (obj_vars vs) t o) = Some (true, mem (obj_vars vs) t o)) by reflexivity.
  assert (F : fl = GContinue \/ (fl = GBreak /\ r1 = PGR_OK) \/ (fl = GReturn (Some (HV (HI IInt 1))) /\ r1 = PGR_ERROR)).
  { clear - E. unfold round in E. repeat match type of E with
    | match ?x with _ => _ end = _ => destruct x; try discriminate E
    | Some _ = _ => injection E as <- <- _ _
    end; auto. }
  destruct F as [->|[[-> ->]|[-> ->]]].
  - assert (M1 : place N nf t1) by (eapply place_goes; [|exact M|exact L]; lia).
    destruct (IH t1 vs1 r vs' t' R K1 M1) as [L3 W]. split; [eapply goes_trans; eassumption|].
    intros [|k] o KN; [lia|]. destruct (W k o) as [fl [W1 W2]]; [lia|]. exists fl. split; [|exact W2].
    rewrite while_loop_S, CT, B. exact W1.
  - injection R as <- <- <-. split; [exact L|]. intros [|k] o KN; [lia|]. rewrite while_loop_S, CT, B. eexists. split; [reflexivity|]. auto.
  - injection R as <- <- <-. split; [exact L|]. intros [|k] o KN; [lia|]. rewrite while_loop_S, CT, B. eexists. split; [reflexivity|]. auto.
Qed.
Lemma oread : forall (P : list val -> Prop) rf call, tok_calls N d ea call ->
  reads_member P (call OName (w_J ++ [b "read_field"])) rf ->
  reads N d P (fun l => HM (VMsg l)) (run_fun N consts ea CNone call fn_oread) (fun n => read_object n (rf n)).
Proof.
  intros P rf call T Q n t l r l' t' R K M D. unfold read_object in R. rewrite tk_not_nil in R.
  destruct (tid_z (t_id (tk_cur t)) =? 9) eqn:E.
  { injection R as <- <- <-. split; [apply goes_refl|]. intros vars a x o A G.
    eapply (run_ref N _ ea call fn_oread (b "object")); [reflexivity|exact A|exact G|reflexivity| | | ].
    { body fn_oread. rt. eapply g_if; [ev; use (j_peek N d ea call T t); ev; rewrite E; reflexivity|ev; reflexivity]. }
    all: reflexivity. }
  assert (E1 : forall o, hexec N consts ea CNone call 20 (match hf_body fn_oread with x :: _ => x | _ => TBreak end) (mem (obj_vars l) t o) = Some (GNext, mem (obj_vars l) t o)).
  { intros o. cbv [hf_body fn_oread]. eapply g_none. ev. use (j_peek N d ea call T t). ev. rewrite E. reflexivity. }
  destruct (tk_expect n T_OBJS t) as [[c t1]|] eqn:X1; [|discriminate R]. assert (L1 := goes_expect _ _ _ _ _ _ _ M X1).
  destruct c.
  2: { injection R as <- <- <-. split; [apply goes_error; exact L1|]. intros vars a x o A G.
    eapply (run_ref N _ ea call fn_oread (b "object")); [reflexivity|exact A|exact G|reflexivity| | | ].
    { body fn_oread. nx; [apply E1|]. rt. eapply g_if; [ev; use (j_expect N d ea call T n t T_OBJS); ev; reflexivity|].
      ev; use (j_error N d ea call T t1 PGERR_INVALID_OBJECT); ev; reflexivity. }
    all: reflexivity. }
  assert (M1 : place N n t1) by (eapply place_goes; [|exact M|exact L1]; lia).
  destruct (tk_expect n T_OBJE t1) as [[c t2]|] eqn:X2; [|discriminate R]. assert (L2 := goes_trans _ _ _ _ L1 (goes_expect _ _ _ _ _ _ _ M X2)).
  destruct c.
  { injection R as <- <- <-. split; [exact L2|]. intros vars a x o A G.
    eapply (run_ref N _ ea call fn_oread (b "object")); [reflexivity|exact A|exact G|reflexivity| | | ].
    { body fn_oread. nx; [apply E1|]. nx; [eapply g_none; ev; use (j_expect N d ea call T n t T_OBJS); ev; reflexivity|].
      nx; [eapply g_none; ev; use (j_expect N d ea call T n t1 T_OBJE); ev; reflexivity|]. rt. ev. reflexivity. }
    all: reflexivity. }
  assert (M2 : place N n t2) by (eapply place_goes; [|exact M|exact L2]; lia).
  destruct (obj_while P rf call T Q n D n t2 l r l' t' R K M2) as [L3 W]. split; [eapply goes_trans; eassumption|].
  intros vars a x o A G. destruct (W N o) as [fl [W1 W2]]; [apply M|].
  destruct W2 as [->|[-> ->]]; (eapply (run_ref N _ ea call fn_oread (b "object")); [reflexivity|exact A|exact G|reflexivity| | | ]).
  1: { body fn_oread. nx; [apply E1|]. nx; [eapply g_none; ev; use (j_expect N d ea call T n t T_OBJS); ev; reflexivity|].
    rt. eapply g_if; [ev; use (j_expect N d ea call T n t1 T_OBJE); ev; reflexivity|].
    eapply g_block; [cbv [length]; rt; rewrite g_while; exact W1|reflexivity]. }
  3: { body fn_oread. nx; [apply E1|]. nx; [eapply g_none; ev; use (j_expect N d ea call T n t T_OBJS); ev; reflexivity|].
    nx.
    + eapply g_if; [ev; use (j_expect N d ea call T n t1 T_OBJE); ev; reflexivity|].
      eapply g_block; [cbv [length]; nx; [rewrite g_while; exact W1|]; nx; [reflexivity|]; apply seq_end|reflexivity].
    + rt. ev. reflexivity. }
  all: reflexivity.
Qed.
End L.
