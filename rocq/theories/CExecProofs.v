(** What the functions of the generated classes do, from their bodies. *)
From Coq Require Import Lia.
From Verif Require Import Bytes Num Types Stream Tokenizer Read Write Cpp SpecCpp CLex CParse CExec SpecText BaseProofs ProgramProofs CLexProofs CParseProofs CDeclProofs.

Lemma same_iff x y : same x y = bytes_eqb x y.
Proof. destruct (same x y) eqn:E; [apply same_true in E as ->; symmetry; apply bytes_eqb_refl|]. symmetry. apply bytes_eqb_false. intros ->. now rewrite same_refl in E. Qed.

(** ** Positions of members *)
Lemma member_pos_nth names m k : member_pos names m = Some k -> nth_error names k = Some m.
Proof.
  revert k. induction names as [|x r IH]; intros k E; [discriminate|]. cbn [member_pos] in E. destruct (bytes_eqb x m) eqn:X.
  - apply bytes_eqb_true in X as ->. injection E as <-. reflexivity.
  - destruct (member_pos r m) as [j|]; [|discriminate]. injection E as <-. now apply IH.
Qed.
Lemma member_pos_app pre m suf : NoDup (pre ++ m :: suf) -> member_pos (pre ++ m :: suf) m = Some (length pre).
Proof.
  induction pre as [|x pre IH]; intros N; cbn [app member_pos length]; [now rewrite bytes_eqb_refl|].
  inversion N as [|? ? A B]. subst. rewrite (IH B). cbn [option_map]. replace (bytes_eqb x m) with false; [reflexivity|].
  symmetry. apply bytes_eqb_false. intros ->. apply A, in_or_app. right. now left.
Qed.
Lemma nth_app_here {A} (u : list A) x w : nth_error (u ++ x :: w) (length u) = Some x.
Proof. induction u; [reflexivity|assumption]. Qed.
Lemma set_nth_app {A} (u : list A) x y w : set_nth (length u) y (u ++ x :: w) = u ++ y :: w.
Proof. induction u as [|z u IH]; [reflexivity|]. cbn [length app set_nth]. now rewrite IH. Qed.

Section Exec.
  Context (sn : bool) (names : list bytes) (fns : list mfun) (call : bytes -> list cval -> cexec -> option (cval * cexec)).
  Notation eval := (eval sn names fns call).
  Notation exec := (exec sn names fns call).
  Notation run := (run sn names fns call).

  Lemma run_app l r s : run (l ++ r) s = match run l s with Some (FNext, s1) => run r s1 | x => x end.
  Proof. revert s. induction l as [|st l IH]; intros s; [reflexivity|]. cbn [app CExec.run]. destruct (exec st s) as [[[] s1]|]; [apply IH|reflexivity|reflexivity]. Qed.

  (** ** Calls of the functions of a member *)
  Fixpoint evals (l : list expr) (s : cexec) : option (list cval * cexec) :=
    match l with
    | [] => Some ([], s)
    | e :: r => match eval e s with
                | Some (x, s1) => match evals r s1 with Some (xs, s2) => Some (x :: xs, s2) | None => None end
                | None => None
                end
    end.
  Lemma eval_json o m g args s : eval (XCall (XJson (XDot (XName o) m) g) args) s =
    match assoc (x_vars s) o, member_pos names m, evals args s with
    | Some (WObj _ _), Some k, Some (xs, s1) => member_call fns k g xs s1
    | _, _, _ => None
    end.
  Proof. reflexivity. Qed.
  Lemma eval_name x w s : assoc (x_vars s) x = Some w -> eval (XName x) s = Some (w, s).
  Proof. intros E. cbn [CExec.eval]. now rewrite E. Qed.
  Section Call.
    Context (s : cexec) (m : bytes) (k : nat) (mf : mfun) (M : member_pos names m = Some k) (F : nth_error fns k = Some mf).

    Lemma eval_member obj ro o : assoc (x_vars s) (b obj) = Some (WObj ro o) -> eval (memberE obj m) s = Some (WMember ro o k, s).
    Proof. intros A. unfold memberE. cbn [CExec.eval]. rewrite A. cbn [dot]. rewrite M. reflexivity. Qed.

    Lemma eval_call1 obj f ro o : assoc (x_vars s) (b obj) = Some (WObj ro o) ->
      eval (callE obj f m [memberE obj m]) s = member_call fns k (b f) [WMember ro o k] s.
    Proof. intros A. unfold callE at 1. unfold memberE at 1. rewrite eval_json, A, M. cbn [evals]. now rewrite (eval_member _ _ _ A). Qed.
    Lemma eval_call2 f ro o ro' o' : assoc (x_vars s) (b "a") = Some (WObj ro o) -> assoc (x_vars s) (b "b") = Some (WObj ro' o') ->
      eval (callE "a" f m [memberE "a" m; memberE "b" m]) s = member_call fns k (b f) [WMember ro o k; WMember ro' o' k] s.
    Proof. intros A B. unfold callE at 1. unfold memberE at 1. rewrite eval_json, A, M. cbn [evals]. now rewrite (eval_member _ _ _ A), (eval_member _ _ _ B). Qed.
    Lemma eval_callx f ro o : assoc (x_vars s) (b "value") = Some (WObj ro o) -> assoc (x_vars s) (b "ctx") = Some WCtx ->
      eval (callE "value" f m [XName (b "ctx"); memberE "value" m]) s = member_call fns k (b f) [WCtx; WMember ro o k] s.
    Proof. intros A B. unfold callE at 1. unfold memberE at 1. rewrite eval_json, A, M. cbn [evals]. now rewrite (eval_name _ _ _ B), (eval_member _ _ _ A). Qed.

    Lemma eval_empty ro o v : assoc (x_vars s) (b "value") = Some (WObj ro o) -> get_member s o k = Some v ->
      eval (emptyE m) s = Some (WBool (f_empty mf v), s).
    Proof. intros A G. unfold emptyE. rewrite (eval_call1 "value" "empty" ro o A). unfold member_call. rewrite F, G. reflexivity. Qed.
    Lemma eval_clear o v : assoc (x_vars s) (b "value") = Some (WObj false o) -> get_member s o k = Some v ->
      exec (clearS m) s = Some (FNext, set_member s o k (f_clear mf v)).
    Proof. intros A G. unfold clearS. cbn [CExec.exec]. rewrite (eval_call1 "value" "clear" false o A). unfold member_call. rewrite F, G. reflexivity. Qed.
    Lemma eval_equal ro o ro' o' v v' : assoc (x_vars s) (b "a") = Some (WObj ro o) -> assoc (x_vars s) (b "b") = Some (WObj ro' o') ->
      get_member s o k = Some v -> get_member s o' k = Some v' -> eval (equalE m) s = Some (WBool (f_equal mf v v'), s).
    Proof. intros A B G H. unfold equalE. rewrite (eval_call2 "equal" ro o ro' o' A B). unfold member_call. rewrite F, G, H. reflexivity. Qed.
    Lemma eval_swap o o' v v' : assoc (x_vars s) (b "a") = Some (WObj false o) -> assoc (x_vars s) (b "b") = Some (WObj false o') -> same o o' = false ->
      get_member s o k = Some v -> get_member s o' k = Some v' ->
      exec (swapS m) s = Some (FNext, let '(w, w') := f_swap mf v v' in set_member (set_member s o k w) o' k w').
    Proof. intros A B D G H. unfold swapS. cbn [CExec.exec]. rewrite (eval_call2 "swap" false o false o' A B). unfold member_call. rewrite F, G, H, D. cbn. now destruct (f_swap mf v v'). Qed.
  End Call.

  (** ** Conjunctions *)
  Lemma eval_conj (f : bytes -> expr) (p : bytes -> bool) s l : (forall m, In m l -> eval (f m) s = Some (WBool (p m), s)) ->
    eval (conjE f l) s = Some (WBool (forallb p l), s).
  Proof.
    intros H. unfold conjE.
    assert (G : forall l e u, (forall m, In m l -> eval (f m) s = Some (WBool (p m), s)) -> eval e s = Some (WBool u, s) ->
      eval (fold_left (XOp (b "&&")) (map f l ++ [XBool true]) e) s = Some (WBool (u && forallb p l), s)).
    { clear. induction l as [|m l IH]; intros e u H E.
      - cbn [map app fold_left forallb]. cbn [CExec.eval]. rewrite E. now destruct u.
      - cbn [map app fold_left forallb]. rewrite andb_assoc. apply IH; [intros; apply H; now right|].
        change (eval (XOp (b "&&") e (f m)) s) with (match eval e s with
          | Some (WBool u, s1) => if u then match eval (f m) s1 with Some (WBool v, s2) => Some (WBool v, s2) | _ => None end else Some (WBool false, s1)
          | Some (u, s1) => match eval (f m) s1 with Some (v, s2) => operate (b "&&") u v s2 | None => None end
          | None => None end). rewrite E. destruct u; [|reflexivity]. now rewrite (H m) by now left. }
    destruct l as [|m l]; [reflexivity|]. cbn [map app]. apply G; [intros; apply H; now right|apply H; now left].
  Qed.

  (** ** Switches *)
  Fixpoint seq (from : stmt -> bool) (l : list stmt) (s : cexec) : option (flow * cexec) :=
    match l with
    | [] => Some (FNext, s)
    | st :: r => if from st then
                   match exec st s with
                   | Some (FNext, s1) => seq (fun _ => true) r s1
                   | x => x
                   end
                 else seq from r s
    end.
  Lemma exec_switch e l s : exec (SSwitch e l) s =
    match eval e s with
    | Some (WInt z, s1) =>
        if distinct (case_labels l) then
          match seq (if existsb (is_case z) l then is_case z else is_default) l s1 with
          | Some (f, s2) => Some (f, leave s1 s2)
          | None => None
          end
        else None
    | _ => None
    end.
  Proof. reflexivity. Qed.
  Lemma exec_if c st s : exec (SIf c st) s = match eval c s with Some (WBool u, s1) => if u then exec st s1 else Some (FNext, s1) | _ => None end.
  Proof. reflexivity. Qed.
  Lemma exec_block l s : exec (SBlock l) s = match seq (fun _ => true) l s with Some (f, s1) => Some (f, leave s s1) | None => None end.
  Proof. reflexivity. Qed.
  Lemma seq_run l s : seq (fun _ => true) l s = run l s.
  Proof. revert s. induction l as [|st l IH]; intros s; [reflexivity|]. cbn [seq CExec.run]. destruct (exec st s) as [[[] s1]|]; auto. Qed.
  Lemma leave_same s s' : length (x_vars s') = length (x_vars s) -> leave s s' = s'.
  Proof. intros E. unfold leave. rewrite E, Nat.sub_diag. now destruct s'. Qed.

  Fixpoint choose {A} (l : list (Z * A)) (z : Z) : option A :=
    match l with [] => None | (j, k) :: r => if j =? z then Some k else choose r z end.
  Lemma distinct_nodup l : NoDup l -> distinct l = true.
  Proof.
    induction l as [|z l IH]; intros N; [reflexivity|]. inversion N as [|? ? A B]. subst. cbn [distinct]. rewrite (IH B), andb_true_r. apply negb_true_iff, not_true_is_false.
    intros E. apply existsb_exists in E as (y & I & E). apply Z.eqb_eq in E as <-. contradiction.
  Qed.
  Lemma switch_cases e cases d s z s1 : eval e s = Some (WInt z, s1) -> NoDup (map fst cases) ->
    exec (SSwitch e (map caseS cases ++ [SDefault (SReturn d)])) s =
    match match choose cases z with
          | Some m => exec (SReturn (callE "value" "read" m [XName (b "ctx"); memberE "value" m])) s1
          | None => exec (SReturn d) s1
          end with
    | Some (f, s2) => Some (f, leave s1 s2)
    | None => None
    end.
  Proof.
    intros E N. rewrite exec_switch, E.
    assert (D : case_labels (map caseS cases ++ [SDefault (SReturn d)]) = map fst cases).
    { unfold case_labels. clear. induction cases as [|[j k] l IH]; [reflexivity|]. cbn [map app flat_map]. rewrite IH. reflexivity. }
    rewrite D, (distinct_nodup _ N). clear N D.
    assert (R : forall x s s1, exec (SReturn x) s <> Some (FNext, s1)).
    { intros x s0 s2. cbn [CExec.exec]. now destruct (eval x s0) as [[]|]. }
    assert (X : seq (if existsb (is_case z) (map caseS cases ++ [SDefault (SReturn d)]) then is_case z else is_default) (map caseS cases ++ [SDefault (SReturn d)]) s1 =
      match choose cases z with
          | Some m => exec (SReturn (callE "value" "read" m [XName (b "ctx"); memberE "value" m])) s1
          | None => exec (SReturn d) s1
          end).
    { destruct (choose cases z) as [m|] eqn:C.
      - assert (Y : existsb (is_case z) (map caseS cases ++ [SDefault (SReturn d)]) = true).
        { clear - C. induction cases as [|[j k] l IH]; [discriminate|]. cbn [choose] in C. cbn [map app existsb]. unfold caseS at 1. cbn [is_case fst snd]. destruct (j =? z); [reflexivity|]. apply IH, C. }
        rewrite Y. clear Y. induction cases as [|[j k] l IH]; [discriminate|]. cbn [choose] in C. cbn [map app seq]. unfold caseS at 1. cbn [is_case fst snd]. destruct (j =? z).
        + injection C as <-. unfold caseS at 1. cbn [fst snd]. change (exec (SCase j (SReturn (callE "value" "read" k [XName (b "ctx"); memberE "value" k]))) s1) with (exec (SReturn (callE "value" "read" k [XName (b "ctx"); memberE "value" k])) s1).
          destruct (exec _ s1) as [[[] ?]|] eqn:Q; auto. now apply R in Q.
        + apply IH, C.
      - assert (Y : existsb (is_case z) (map caseS cases ++ [SDefault (SReturn d)]) = false).
        { clear - C. induction cases as [|[j k] l IH]; [reflexivity|]. cbn [choose] in C. cbn [map app existsb]. unfold caseS at 1. cbn [is_case fst snd]. destruct (j =? z); [discriminate|]. apply IH, C. }
        rewrite Y. clear Y C. induction cases as [|[j k] l IH]; [|apply IH]. cbn [map app seq is_default].
        change (exec (SDefault (SReturn d)) s1) with (exec (SReturn d) s1). destruct (exec _ s1) as [[[] ?]|] eqn:Q; auto. }
    now rewrite X.
  Qed.
End Exec.

(** ** Binding *)
Lemma words_refl l : words_eqb l l = true.
Proof. induction l as [|x l IH]; [reflexivity|]. cbn [words_eqb]. now rewrite same_refl, IH. Qed.
Lemma typeS_head c : exists r, typeS c = b "::" :: r.
Proof. unfold typeS, qualS. destruct (parts (c_pkg c)) as [|x l]; cbn [map concat app]; eexists; reflexivity. Qed.
Lemma bind_ref c x o : bind (typeS c) (refP (typeS c) x) (WObj false o) = Some (b x, WObj false o).
Proof. unfold bind, refP. now rewrite words_refl. Qed.
Lemma bind_cref c x o : bind (typeS c) (crefP (typeS c) x) (WObj false o) = Some (b x, WObj true o).
Proof.
  unfold bind, crefP. destruct (typeS_head c) as (r & E). 
  replace (words_eqb (b "const" :: typeS c ++ [b "&"]) (typeS c ++ [b "&"])) with false by (rewrite E; reflexivity).
  now rewrite words_refl.
Qed.
Lemma bind_ctx t : bind t ctxP WCtx = Some (b "ctx", WCtx).
Proof. reflexivity. Qed.
Lemma bind_name t s : bind t nameP (WText s) = Some (b "name", WText s).
Proof. reflexivity. Qed.

(** ** Tables *)
Lemma forall2_length {A B} (R : A -> B -> Prop) l l' : Forall2 R l l' -> length l = length l'.
Proof. induction 1; cbn [length]; congruence. Qed.
Lemma forall2_impl {A B} (R R' : A -> B -> Prop) l l' : (forall x y, R x y -> R' x y) -> Forall2 R l l' -> Forall2 R' l l'.
Proof. intros H. induction 1; constructor; auto. Qed.
Lemma all_some_forall2 {A B} (f : A -> option B) l r : all_some (map f l) = Some r -> Forall2 (fun x y => f x = Some y) l r.
Proof.
  revert r. induction l as [|x l IH]; intros r E; cbn [map all_some] in E; [injection E as <-; constructor|].
  destruct (f x) as [y|] eqn:X; [|discriminate]. destruct (all_some (map f l)) as [z|]; [|discriminate]. injection E as <-. constructor; auto.
Qed.
Lemma assoc_put l x k : assoc (put l x) k = match assoc l k with Some z => Some z | None => if same (fst x) k then Some (snd x) else None end.
Proof.
  unfold put. destruct x as [y z]. cbn [fst snd]. assert (A : forall l k, assoc (l ++ [(y, z)]) k = match assoc l k with Some z => Some z | None => if same y k then Some z else None end).
  { clear. induction l as [|[u w] l IH]; intros k; [reflexivity|]. cbn [app assoc]. destruct (same u k); [reflexivity|apply IH]. }
  destruct (assoc l y) as [w|] eqn:E; [|apply A]. destruct (same y k) eqn:S; [|now destruct (assoc l k)]. apply same_true in S as <-. now rewrite E.
Qed.
Lemma assoc_puts ps k : forall l, assoc (fold_left put ps l) k = match assoc l k with Some z => Some z | None => assoc ps k end.
Proof.
  induction ps as [|[y z] ps IH]; intros l; cbn [fold_left]; [now destruct (assoc l k)|]. rewrite IH, assoc_put. cbn [fst snd assoc].
  destruct (assoc l k); [reflexivity|]. now destruct (same y k).
Qed.
Lemma index_assoc ps k : index_lookup ps k = match assoc ps k with Some z => z | None => -1 end.
Proof. induction ps as [|[y z] ps IH]; [reflexivity|]. cbn [index_lookup assoc]. rewrite <- same_iff. now destruct (same y k). Qed.

(** ** A class *)
Section Class.
  Context (n : nat) (ea sn : bool) (c : cls) (ms : list ty) (g : gencode) (h : headers) (env : cenv).
  Context (CT : class_ty h env c = Some (TMsg ms g)) (ND : NoDup (map fst (c_cases c))).
  Let names := map snd (c_members c).
  Notation funs := (SpecText.funs n ea sn).
  Let mfs := map funs ms.
  Let t := typeS c.
  Let fs := class_funcs c.

  Lemma class_inv : NoDup names /\ c_empty c = names /\ c_clear c = names /\ c_equal c = names /\ c_swap c = names /\ length ms = length names /\
    Forall2 (fun x y => exists k s, member_pos names (fst x) = Some k /\ label_value (snd x) = Some s /\ y = (k, s)) (c_write c) (g_write g) /\
    Forall2 (fun x y => exists s, lit_string (fst x) = Some s /\ y = (s, snd x)) (c_index c) (g_index g) /\
    Forall2 (fun x y => exists k, member_pos names (snd x) = Some k /\ y = (fst x, k)) (c_cases c) (g_cases g) /\
    c_obf c = g_obf g.
  Proof.
    unfold class_ty in CT. fold names in CT. cbv zeta in CT.
    destruct (existsb is_keyword names || is_keyword (c_name c) || negb (nodupb names)) eqn:A; [discriminate|].
    destruct (negb (forallb _ _)) eqn:B in CT; [discriminate|].
    destruct (all_some (map (fun m => member_ty h env (fst m)) (c_members c))) as [ms'|] eqn:E1; [|discriminate].
    destruct (all_some (map _ (c_write c))) as [w|] eqn:E2; [|discriminate]. destruct (all_some (map _ (c_index c))) as [i|] eqn:E3; [|discriminate].
    destruct (all_some (map _ (c_cases c))) as [cs|] eqn:E4; [|discriminate]. injection CT as -> <-. cbn [g_write g_index g_cases g_obf].
    apply orb_false_iff in A as (_ & A). apply negb_false_iff, nodupb_spec in A. apply negb_false_iff in B. cbn [forallb] in B.
    destruct (list_eq_dec (list_eq_dec ascii_dec) (c_empty c) names); [|discriminate]. destruct (list_eq_dec (list_eq_dec ascii_dec) (c_clear c) names); [|discriminate].
    destruct (list_eq_dec (list_eq_dec ascii_dec) (c_equal c) names); [|discriminate]. destruct (list_eq_dec (list_eq_dec ascii_dec) (c_swap c) names); [|discriminate].
    apply all_some_forall2 in E1, E2, E3, E4. do 5 (split; [assumption|]). split; [|split; [|split; [|split; [|reflexivity]]]].
    - unfold names. rewrite map_length. symmetry. exact (forall2_length _ _ _ E1).
    - eapply forall2_impl; [|exact E2]. cbn beta. intros x y. destruct (member_pos names (fst x)) as [k|]; [|discriminate]. destruct (label_value (snd x)) as [s|]; [|discriminate]. intros [= <-]. eauto.
    - eapply forall2_impl; [|exact E3]. cbn beta. intros x y. destruct (lit_string (fst x)) as [s|]; [|discriminate]. intros [= <-]. eauto.
    - eapply forall2_impl; [|exact E4]. cbn beta. intros x y. destruct (member_pos names (snd x)) as [k|]; [|discriminate]. intros [= <-]. eauto.
  Qed.

  Lemma pos_range m k : member_pos names m = Some k -> (k < length names)%nat.
  Proof. intros E. apply member_pos_nth in E. apply nth_error_Some. congruence. Qed.
  Lemma mfs_at k ty0 : nth_error ms k = Some ty0 -> nth_error mfs k = Some (funs ty0).
  Proof. intros E. unfold mfs. now rewrite nth_error_map, E. Qed.
  Lemma at_pos {A} (l : list A) m k : length l = length names -> member_pos names m = Some k -> exists x, nth_error l k = Some x.
  Proof. intros L E. apply pos_range in E. destruct (nth_error l k) as [x|] eqn:X; [eauto|]. apply nth_error_None in X. lia. Qed.

  (** A conjunction over the members is one over the values. *)
  Lemma forallb_members {A} (f : A -> bool) (l : list A) : NoDup names -> length l = length names ->
    forallb (fun m => match member_pos names m with Some k => match nth_error l k with Some x => f x | None => false end | None => false end) names = forallb f l.
  Proof.
    intros N. enough (G : forall suf pre (u w : list A), names = pre ++ suf -> length u = length pre -> length w = length suf -> l = u ++ w ->
      forallb (fun m => match member_pos names m with Some k => match nth_error l k with Some x => f x | None => false end | None => false end) suf = forallb f w).
    { intros L. apply (G names [] [] l); auto. }
    induction suf as [|m suf IH]; intros pre u w E U W L; [destruct w; [reflexivity|discriminate]|]. destruct w as [|x w]; [discriminate|]. cbn [forallb].
    assert (M : member_pos names m = Some (length pre)) by (rewrite E; apply member_pos_app; now rewrite <- E). rewrite M. 
    replace (nth_error l (length pre)) with (Some x) by (rewrite L, <- U; symmetry; apply nth_app_here). f_equal.
    apply (IH (pre ++ [m]) (u ++ [x]) w); rewrite <- ?app_assoc; auto; rewrite !app_length, U; reflexivity.
  Qed.


  Lemma member_names m : NoDup names -> In m names -> exists k, member_pos names m = Some k.
  Proof.
    intros N I. apply in_split in I as (u & w & E). exists (length u). rewrite E. apply member_pos_app. now rewrite <- E.
  Qed.
  Lemma all_at {A} (l : list A) m : length l = length ms -> In m names -> exists k ty0 x, member_pos names m = Some k /\ nth_error mfs k = Some (funs ty0) /\ nth_error l k = Some x.
  Proof.
    destruct class_inv as (N & _ & _ & _ & _ & LM & _). intros L I. destruct (member_names m N I) as (k & K).
    destruct (at_pos ms m k LM K) as (t0 & T0). destruct (at_pos l m k ltac:(congruence) K) as (x & X0). exists k, t0, x. split; [exact K|]. split; [now apply mfs_at|exact X0].
  Qed.

  Ltac func r := match goal with |- context [find_func fs ?x] => change (find_func fs x) with (Some r) end; cbn [fn_params fn_body fn_ret binds]; fold t;
    unfold t; rewrite ?bind_ref, ?bind_cref, ?bind_ctx, ?bind_name; fold t.

  Lemma empty_ok vs : length vs = length ms -> text_empty sn names mfs t fs vs = Some (vempty (VMsg vs)).
  Proof.
    intros L. destruct class_inv as (N & E & _ & _ & _ & LM & _). unfold text_empty, invoke.
    func (Func [b "bool"] (b "empty") [crefP t "value"] (match c_empty c with [] => [SExpr (XVoid (XName (b "value"))); SReturn (XBool true)] | _ => [SReturn (conjE emptyE (c_empty c))] end)).
    rewrite E. pose proof (forallb_members vempty vs N ltac:(congruence)) as FM. pose proof (fun m => all_at vs m L) as AT.
    destruct names as [|m0 r0]; [destruct vs; [reflexivity|cbn [length] in *; lia]|].
    cbn [run exec].
    rewrite (eval_conj sn (m0 :: r0) mfs calls0 emptyE (fun m => match member_pos (m0 :: r0) m with Some k => match nth_error vs k with Some x => vempty x | None => false end | None => false end)).
    - rewrite FM. reflexivity.
    - intros m I. destruct (AT m I) as (k & t0 & x & K & F & X0). rewrite K, X0.
      rewrite (eval_empty sn (m0 :: r0) mfs calls0 _ m k (funs t0) K F true (b "value") x); [reflexivity|reflexivity|exact X0].
  Qed.

  Lemma all2_forallb l : forall l', length l = length l' -> vequal (VMsg l) (VMsg l') = forallb (fun p => vequal (fst p) (snd p)) (combine l l').
  Proof.
    cbn [vequal]. induction l as [|x l IH]; intros [|y l'] E; try discriminate; [reflexivity|]. cbn [combine forallb fst snd]. now rewrite IH by now injection E.
  Qed.
  Lemma nth_combine {A} k : forall (l l' : list A) x y, nth_error l k = Some x -> nth_error l' k = Some y -> nth_error (combine l l') k = Some (x, y).
  Proof. induction k as [|k IH]; intros [|u l] [|u' l'] x y X Y; try discriminate; cbn in *; [congruence|now apply IH]. Qed.
  Lemma equal_ok x y : length x = length ms -> length y = length ms -> text_equal sn names mfs t fs x y = Some (vequal (VMsg x) (VMsg y)).
  Proof.
    intros L L'. rewrite all2_forallb by congruence. destruct class_inv as (N & _ & _ & E & _ & LM & _). unfold text_equal, invoke.
    func (Func [b "bool"] (b "equal") [crefP t "a"; crefP t "b"] (match c_equal c with [] => [SExpr (XVoid (XName (b "a"))); SExpr (XVoid (XName (b "b"))); SReturn (XBool true)] | _ => [SReturn (conjE equalE (c_equal c))] end)).
    rewrite E. pose proof (forallb_members (fun p => vequal (fst p) (snd p)) (combine x y) N ltac:(rewrite combine_length; lia)) as FM.
    pose proof (fun m => all_at x m L) as AT. pose proof (fun m => all_at y m L') as AT'.
    destruct names as [|m0 r0]; [destruct x, y; try (cbn [length] in *; lia); reflexivity|].
    cbn [run exec].
    rewrite (eval_conj sn (m0 :: r0) mfs calls0 equalE (fun m => match member_pos (m0 :: r0) m with Some k => match nth_error (combine x y) k with Some p => vequal (fst p) (snd p) | None => false end | None => false end)).
    - rewrite FM. reflexivity.
    - intros m I. destruct (AT m I) as (k & t0 & u & K & F & X0). destruct (AT' m I) as (k' & t0' & u' & K' & F' & X0').
      rewrite K in K'. injection K' as <-. rewrite K, (nth_combine k x y u u' X0 X0').
      rewrite (eval_equal sn (m0 :: r0) mfs calls0 _ m k (funs t0) K F true (b "a") true (b "b") u u'); [reflexivity|reflexivity|reflexivity|exact X0|exact X0'].
  Qed.

  Lemma clear_run vars out e tk suf : assoc vars (b "value") = Some (WObj false (b "value")) -> NoDup names -> length ms = length names ->
    forall pre (u w : list val), names = pre ++ suf -> length u = length pre -> length w = length suf ->
    run sn names mfs calls0 (map clearS suf) (X [(b "value", u ++ w)] vars out e tk) = Some (FNext, X [(b "value", u ++ map vclear w)] vars out e tk).
  Proof.
    intros V N LM. induction suf as [|m suf IH]; intros pre u w E U W0; destruct w as [|x w]; try discriminate W0; [reflexivity|]. cbn [map run].
    assert (M : member_pos names m = Some (length pre)) by (rewrite E; apply member_pos_app; now rewrite <- E).
    destruct (at_pos ms m _ LM M) as (t0 & T0).
    rewrite (eval_clear sn names mfs calls0 (X [(b "value", u ++ x :: w)] vars out e tk) m (length pre) (funs t0) M (mfs_at _ _ T0) (b "value") x V); [|unfold get_member; cbn [x_objs assoc]; rewrite same_refl, <- U; apply nth_app_here].
    unfold set_member. cbn [x_objs assoc update]. rewrite same_refl, <- U, set_nth_app. unfold with_objs. cbn [x_objs x_vars x_out x_err x_tok f_clear SpecText.funs].
    change (vclear x :: map vclear w) with ([vclear x] ++ map vclear w). change (vclear x :: w) with ([vclear x] ++ w). rewrite !app_assoc.
    apply (IH (pre ++ [m])); [now rewrite <- app_assoc|rewrite !app_length, U; reflexivity|now injection W0].
  Qed.
  Lemma clear_ok vs : length vs = length ms -> option_map VMsg (text_clear sn names mfs t fs vs) = Some (vclear (VMsg vs)).
  Proof.
    intros L. destruct class_inv as (N & _ & E & _ & _ & LM & _). unfold text_clear, invoke.
    func (Func [b "void"] (b "clear") [refP t "value"] (match c_clear c with [] => [SExpr (XVoid (XName (b "value")))] | _ => map clearS (c_clear c) end)).
    rewrite E. pose proof (clear_run [(b "value", WObj false (b "value"))] [] err_clear idle names eq_refl N LM [] [] vs eq_refl eq_refl ltac:(congruence)) as R.
    destruct names as [|m0 r0]; [destruct vs; [reflexivity|cbn [length] in *; lia]|].
    unfold on_value, with_vars. cbn [x_objs x_vars x_out x_err x_tok]. cbn [app] in R. rewrite R. reflexivity.
  Qed.

  Fixpoint swaps (l m : list val) : list val * list val :=
    match l, m with
    | u :: l', v :: m' => let '(u', v') := vswap u v in let '(l2, m2) := swaps l' m' in (u' :: l2, v' :: m2)
    | _, _ => (l, m)
    end.
  Lemma vswap_msg l m : vswap (VMsg l) (VMsg m) = let '(l', m') := swaps l m in (VMsg l', VMsg m').
  Proof. reflexivity. Qed.
  Lemma set_a u x w l y vars out e tk : set_member (X [(b "a", u ++ x :: w); (b "b", l)] vars out e tk) (b "a") (length u) y = X [(b "a", u ++ y :: w); (b "b", l)] vars out e tk.
  Proof. unfold set_member, with_objs. cbn [x_objs assoc update x_vars x_out x_err x_tok]. now rewrite same_refl, set_nth_app. Qed.
  Lemma set_b u x w l y vars out e tk : set_member (X [(b "a", l); (b "b", u ++ x :: w)] vars out e tk) (b "b") (length u) y = X [(b "a", l); (b "b", u ++ y :: w)] vars out e tk.
  Proof. unfold set_member, with_objs. cbn [x_objs assoc update x_vars x_out x_err x_tok]. change (same (b "a") (b "b")) with false. cbn match. now rewrite same_refl, set_nth_app. Qed.
  Lemma swap_run vars out e tk suf : assoc vars (b "a") = Some (WObj false (b "a")) -> assoc vars (b "b") = Some (WObj false (b "b")) -> NoDup names -> length ms = length names ->
    forall pre (u u' w w' : list val), names = pre ++ suf -> length u = length pre -> length u' = length pre -> length w = length suf -> length w' = length suf ->
    run sn names mfs calls0 (map swapS suf) (X [(b "a", u ++ w); (b "b", u' ++ w')] vars out e tk) =
    Some (FNext, let '(x, x') := swaps w w' in X [(b "a", u ++ x); (b "b", u' ++ x')] vars out e tk).
  Proof.
    intros V V' N LM. induction suf as [|m suf IH]; intros pre u u' w w' E U U' W0 W1; destruct w as [|x w]; try discriminate W0; destruct w' as [|x' w']; try discriminate W1; [reflexivity|].
    cbn [map run swaps].
    assert (M : member_pos names m = Some (length pre)) by (rewrite E; apply member_pos_app; now rewrite <- E).
    destruct (at_pos ms m _ LM M) as (t0 & T0).
    rewrite (eval_swap sn names mfs calls0 (X [(b "a", u ++ x :: w); (b "b", u' ++ x' :: w')] vars out e tk) m (length pre) (funs t0) M (mfs_at _ _ T0) (b "a") (b "b") x x' V V' eq_refl);
      [|unfold get_member; cbn [x_objs assoc]; rewrite same_refl, <- U; apply nth_app_here
       |unfold get_member; cbn [x_objs assoc]; change (same (b "a") (b "b")) with false; cbn match; rewrite same_refl, <- U'; apply nth_app_here].
    cbn [f_swap SpecText.funs]. destruct (vswap x x') as [y y']. rewrite <- U at 1. rewrite set_a, <- U', set_b.
    specialize (IH (pre ++ [m]) (u ++ [y]) (u' ++ [y']) w w'). rewrite <- !app_assoc in IH. cbn [app] in IH. rewrite IH.
    - destruct (swaps w w'). now rewrite <- !app_assoc.
    - exact E.
    - rewrite !app_length, U; reflexivity.
    - rewrite !app_length, U'; reflexivity.
    - now injection W0.
    - now injection W1.
  Qed.
  Lemma swap_ok x y : length x = length ms -> length y = length ms ->
    option_map (fun '(u, w) => (VMsg u, VMsg w)) (text_swap sn names mfs t fs x y) = Some (vswap (VMsg x) (VMsg y)).
  Proof.
    intros L L'. rewrite vswap_msg. destruct class_inv as (N & _ & _ & _ & E & LM & _). unfold text_swap, invoke.
    func (Func [b "void"] (b "swap") [refP t "a"; refP t "b"] (match c_swap c with [] => [SExpr (XVoid (XName (b "a"))); SExpr (XVoid (XName (b "b")))] | _ => map swapS (c_swap c) end)).
    rewrite E. pose proof (swap_run [(b "a", WObj false (b "a")); (b "b", WObj false (b "b"))] [] err_clear idle names eq_refl eq_refl N LM [] [] [] x y eq_refl eq_refl eq_refl ltac:(congruence) ltac:(congruence)) as R.
    destruct names as [|m0 r0]; [destruct x, y; try (cbn [length] in *; lia); reflexivity|].
    unfold on_pair, with_vars. cbn [x_objs x_vars x_out x_err x_tok]. cbn [app] in R. rewrite R. now destruct (swaps x y).
  Qed.

  (** ** index *)
  Lemma lit_eval call s u x : lit_string u = Some x -> eval sn names mfs call (XStr (trigraphs 0 u)) s = Some (WText x, s).
  Proof. unfold lit_string, cpp_lit. cbn [eval]. destruct (lit_go LText (trigraphs 0 u)); [|discriminate]. now intros [= <-]. Qed.
  Lemma entries_eval call s items tab : Forall2 (fun x y => exists s, lit_string (fst x) = Some s /\ y = (s, snd x)) items tab ->
    eval sn names mfs call (XList (map entryE items)) s = Some (WList (map (fun p => WList [WText (fst p); WInt (snd p)]) tab), s).
  Proof.
    intros F. change (eval sn names mfs call (XList (map entryE items)) s) with (match evals sn names mfs call (map entryE items) s with Some (xs, s1) => Some (WList xs, s1) | None => None end).
    enough (G : evals sn names mfs call (map entryE items) s = Some (map (fun p => WList [WText (fst p); WInt (snd p)]) tab, s)) by now rewrite G.
    induction F as [|[u z] y items tab (x & L & ->) F IH]; [reflexivity|]. cbn [map evals fst snd] in *. unfold entryE at 1. cbn [fst snd].
    change (eval sn names mfs call (XList [XStr (trigraphs 0 u); XNum z]) s) with (match evals sn names mfs call [XStr (trigraphs 0 u); XNum z] s with Some (xs, s1) => Some (WList xs, s1) | None => None end).
    cbn [evals]. rewrite (lit_eval call s u x L). change (eval sn names mfs call (XNum z) s) with (Some (WInt z, s)). cbn match. now rewrite IH.
  Qed.
  Lemma index_call call s name : (forall x s, call (b "reveal") [WText x] s = Some (WText (reveal x), s)) -> x_vars s = [(b "name", WText name)] ->
    exists s', run sn names mfs call (indexS (c_obf c) (c_index c)) s = Some (FReturn (WInt (gen_index g name)), s') /\ with_vars s' [] = with_vars s [].
  Proof.
    intros RV V. destruct class_inv as (_ & _ & _ & _ & _ & _ & _ & IX & _ & OB). unfold gen_index. rewrite <- OB, index_assoc.
    pose proof (entries_eval call) as EV. unfold indexS. destruct s as [objs vars out er tk]. cbn [x_vars] in V. subst vars.
    destruct (c_index c) as [|i0 il] eqn:I.
    - inversion IX. eexists. split; [reflexivity|reflexivity].
    - rewrite <- I in *. set (key := if c_obf c then reveal name else name).
      assert (S1 : exec sn names mfs call (if c_obf c then SLocal LString (b "temp") (XCall (XName (b "reveal")) [XName (b "name")]) else SLocal LStringRef (b "temp") (XName (b "name")))
        (X objs [(b "name", WText name)] out er tk) = Some (FNext, X objs [(b "temp", WText key); (b "name", WText name)] out er tk)).
      { unfold key. destruct (c_obf c); [|reflexivity].
        change (exec sn names mfs call (SLocal LString (b "temp") (XCall (XName (b "reveal")) [XName (b "name")])) (X objs [(b "name", WText name)] out er tk)) with
          (match call (b "reveal") [WText name] (X objs [(b "name", WText name)] out er tk) with
           | Some (u, s1) => option_map (fun v => (FNext, with_vars s1 ((b "temp", v) :: x_vars s1))) (convert LString u) | None => None end).
        now rewrite RV. }
      cbn [run]. rewrite S1. cbn [exec]. rewrite (EV _ _ _ IX). cbn [convert].
      assert (P : all_some (map pair_of (map (fun p => WList [WText (fst p); WInt (snd p)]) (g_index g))) = Some (g_index g)).
      { rewrite map_map. clear. induction (g_index g) as [|[u z] l IH]; [reflexivity|]. transitivity (option_map (cons (u, z)) (Some l)); [rewrite <- IH; reflexivity|reflexivity]. }
      rewrite P. unfold with_vars at 1. cbn [option_map x_vars x_objs x_out x_err x_tok]. set (tab := fold_left put (g_index g) []).
      set (s2 := X objs [(b "FIELDS", WPairs tab); (b "temp", WText key); (b "name", WText name)] out er tk).
      change (eval sn names mfs call (XCall (XDot (XName (b "FIELDS")) (b "find")) [XName (b "temp")]) s2) with (Some (WIter (assoc tab key), s2)).
      cbn [convert option_map].
      assert (TB : assoc tab key = assoc (g_index g) key) by (unfold tab; rewrite assoc_puts; reflexivity). rewrite TB. clearbody tab.
      destruct (assoc (g_index g) key) as [z|]; eexists; (split; [reflexivity|reflexivity]).
  Qed.
  Lemma reveal_call x s : calls0 (b "reveal") [WText x] s = Some (WText (reveal x), s).
  Proof. reflexivity. Qed.
  Lemma index_invoke name s : invoke sn names mfs t fs calls0 (b "index") [WText name] s = Some (WInt (gen_index g name), s).
  Proof.
    unfold invoke. func (Func [b "int"] (b "index") [nameP] (indexS (c_obf c) (c_index c))).
    destruct (index_call calls0 (with_vars s [(b "name", WText name)]) name reveal_call eq_refl) as (s' & R & E). rewrite R. cbn [returned]. change (words_eqb [b "int"] [b "int"]) with true. cbn [option_map].
    f_equal. f_equal. destruct s as [o vv ou er tk], s' as [o' vv' ou' er' tk']. cbn in E. injection E as -> -> -> ->. reflexivity.
  Qed.
  Lemma index_ok name : text_index sn names mfs t fs name = Some (gen_index g name).
  Proof. unfold text_index. now rewrite index_invoke. Qed.

  (** ** read_field *)
  Lemma choose_cases z : match choose (c_cases c) z with
    | Some m => exists k, member_pos names m = Some k /\ case_lookup (g_cases g) z = Some k
    | None => case_lookup (g_cases g) z = None end.
  Proof.
    destruct class_inv as (_ & _ & _ & _ & _ & _ & _ & _ & F & _). clear ND. induction F as [|[j m] y l l' (k & K & ->) F IH]; [reflexivity|]. cbn [choose case_lookup fst snd] in *.
    destruct (j =? z); [eauto|exact IH].
  Qed.
  Lemma field_ok name tk vs : length vs = length ms -> text_read_field sn names mfs t fs name tk vs = read_member g (map (read n) ms) name tk vs.
  Proof.
    intros L. unfold text_read_field. unfold invoke at 1.
    func (Func [b "int"] (b "read_field") [ctxP; nameP; refP t "value"] (fieldS (c_cases c))).
    unfold read_member, select_member. pose proof (choose_cases (gen_index g name)) as CC. unfold fieldS. destruct class_inv as (_ & _ & _ & _ & _ & LM & _ & _ & CF & _).
    destruct (c_cases c) as [|c0 cl] eqn:CE.
    - cbn [choose] in CC. rewrite CC. destruct (gen_index g name <? 0); reflexivity.
    - rewrite <- CE in *. clear CE.
      set (s1 := with_vars (X [(b "value", vs)] [] [] err_clear tk) [(b "ctx", WCtx); (b "name", WText name); (b "value", WObj false (b "value"))]).
      cbn [run]. 
      change (exec sn names mfs (calls1 sn names mfs t fs) (SLocal LInt (b "idx") (XCall (XName (b "index")) [XName (b "name")])) s1) with
        (match invoke sn names mfs t fs calls0 (b "index") [WText name] s1 with
         | Some (u, s2) => option_map (fun v => (FNext, with_vars s2 ((b "idx", v) :: x_vars s2))) (convert LInt u) | None => None end).
      rewrite index_invoke. cbn [convert option_map]. set (s2 := with_vars s1 _).
      change (exec sn names mfs (calls1 sn names mfs t fs) (SIf (XOp (b "<") (XName (b "idx")) (XNum 0)) (SReturn (XName (b "PGR_NIL")))) s2) with
        (if gen_index g name <? 0 then Some (FReturn (WResult PGR_NIL), s2) else Some (FNext, s2)).
      destruct (gen_index g name <? 0); [reflexivity|].
      rewrite (switch_cases sn names mfs (calls1 sn names mfs t fs) (XName (b "idx")) (c_cases c) (XName (b "PGR_NIL")) s2 (gen_index g name) s2 eq_refl ND).
      destruct (choose (c_cases c) (gen_index g name)) as [m|].
      + destruct CC as (k & K & ->). destruct (at_pos ms m k LM K) as (t0 & T0). destruct (at_pos vs m k ltac:(congruence) K) as (x & X0).
        cbn [exec]. rewrite (eval_callx sn names mfs _ s2 m k K "read" false (b "value") eq_refl eq_refl). unfold member_call. rewrite (mfs_at _ _ T0).
        assert (G : get_member s2 (b "value") k = Some x) by exact X0. rewrite G, nth_error_map, T0, X0. cbn [option_map]. change (same (b "read") (b "read") && negb false) with true. cbn match. cbn [f_read SpecText.funs].
        change (x_tok s2) with tk. destruct (read n t0 tk x) as [[[r v'] tk']|]; [|reflexivity]. 
        rewrite leave_same by reflexivity. cbn [returned]. change (words_eqb [b "int"] [b "int"]) with true. cbn match. cbn [option_map]. reflexivity.
      + rewrite CC. reflexivity.
  Qed.

  (** ** read *)
  Lemma object_ext rf rf' (P : list val -> Prop) : (forall name tk vs, P vs -> rf name tk vs = rf' name tk vs) ->
    (forall name tk vs r vs' tk', P vs -> rf' name tk vs = Some (r, vs', tk') -> P vs') ->
    forall tk vs, P vs -> read_object n rf tk vs = read_object n rf' tk vs.
  Proof.
    intros E K. assert (O : forall k tk vs, P vs -> object_loop k n rf tk vs = object_loop k n rf' tk vs).
    { induction k as [|k IH]; intros tk vs PV; [reflexivity|]. cbn [object_loop]. cbv zeta.
      destruct (tk_expect n T_STRING tk) as [[[] t1]|]; try reflexivity. destruct (tk_expect n T_COLON t1) as [[[] t2]|]; try reflexivity.
      rewrite (E _ t2 vs PV). destruct (rf' (t_val (tk_cur tk)) t2 vs) as [[[r vs1] t3]|] eqn:R; [|reflexivity]. pose proof (K _ _ _ _ _ _ PV R) as PV1.
      assert (X : forall t4, match tk_expect n T_COMMA t4 with
        | Some (true, t5) => object_loop k n rf t5 vs1
        | Some (false, t5) => match tk_expect n T_OBJE t5 with Some (true, t6) => Some (PGR_OK, vs1, t6) | Some (false, t6) => rfail PGERR_INVALID_OBJECT (b "invalid JSON object") vs1 t6 | None => None end
        | None => None end = match tk_expect n T_COMMA t4 with
        | Some (true, t5) => object_loop k n rf' t5 vs1
        | Some (false, t5) => match tk_expect n T_OBJE t5 with Some (true, t6) => Some (PGR_OK, vs1, t6) | Some (false, t6) => rfail PGERR_INVALID_OBJECT (b "invalid JSON object") vs1 t6 | None => None end
        | None => None end) by (intros t4; destruct (tk_expect n T_COMMA t4) as [[[] t5]|]; auto).
      destruct r; [exact (X t3)|reflexivity|]. destruct (ignore_value n t3) as [[[] t4]|]; auto. }
    intros tk vs PV. unfold read_object. destruct (tk_id tk); auto; destruct (tk_expect n T_OBJS tk) as [[[] t1]|]; auto; destruct (tk_expect n T_OBJE t1) as [[[] t2]|]; auto.
  Qed.
  Lemma object_ok tk vs : length vs = length ms -> read_object n (text_read_field sn names mfs t fs) tk vs = read_object n (read_member g (map (read n) ms)) tk vs.
  Proof.
    apply (object_ext _ _ (fun vs => length vs = length ms)); [intros; now apply field_ok|]. clear tk vs. intros name tk vs r vs' tk' L. unfold read_member.
    destruct (select_member g name) as [k|]; [|now intros [= <- <- <-]]. destruct (nth_error (map (read n) ms) k) as [rd|]; [|now intros [= <- <- <-]].
    destruct (nth_error vs k) as [v|]; [|now intros [= <- <- <-]]. destruct (rd tk v) as [[[r0 v'] t1]|]; [|discriminate]. intros [= <- <- <-]. now rewrite set_nth_length.
  Qed.
  Lemma read_ok tk vs : length vs = length ms -> rmap VMsg (text_read sn names mfs t fs n tk vs) = read n (TMsg ms g) tk (VMsg vs).
  Proof.
    intros L. cbn [read]. rewrite <- (object_ok tk vs L). f_equal. unfold text_read, invoke.
    func (Func [b "int"] (b "read") [ctxP; refP t "value"] [SReturn (XCall (XName (b "read_object")) [XName (b "ctx"); XName (b "value")])]).
    set (s1 := with_vars _ _).
    change (run sn names mfs (calls2 sn names mfs t fs n) [SReturn (XCall (XName (b "read_object")) [XName (b "ctx"); XName (b "value")])] s1) with
      (match match match read_object n (text_read_field sn names mfs t fs) tk vs with
             | Some (r, vs', tk) => Some (WResult r, with_tok (with_objs s1 (update (x_objs s1) (b "value") vs')) tk) | None => None end with
       | Some (x, s2) => Some (FReturn x, s2) | None => None end with Some (FNext, s2) => Some (FNext, s2) | Some (FReturn x, s2) => Some (FReturn x, s2) | None => None end).
    destruct (read_object n (text_read_field sn names mfs t fs) tk vs) as [[[r vs'] tk']|]; reflexivity.
  Qed.

  (** ** write *)
  Definition wstate (vs : list val) (f : bool) (out : bytes) (e : errinfo) : cexec :=
    X [(b "value", vs)] [(b "f", WBool f); (b "ctx", WCtx); (b "value", WObj true (b "value"))] out e idle.
  Lemma label_eval s l x : assoc (x_vars s) (b "reveal") = None -> label_value l = Some x -> eval sn names mfs calls0 (labelE l) s = Some (WText x, s).
  Proof.
    destruct l as [[] u]; cbn [label_value labelE]; intros V L.
    - destruct (lit_string u) as [y|] eqn:E; [|discriminate]. injection L as <-.
      change (eval sn names mfs calls0 (XCall (XName (b "reveal")) [XStr (trigraphs 0 u)]) s) with
        (match assoc (x_vars s) (b "reveal"), evals sn names mfs calls0 [XStr (trigraphs 0 u)] s with
         | None, Some (xs, s1) => calls0 (b "reveal") xs s1 | _, _ => None end).
      rewrite V. cbn [evals]. now rewrite (lit_eval calls0 s u y E).
    - destruct (lit_string u) as [y|] eqn:E; [|discriminate]. injection L as <-. now apply lit_eval.
  Qed.
  Lemma out_eval s e x y s' out er : eval sn names mfs calls0 x s = Some (WStream, X (x_objs s') (x_vars s') out er (x_tok s')) ->
    eval sn names mfs calls0 e (X (x_objs s') (x_vars s') out er (x_tok s')) = Some (WText y, X (x_objs s') (x_vars s') out er (x_tok s')) ->
    eval sn names mfs calls0 (shl x e) s = Some (WStream, X (x_objs s') (x_vars s') (out ++ y) er (x_tok s')).
  Proof.
    intros E1 E2. unfold shl. change (eval sn names mfs calls0 (XOp (b "<<") x e) s) with (match eval sn names mfs calls0 x s with
      | Some (WBool u, s1) => None | Some (u, s1) => match eval sn names mfs calls0 e s1 with Some (v, s2) => operate (b "<<") u v s2 | None => None end | None => None end).
    rewrite E1, E2. reflexivity.
  Qed.
  Lemma write_run vs items tab : length vs = length ms -> length ms = length names ->
    Forall2 (fun x y => exists k s, member_pos names (fst x) = Some k /\ label_value (snd x) = Some s /\ y = (k, s)) items tab ->
    forall f out e, exists f', run sn names mfs calls0 (map writeS items) (wstate vs f out e) =
      Some (FNext, let '(o, e') := write_items sn (map (write ea sn) ms) vs tab f e in wstate vs f' (out ++ o) e').
  Proof.
    intros L LM F. induction F as [|[m l] y items tab (k & x & K & LV & ->) F IH]; intros f out e.
    - exists f. cbn [map run write_items]. now rewrite app_nil_r.
    - cbn [fst snd] in *. destruct (at_pos ms m k LM K) as (t0 & T0). destruct (at_pos vs m k ltac:(congruence) K) as (v & V0).
      cbn [map run write_items]. rewrite nth_error_map, T0, V0. cbn [option_map].
      set (s := wstate vs f out e).
      assert (EM : eval sn names mfs calls0 (emptyE m) s = Some (WBool (vempty v), s)) by (apply (eval_empty sn names mfs calls0 s m k (funs t0) K (mfs_at _ _ T0) true (b "value") v eq_refl V0)).
      assert (CE : eval sn names mfs calls0 (XOp (b "||") (XDot (XDot (XName (b "ctx")) (b "params")) (b "serialize_null")) (XNot (callE "value" "empty" m [memberE "value" m]))) s = Some (WBool (sn || negb (vempty v)), s)).
      { change (eval sn names mfs calls0 (XOp (b "||") (XDot (XDot (XName (b "ctx")) (b "params")) (b "serialize_null")) (XNot (callE "value" "empty" m [memberE "value" m]))) s) with
          (if sn then Some (WBool true, s) else match match eval sn names mfs calls0 (emptyE m) s with Some (WBool x, s1) => Some (WBool (negb x), s1) | _ => None end with Some (WBool v, s2) => Some (WBool v, s2) | _ => None end).
        rewrite EM. now destruct sn. }
      unfold writeS at 1. cbn [fst snd]. 
      rewrite exec_if, CE. destruct (sn || negb (vempty v)); [|apply IH].
      destruct (write ea sn t0 v e) as [[r o1] e1] eqn:WR. destruct (IH false (out ++ ((if f then b """" else b ",""") ++ x ++ b """:" ++ o1)) e1) as (f' & R). exists f'.
      assert (B : run sn names mfs calls0 [SExpr (shl (shl (shl osE (XIf (XName (b "f")) (XStr (b "\""")) (XStr (b ",\""")))) (labelE l)) (XStr (b "\"":")));
                 SExpr (callE "value" "write" m [XName (b "ctx"); memberE "value" m]); SExpr (XSet (XName (b "f")) (XBool false))] s =
        Some (FNext, wstate vs false (out ++ ((if f then b """" else b ",""") ++ x ++ b """:" ++ o1)) e1)).
      { cbn [run]. cbn [exec]. 
        assert (O1 : eval sn names mfs calls0 (shl (shl (shl osE (XIf (XName (b "f")) (XStr (b "\""")) (XStr (b ",\""")))) (labelE l)) (XStr (b "\"":"))) s =
          Some (WStream, wstate vs f (((out ++ (if f then b """" else b ",""")) ++ x) ++ b """:") e)).
        { apply (out_eval s _ _ (b """:") s); [|reflexivity]. apply (out_eval s _ _ x s); [|apply label_eval; [reflexivity|exact LV]].
          apply (out_eval s _ _ (if f then b """" else b ",""") s); [reflexivity|]. unfold s. destruct f; reflexivity. }
        rewrite O1. set (s2 := wstate vs f (((out ++ (if f then b """" else b ",""")) ++ x) ++ b """:") e).
        rewrite (eval_callx sn names mfs calls0 s2 m k K "write" true (b "value") eq_refl eq_refl). unfold member_call. rewrite (mfs_at _ _ T0).
        assert (G2 : get_member s2 (b "value") k = Some v) by exact V0. rewrite G2. change (same (b "write") (b "read") && negb true) with false. change (same (b "write") (b "write")) with true. cbn match.
        cbn [f_write SpecText.funs]. change (x_err s2) with e. rewrite WR. cbn [x_out s2 wstate]. rewrite <- !app_assoc. reflexivity. }
      rewrite (exec_block sn names mfs calls0), seq_run, B. rewrite leave_same by reflexivity. rewrite R.
      destruct (write_items sn (map (write ea sn) ms) vs tab false e1) as [o2 e2]. rewrite <- !app_assoc. reflexivity.
  Qed.
  Lemma write_ok vs e : length vs = length ms -> text_write sn names mfs t fs vs e = Some (write ea sn (TMsg ms g) (VMsg vs) e).
  Proof.
    intros L. destruct class_inv as (_ & _ & _ & _ & _ & LM & F & _). unfold text_write, invoke.
    func (Func [b "int"] (b "write") [ctxP; crefP t "value"] (outS (c_write c))).
    cbn [write]. unfold outS. destruct (c_write c) as [|w0 wl] eqn:W0; [inversion F; reflexivity|]. rewrite <- W0 in *.
    destruct (write_run vs (c_write c) (g_write g) L LM F true (b "{") e) as (f' & R). rewrite <- !app_assoc.
    set (s0 := with_vars (on_value vs e) _).
    change (run sn names mfs calls0 ([SLocal LBool (b "f") (XBool true); SExpr (shl osE (XChr (b "{")))] ++ map writeS (c_write c) ++ [SExpr (shl osE (XChr (b "}")))] ++ [SReturn (XName (b "PGR_OK"))]) s0) with
      (run sn names mfs calls0 (map writeS (c_write c) ++ [SExpr (shl osE (XChr (b "}")))] ++ [SReturn (XName (b "PGR_OK"))]) (wstate vs true (b "{") e)).
    rewrite run_app, R. destruct (write_items sn (map (write ea sn) ms) vs (g_write g) true e) as [o e2]. reflexivity.
  Qed.
End Class.
