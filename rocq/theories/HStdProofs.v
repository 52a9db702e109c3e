From Coq Require Import Lia.
From Verif Require Import Bytes Num Dbl Types Stream Tokenizer Write Read GenRead GenProofs StdIn Sinks Cpp CLex CParse CExec Unit HdrText HText HParse HExec HTok HJson HApi HIter SpecHIter HIterProofs HStd SpecHStd.

Lemma stds_is : stds = the_std.
Proof. vm_compute. reflexivity. Qed.

(** ** Short functions *)
Section Short.
  Context {M : Type} (ser : bytes -> list mval -> M -> option (mval * M)).
  Lemma member_clear : forall x m, text_member ser x "clear" [] m = as_void (ser (b "clear") [MObj x] m).
  Proof. intros. unfold text_member. rewrite stds_is. vm_compute. destruct (ser _ _ m) as [[[] ?]|]; reflexivity. Qed.
  Lemma member_empty : forall x m, text_member ser x "empty" [] m = as_bool (ser (b "empty") [MObj x] m).
  Proof. intros. unfold text_member. rewrite stds_is. vm_compute. destruct (ser _ _ m) as [[[] ?]|]; reflexivity. Qed.
  Lemma member_equal : forall x y m, text_member ser x "equal" [MObj y] m = as_bool (ser (b "equal") [MObj x; MObj y] m).
  Proof. intros. unfold text_member. rewrite stds_is. vm_compute. destruct (ser _ _ m) as [[[] ?]|]; reflexivity. Qed.
  Lemma member_swap : forall x y m, text_member ser x "swap" [MObj y] m = as_void (ser (b "swap") [MObj x; MObj y] m).
  Proof. intros. unfold text_member. rewrite stds_is. vm_compute. destruct (ser _ _ m) as [[[] ?]|]; reflexivity. Qed.
  Lemma member_eq : forall x y m, text_member ser x "==" [MObj y] m = as_bool (ser (b "equal") [MObj x; MObj y] m).
  Proof. intros. unfold text_member. rewrite stds_is. vm_compute. destruct (ser _ _ m) as [[[] ?]|]; reflexivity. Qed.
  Lemma member_ne : forall x y m, text_member ser x "!=" [MObj y] m
    = match ser (b "equal") [MObj x; MObj y] m with Some (MB r, m') => Some (MB (negb r), m') | _ => None end.
  Proof. intros. unfold text_member. rewrite stds_is. vm_compute. destruct (ser _ _ m) as [[[] ?]|]; reflexivity. Qed.
End Short.

Section Static.
  Context {M : Type} (ser : bytes -> list mval -> M -> option (mval * M)).
  Lemma static_all : forall x y s m,
    text_static ser "read" [MCtx; MObj x] m = as_int (ser (b "read") [MCtx; MObj x] m) /\
    text_static ser "read_field" [MCtx; MName s; MObj x] m = as_int (ser (b "read_field") [MCtx; MName s; MObj x] m) /\
    text_static ser "write" [MCtx; MObj x] m = as_int (ser (b "write") [MCtx; MObj x] m) /\
    text_static ser "empty" [MObj x] m = as_bool (ser (b "empty") [MObj x] m) /\
    text_static ser "clear" [MObj x] m = as_void (ser (b "clear") [MObj x] m) /\
    text_static ser "equal" [MObj x; MObj y] m = as_bool (ser (b "equal") [MObj x; MObj y] m) /\
    text_static ser "swap" [MObj x; MObj y] m = as_void (ser (b "swap") [MObj x; MObj y] m).
  Proof.
    intros. unfold text_static. rewrite stds_is. vm_compute.
    repeat split; (destruct (ser _ _ m) as [[[] ?]|]; reflexivity).
  Qed.
  Lemma member_all : forall x y m,
    text_member ser x "clear" [] m = as_void (ser (b "clear") [MObj x] m) /\
    text_member ser x "empty" [] m = as_bool (ser (b "empty") [MObj x] m) /\
    text_member ser x "equal" [MObj y] m = as_bool (ser (b "equal") [MObj x; MObj y] m) /\
    text_member ser x "swap" [MObj y] m = as_void (ser (b "swap") [MObj x; MObj y] m).
  Proof. intros. exact (conj (member_clear ser x m) (conj (member_empty ser x m) (conj (member_equal ser x y m) (member_swap ser x y m)))). Qed.
End Static.

Lemma member_values : forall x y m v w, nth_error m x = Some v -> nth_error m y = Some w ->
  text_member model_ser x "clear" [] m = Some (MVoid, set_nth x (vclear v) m) /\
  text_member model_ser x "empty" [] m = Some (MB (vempty v), m) /\
  text_member model_ser x "equal" [MObj y] m = Some (MB (vequal v w), m) /\
  text_member model_ser x "==" [MObj y] m = Some (MB (vequal v w), m) /\
  text_member model_ser x "!=" [MObj y] m = Some (MB (negb (vequal v w)), m) /\
  text_member model_ser x "swap" [MObj y] m = Some (MVoid, set_nth y (snd (vswap v w)) (set_nth x (fst (vswap v w)) m)).
Proof.
  intros x y m v w X Y.
  refine (conj (eq_trans (member_clear _ x m) _) (conj (eq_trans (member_empty _ x m) _) (conj (eq_trans (member_equal _ x y m) _)
    (conj (eq_trans (member_eq _ x y m) _) (conj (eq_trans (member_ne _ x y m) _) (eq_trans (member_swap _ x y m) _)))))); unfold model_ser; rewrite ?X, ?Y;
  change (bytes_eqb (b "clear") (b "clear")) with true; change (bytes_eqb (b "empty") (b "clear")) with false;
  change (bytes_eqb (b "empty") (b "empty")) with true; change (bytes_eqb (b "equal") (b "equal")) with true;
  change (bytes_eqb (b "swap") (b "equal")) with false; change (bytes_eqb (b "swap") (b "swap")) with true; try reflexivity.
  destruct (vswap v w). reflexivity.
Qed.

(** ** Streams *)
Section Steps.
  Context (I : itext) (fuel n : nat) (t0 : ty) (lo hi : nat).
  Notation ev := (seval I fuel n t0 lo hi). Notation ex := (sexec I fuel n t0 lo hi). Notation ob := (sobject fuel lo hi).
  Lemma do_expr : forall e r s v s1, ev e s = Some (v, s1) -> ex (TExpr [e] :: r) s = ex r s1.
  Proof. intros e r s v s1 E. cbn [sexec]. rewrite E. reflexivity. Qed.
  Lemma do_auto : forall t x e r s v s1 s2, ev e s = Some (v, s1) ->
    words_eqb t [b "auto"] || (words_eqb t [b "bool"] && match v with WB _ => true | _ => false end) = true -> sadd x v s1 = Some s2 ->
    ex (TVar t x None (Some e) :: r) s = ex r s2.
  Proof. intros t x e r s v s1 s2 E T A. cbn [sexec]. rewrite E, T, A. reflexivity. Qed.
  Lemma do_none : forall t x e r s, ev e s = None -> ex (TVar t x None (Some e) :: r) s = None.
  Proof. intros t x e r s E. cbn [sexec]. rewrite E. reflexivity. Qed.
  Lemma do_new : forall t x r s v s1 s2, ob t [] s = Some (v, s1) -> sadd x v s1 = Some s2 -> ex (TVar t x None None :: r) s = ex r s2.
  Proof. intros t x r s v s1 s2 E A. cbn [sexec]. rewrite E, A. reflexivity. Qed.
  Lemma do_obj : forall t x es r s xs v s1 s2, satoms es s = Some xs -> ob t xs s = Some (v, s1) -> sadd x v s1 = Some s2 -> ex (TObj t x es :: r) s = ex r s2.
  Proof. intros t x es r s xs v s1 s2 X E A. cbn [sexec]. rewrite X, E, A. reflexivity. Qed.
  Lemma no_obj : forall t x es r s xs, satoms es s = Some xs -> ob t xs s = None -> ex (TObj t x es :: r) s = None.
  Proof. intros t x es r s xs X E. cbn [sexec]. rewrite X, E. reflexivity. Qed.
  Lemma do_if : forall c e r s x s1 v s2, ev c s = Some (WB x, s1) -> ev e s1 = Some (v, s2) ->
    ex (TIf c (TExpr [e]) None :: r) s = if x then ex r s2 else ex r s1.
  Proof. intros c e r s x s1 v s2 C E. cbn [sexec]. rewrite C. destruct x; [rewrite E|]; reflexivity. Qed.
  Lemma do_return : forall e r s, ex (TReturn (Some e) :: r) s = ev e s.
  Proof. reflexivity. Qed.
  Lemma do_call : forall f args s xs, satoms args s = Some xs -> match xs with [WIn] => false | _ => true end = true ->
    ev (ECall (EName [f]) args) s = call_std I fuel n t0 lo hi f xs s.
  Proof. intros f args s xs X N. cbn [seval]. rewrite X. destruct xs as [|[] []]; try reflexivity; discriminate N. Qed.
End Steps.

Definition std_body : list hstmt :=
  [TVar [b "bool"] (b "skip") None (Some (EBin (b "&") (ECall (EDot (EName [b "in"]) (b "flags")) []) (EName (words_of "std::ios_base::skipws"))));
   TExpr [ECall (EName (words_of "std::noskipws")) [EName [b "in"]]];
   TVar w_sii (b "end") None None; TObj w_sii (b "begin") [EName [b "in"]];
   TObj w_in_std (b "is") [EName [b "begin"]; EName [b "end"]];
   TVar [b "bool"] (b "result") None (Some (ECall (EName [b "deserialize"]) [EName [b "is"]; EName [b "params"]]));
   TIf (EName [b "skip"]) (TExpr [ECall (EName (words_of "std::skipws")) [EName [b "in"]]]) None;
   TReturn (Some (EName [b "result"]))].
Lemma std_runs : forall I fuel n t v s po, 
  sexec I fuel n t 0 0 std_body (WSt [(b "in", WIn); (b "params", WPar)] s [] v po)
  = match deserialize_std schar fuel n t v s po with
    | Some (r, v', po', s') =>
        match ii_make si_iops fuel (si_extract (si_set_skipws false s)) (None, SIn [] true false) with
        | Some i => Some (WB r, WSt [(b "result", WB r); (b "is", WStdStream i); (b "begin", WIt (fst (si_extract (si_set_skipws false s)))); (b "end", WIt None);
                                     (b "skip", WB (si_skipws s)); (b "in", WIn); (b "params", WPar)] s' [] v' po')
        | None => None
        end
    | None => None
    end.
Proof.
  intros I fuel n t v s po. unfold std_body.
  erewrite do_auto; [|reflexivity..].
  erewrite do_expr; [|reflexivity].
  erewrite do_new; [|reflexivity..].
  unfold deserialize_std.
  destruct (si_extract (si_set_skipws false s)) as [c s1] eqn:X.
  erewrite do_obj; cycle 1.
  { reflexivity. }
  { cbn [sobject w_with w_in]. change (words_eqb w_sii w_sii) with true. cbv iota. unfold w_with; cbn [w_in w_vars w_mem w_val w_par]. rewrite X. reflexivity. }
  { reflexivity. }
  cbn [fst].
  destruct (ii_make si_iops fuel (c, s1) (None, SIn [] true false)) as [i|] eqn:Y.
  2:{ erewrite no_obj; [reflexivity|reflexivity|]. cbn [sobject]. change (words_eqb w_in_std w_in_std) with true. cbv iota. unfold w_with; cbn [w_in]. rewrite Y. reflexivity. }
  erewrite do_obj; cycle 1.
  { reflexivity. }
  { cbn [sobject]. change (words_eqb w_in_std w_in_std) with true. cbv iota. unfold w_with; cbn [w_in]. rewrite Y. reflexivity. }
  { reflexivity. }
  cbn [w_vars w_in w_mem w_val w_par w_with].
  destruct (entity_std fuel n t v i po) as [[[[x v'] po'] s']|] eqn:Z.
  - erewrite do_auto; cycle 1.
    { erewrite do_call; [|reflexivity..]. unfold call_std. change (same (b "deserialize") (b "deserialize")) with true. cbv iota.
        cbn [w_val w_par]. rewrite Z. reflexivity. }
    { reflexivity. }
    { reflexivity. }
    erewrite do_if; [|reflexivity..]. rewrite !do_return. cbn [w_vars w_in w_mem w_val w_par w_with].
    unfold entity_std in Z. destruct (g_make _ n i _) as [k|]; [|discriminate Z].
    destruct (g_read _ _ n t k v) as [[[[] u] k']|]; [..|discriminate Z]; injection Z as <- <- <- <-; destruct (si_skipws s); reflexivity.
  - erewrite do_none.
    + unfold entity_std in Z. destruct (g_make _ n i _) as [k|]; [|reflexivity].
      destruct (g_read _ _ n t k v) as [[[[] u] k']|]; [discriminate Z..|reflexivity].
    + erewrite do_call; [|reflexivity..]. unfold call_std. change (same (b "deserialize") (b "deserialize")) with true. cbv iota.
      cbn [w_val w_par]. rewrite Z. reflexivity.
Qed.
Lemma deserialize_std_made : forall fuel n t v s po z, deserialize_std schar fuel n t v s po = Some z ->
  exists i, ii_make si_iops fuel (si_extract (si_set_skipws false s)) (None, SIn [] true false) = Some i.
Proof. intros fuel n t v s po z H. unfold deserialize_std in H. destruct (ii_make _ _ _ _) as [i|]; [exists i; reflexivity|discriminate H]. Qed.
Lemma std_text : forall fuel n t v s po, text_std fuel n t v s po = deserialize_std schar fuel n t v s po.
Proof.
  intros. unfold text_std. rewrite stds_is. unfold scall.
  set (fs := filter _ _).
  assert (F : exists x, fs = [x] /\ words_eqb (hf_ret x) [b "bool"] = true /\ hf_params x = [(words_of "std::istream &", b "in"); (words_of "Parameters *", b "params")]
    /\ hf_body x = std_body).
  { eexists. split; [vm_compute; reflexivity|]. vm_compute. repeat split. }
  destruct F as (x & -> & R & P & B). rewrite R, P, B.
  change (map _ (combine _ [WIn; WPar])) with [(b "in", WIn); (b "params", WPar)]. rewrite std_runs.
  destruct (deserialize_std schar fuel n t v s po) as [[[[r v'] po'] s']|] eqn:D; [|reflexivity].
  destruct (deserialize_std_made _ _ _ _ _ _ _ D) as [i ->]. reflexivity.
Qed.

(** ** Characters in memory *)
Lemma iters_of : s_iters the_std = the_iters.
Proof. reflexivity. Qed.
Lemma ends_const : forall w p len m, (p + len <= length m)%nat -> ends (t_const the_iters) w p (Z.of_nat len) m = Some (p, (p + len)%nat).
Proof.
  intros w p len m L. unfold ends. replace (takes_ptr (t_const the_iters) w) with true by (destruct w; reflexivity).
  rewrite (ptr_new (t_const the_iters) m p len (or_intror eq_refl) L). reflexivity.
Qed.
Lemma ends_mem : forall p len m, (p + len <= length m)%nat -> ends (t_mem the_iters) true p (Z.of_nat len) m = Some (p, (p + len)%nat).
Proof.
  intros p len m L. unfold ends. change (takes_ptr (t_mem the_iters) true) with true.
  rewrite (ptr_new (t_mem the_iters) m p len (or_introl eq_refl) L). reflexivity.
Qed.

Definition const_body : list hstmt :=
  [TVar [b "auto"] (b "begin") None (Some (ECall (EName [const_name]) [EName [b "in"]; EName [b "len"]]));
   TVar [b "auto"] (b "end") None (Some (ECall (EName [const_name]) [EBin (b "+") (EName [b "in"]) (EName [b "len"]); ENum false 0]));
   TObj w_in_const (b "is") [EName [b "begin"]; EName [b "end"]];
   TReturn (Some (ECall (EName [b "deserialize"]) [EName [b "is"]; EName [b "params"]]))].
Lemma atom_plus : forall w p len m vars s v po, assoc vars (b "in") = Some (WPtr w p) -> assoc vars (b "len") = Some (WSize (Z.of_nat len)) ->
  (p + len <= length m)%nat ->
  satoms [EBin (b "+") (EName [b "in"]) (EName [b "len"]); ENum false 0] (WSt vars s m v po) = Some [WPtr w (p + len); WSize 0].
Proof.
  intros w p len m vars s v po A B L. cbn [satoms satom w_vars w_mem]. rewrite A, B. change (same (b "+") (b "+")) with true.
  replace (0 <=? Z.of_nat len) with true by (symmetry; apply Z.leb_le; lia).
  replace (Z.of_nat p + Z.of_nat len <=? Z.of_nat (length m)) with true by (symmetry; apply Z.leb_le; lia). cbn [andb]. rewrite Nat2Z.id. reflexivity.
Qed.
Lemma const_runs : forall fuel n t v w m p len s po, (p + len <= length m)%nat ->
  match sexec the_iters fuel n t p (p + len) const_body (WSt [(b "in", WPtr w p); (b "len", WSize (Z.of_nat len)); (b "params", WPar)] s m v po) with
  | Some (WB r, z) => Some (r, w_val z, w_par z, w_in z, w_mem z)
  | _ => None
  end = match deserialize_mem schar fuel n t v m p len po with Some (r, v', po') => Some (r, v', po', s, m) | None => None end.
Proof.
  intros fuel n t v w m p len s po L. unfold const_body.
  erewrite do_auto; cycle 1.
  { erewrite do_call; [|reflexivity..]. unfold call_std. change (same const_name const_name) with true. cbv iota. cbn [w_mem].
    rewrite (ends_const w p len m L). reflexivity. }
  { reflexivity. }
  { reflexivity. }
  erewrite do_auto; cycle 1.
  { erewrite do_call; [|apply (atom_plus w p len m); [reflexivity|reflexivity|exact L]|reflexivity]. unfold call_std.
    change (same const_name const_name) with true. cbv iota. cbn [w_mem]. change 0 with (Z.of_nat 0).
    rewrite (ends_const w (p + len) 0 m ltac:(lia)). reflexivity. }
  { reflexivity. }
  { reflexivity. }
  cbn [fst snd w_vars w_in w_mem w_val w_par]. unfold deserialize_mem, deserialize_iter, mci_make.
  destruct (ii_make (mem_iops p (p + len) m) fuel (MCI p (p + len)) (MCI (p + len) (p + len + 0))) as [i|] eqn:Y.
  - erewrite do_obj; cycle 1.
    { reflexivity. }
    { cbn [sobject]. change (words_eqb w_in_const w_in_const) with true. cbv iota. cbn [w_mem]. rewrite Y. reflexivity. }
    { reflexivity. }
    rewrite do_return. erewrite do_call; [|reflexivity..]. unfold call_std. change (same (b "deserialize") (b "deserialize")) with true. cbv iota.
    cbn [w_val w_par w_mem w_in w_vars].
    destruct (g_deserialize _ _ n t v i po) as [[[x u] q]|]; reflexivity.
  - erewrite no_obj; [reflexivity|reflexivity|].
    cbn [sobject]. change (words_eqb w_in_const w_in_const) with true. cbv iota. cbn [w_mem]. rewrite Y. reflexivity.
Qed.
Lemma mem_text : forall fuel n t v w m p len s po, (p + len <= length m)%nat ->
  text_mem fuel n t v w m p len s po = match deserialize_mem schar fuel n t v m p len po with Some (r, v', po') => Some (r, v', po', s, m) | None => None end.
Proof.
  intros fuel n t v w m p len s po L. unfold text_mem. rewrite stds_is, iters_of. unfold scall.
  set (fs := filter _ _).
  assert (F : exists x, fs = [x] /\ words_eqb (hf_ret x) [b "bool"] = true /\
    hf_params x = [(words_of "const char *", b "in"); (words_of "size_t", b "len"); (words_of "Parameters *", b "params")] /\ hf_body x = const_body).
  { eexists. split; [vm_compute; reflexivity|]. vm_compute. repeat split. }
  destruct F as (x & -> & R & P & B). rewrite R, P, B.
  change (map _ (combine _ [WPtr w p; WSize (Z.of_nat len); WPar])) with [(b "in", WPtr false p); (b "len", WSize (Z.of_nat len)); (b "params", WPar)].
  exact (const_runs fuel n t v false m p len s po L).
Qed.

Definition buffer_body : list hstmt :=
  [TVar [b "auto"] (b "begin") None (Some (ECall (EName [mem_name]) [EName [b "in"]; EName [b "len"]]));
   TObj w_out_mem (b "os") [EName [b "begin"]];
   TReturn (Some (ECall (EName [b "serialize"]) [EName [b "os"]; EName [b "params"]]))].
Lemma buffer_runs : forall t v m p len s po, (p + len <= length m)%nat ->
  match sexec the_iters 0 0 t 0 0 buffer_body (WSt [(b "in", WPtr true p); (b "len", WSize (Z.of_nat len)); (b "params", WPar)] s m v po) with
  | Some (WB r, z) => Some (r, w_val z, w_par z, w_in z, w_mem z)
  | _ => None
  end = match serialize_mem t v m p len po with Some (r, m', po') => Some (r, v, po', s, m') | None => None end.
Proof.
  intros t v m p len s po L. unfold buffer_body.
  erewrite do_auto; cycle 1.
  { erewrite do_call; [|reflexivity..]. unfold call_std. change (same mem_name const_name) with false. change (same mem_name mem_name) with true. cbv iota. cbn [w_mem].
    rewrite (ends_mem p len m L). reflexivity. }
  { reflexivity. }
  { reflexivity. }
  erewrite do_obj; [|reflexivity..]. rewrite do_return. erewrite do_call; [|reflexivity..]. unfold call_std.
  change (same (b "serialize") (b "serialize")) with true. cbv iota. cbn [w_val w_par w_mem w_in w_vars fst snd]. unfold serialize_mem.
  destruct (serialize t v po) as [[x o] q]. destruct (sink_mem_all _ o); reflexivity.
Qed.
Lemma buffer_text : forall t v m p len s po, (p + len <= length m)%nat ->
  text_buffer t v true m p len s po = match serialize_mem t v m p len po with Some (r, m', po') => Some (r, v, po', s, m') | None => None end.
Proof.
  intros t v m p len s po L. unfold text_buffer. rewrite stds_is, iters_of. unfold scall.
  set (fs := filter _ _).
  assert (F : exists x, fs = [x] /\ words_eqb (hf_ret x) [b "bool"] = true /\
    hf_params x = [(words_of "char *", b "in"); (words_of "size_t", b "len"); (words_of "Parameters *", b "params")] /\ hf_body x = buffer_body).
  { eexists. split; [vm_compute; reflexivity|]. vm_compute. repeat split. }
  destruct F as (x & -> & R & P & B). rewrite R, P, B.
  change (map _ (combine _ [WPtr true p; WSize (Z.of_nat len); WPar])) with [(b "in", WPtr true p); (b "len", WSize (Z.of_nat len)); (b "params", WPar)].
  exact (buffer_runs t v m p len s po L).
Qed.

(** A const char * cannot be given to a mem_iterator. *)
Lemma array_text : forall fuel n t v w m p len s po, text_array fuel n t v w m p len s po = None.
Proof.
  intros fuel n t v w m p len s po. unfold text_array. rewrite stds_is, iters_of. unfold scall.
  set (fs := filter _ _).
  assert (F : exists x, fs = [x] /\ words_eqb (hf_ret x) [b "bool"] = true /\
    hf_params x = [(words_of "T &", b "container"); (words_of "const char *", b "in"); (words_of "size_t", b "len"); (words_of "Parameters *", b "params")] /\
    exists r, hf_body x = TVar [b "auto"] (b "begin") None (Some (ECall (EName [mem_name]) [EName [b "in"]; EName [b "len"]])) :: r).
  { eexists. split; [vm_compute; reflexivity|]. vm_compute. repeat split. eexists; reflexivity. }
  destruct F as (x & -> & R & P & r & B). rewrite R, P, B.
  change (map _ (combine _ [WT; WPtr w p; WSize (Z.of_nat len); WPar]))
    with [(b "container", WT); (b "in", WPtr false p); (b "len", WSize (Z.of_nat len)); (b "params", WPar)].
  rewrite do_none; [reflexivity|]. erewrite do_call; [|reflexivity..]. unfold call_std.
  change (same mem_name const_name) with false. change (same mem_name mem_name) with true. cbv iota. unfold ends.
  change (takes_ptr (t_mem the_iters) false) with false. reflexivity.
Qed.
Lemma mem_reads : forall fuel t v w m p len s po, (p + len <= length m)%nat -> (len < fuel)%nat ->
  exists r v' po', deserialize t v (firstn len (skipn p m)) po = Some (r, v', po') /\
    text_mem fuel (fuel_for (firstn len (skipn p m))) t v w m p len s po = Some (r, v', po', s, m).
Proof.
  intros fuel t v w m p len s po L F.
  destruct (deserialize t v (firstn len (skipn p m)) po) as [[[r v'] po']|] eqn:D; [|exfalso; exact (deserialize_defined _ _ _ _ D)].
  exists r, v', po'. split; [reflexivity|]. refine (eq_trans (mem_text _ _ t v w m p len s po L) _).
  pose proof (mem_input_lemma schar fuel t v m p len po (or_introl eq_refl) L F) as E. rewrite D in E. rewrite E. reflexivity.
Qed.
