(** The text of the iterators and of iterator_ostream against Stream.v. *)
From Coq Require Import Lia Arith.
From Verif Require Import Bytes BaseProofs Stream Types Tokenizer Write Sinks Cpp CLex CParse CExec Unit HdrText HText HParse HExec HApi HIter SpecHIter.

Lemma iters_is : iters = the_iters.
Proof. vm_compute. reflexivity. Qed.

(** ** Steps *)
Section Steps.
  Context (loops : nat) (inner : bytes -> list (bytes * ival) -> bytes -> option (ires * list (bytes * ival) * bytes))
          (own : list bytes -> ival -> ist -> option (ires * ist)).
  Lemma if_step : forall c es r s s1 s2, ivalue inner own c s = Some (XBool true, s1) -> i_step loops inner own (TExpr es) s1 = Some s2 ->
    i_body loops inner own (TIf c (TExpr es) None :: r) s = i_body loops inner own r s2.
  Proof. intros c es r s s1 s2 C E. cbn [i_body]. rewrite C, E. reflexivity. Qed.
  Lemma if_skip : forall c t r s s1, ivalue inner own c s = Some (XBool false, s1) ->
    i_body loops inner own (TIf c t None :: r) s = i_body loops inner own r s1.
  Proof. intros c t r s s1 C. cbn [i_body]. rewrite C. reflexivity. Qed.
  Lemma if_return : forall c e r s s1, ivalue inner own c s = Some (XBool true, s1) ->
    i_body loops inner own (TIf c (TReturn (Some e)) None :: r) s = ieval inner own e s1.
  Proof. intros c e r s s1 C. cbn [i_body]. rewrite C. reflexivity. Qed.
  Lemma then_step : forall es r s s1, i_step loops inner own (TExpr es) s = Some s1 ->
    i_body loops inner own (TExpr es :: r) s = i_body loops inner own r s1.
  Proof. intros es r s s1 E. cbn [i_body]. rewrite E. reflexivity. Qed.
  Lemma post_step : forall x s n, has (j_vars s) x = false -> assoc (j_this s) x = Some (XPtr n) -> (n < length (j_mem s))%nat ->
    i_step loops inner own (TExpr [EPost (b "++") (EName [x])]) s = Some (ISt (update (j_this s) x (XPtr (S n))) (j_vars s) (j_mem s)).
  Proof.
    intros x s n A B C. apply Nat.ltb_lt in C. unfold i_step, i_expr. cbn [ieval].
    change (same (b "++") (b "++")) with true. cbn beta iota. rewrite A. unfold has at 1. rewrite B. unfold i_post. cbn [iload]. rewrite B, C. reflexivity.
  Qed.
  Lemma deref_ptr : forall x s n, has (j_vars s) x = false -> assoc (j_this s) x = Some (XPtr n) -> (n < length (j_mem s))%nat ->
    ieval inner own (EPre (b "*") (EName [x])) s = Some (JMem n, s).
  Proof.
    intros x s n A B C. apply Nat.ltb_lt in C. cbn [ieval].
    change (same (b "*") (b "++")) with false. change (same (b "*") (b "*")) with true. cbn beta iota. rewrite A. unfold has at 1. rewrite B.
    unfold i_deref. cbn [iload]. rewrite B, C. reflexivity.
  Qed.
End Steps.

Lemma iter_is : forall k op args l m f r s, ofind (i_ops k) op (map fst args) = Some f ->
  i_body 0 no_inner no_own (o_body f) (ISt l (obind f (map snd args)) m) = Some (r, s) ->
  match r with JVar _ | JIn _ _ | JBack => False | _ => True end ->
  iter_op k op args l m = Some (r, j_this s, j_mem s).
Proof. intros k op args l m f r s F B R. unfold iter_op. rewrite F, B. destruct r; try reflexivity; contradiction. Qed.

(** ** The operators of the iterators *)
Definition iter_class (k : iclass) : Prop := k = t_mem the_iters \/ k = t_const the_iters.
Section Ops.
  Context (k : iclass) (KK : iter_class k) (m : bytes) (p q : nat) (e : Z).
  Definition e_cur : hexpr := EName [b "cursor"].
  Definition e_end : hexpr := EName [b "end"].
  Lemma less : forall v, ivalue no_inner no_own (EBin (b "<") e_cur e_end) (ISt (cells p q e) [] v) = Some (XBool (Nat.ltb p q), ISt (cells p q e) [] v).
  Proof. intros v. reflexivity. Qed.
  Lemma at_end : forall v, ivalue no_inner no_own (EBin (b ">=") e_cur e_end) (ISt (cells p q e) [] v) = Some (XBool (Nat.leb q p), ISt (cells p q e) [] v).
  Proof. intros v. reflexivity. Qed.

  Lemma next_in : (p < q)%nat -> (q <= length m)%nat -> iter_op k (b "++") [] (cells p q e) m = Some (JThis, cells (S p) q e, m).
  Proof.
    intros A B. pose proof (less m) as L. replace (p <? q)%nat with true in L by (symmetry; apply Nat.ltb_lt; exact A).
    assert (exists f, ofind (i_ops k) (b "++") [] = Some f /\
              o_body f = [TIf (EBin (b "<") e_cur e_end) (TExpr [EPost (b "++") e_cur]) None; TReturn (Some (EPre (b "*") EThis))] /\ o_params f = []) as (f & F & G & P).
    { destruct KK as [-> | ->]; eexists; (split; [reflexivity|split; reflexivity]). }
    rewrite (iter_is k (b "++") [] _ m f JThis (ISt (cells (S p) q e) [] m)); [reflexivity|exact F| |exact I].
    unfold obind. rewrite P, G. cbn [map combine].
    erewrite if_step; [|exact L|apply post_step; [reflexivity|reflexivity|cbn [j_mem]; lia]]. reflexivity.
  Qed.
  Lemma next_end : (q <= p)%nat -> iter_op k (b "++") [] (cells p q e) m = Some (JThis, cells p q e, m).
  Proof.
    intros A. pose proof (less m) as L. replace (p <? q)%nat with false in L by (symmetry; apply Nat.ltb_ge; exact A).
    assert (exists f, ofind (i_ops k) (b "++") [] = Some f /\
              o_body f = [TIf (EBin (b "<") e_cur e_end) (TExpr [EPost (b "++") e_cur]) None; TReturn (Some (EPre (b "*") EThis))] /\ o_params f = []) as (f & F & G & P).
    { destruct KK as [-> | ->]; eexists; (split; [reflexivity|split; reflexivity]). }
    rewrite (iter_is k (b "++") [] _ m f JThis (ISt (cells p q e) [] m)); [reflexivity|exact F| |exact I].
    unfold obind. rewrite P, G. cbn [map combine]. erewrite if_skip; [|exact L]. reflexivity.
  Qed.
  Lemma deref_in : (p < q)%nat -> (q <= length m)%nat -> iter_op k (b "*") [] (cells p q e) m = Some (JMem p, cells p q e, m).
  Proof.
    intros A B. pose proof (at_end m) as L. replace (q <=? p)%nat with false in L by (symmetry; apply Nat.leb_gt; exact A).
    assert (exists f, ofind (i_ops k) (b "*") [] = Some f /\
              o_body f = [TIf (EBin (b ">=") e_cur e_end) (TReturn (Some (EName [b "empty"]))) None; TReturn (Some (EPre (b "*") e_cur))] /\ o_params f = []) as (f & F & G & P).
    { destruct KK as [-> | ->]; eexists; (split; [reflexivity|split; reflexivity]). }
    rewrite (iter_is k (b "*") [] _ m f (JMem p) (ISt (cells p q e) [] m)); [reflexivity|exact F| |exact I].
    unfold obind. rewrite P, G. cbn [map combine]. erewrite if_skip; [|exact L]. cbn [i_body]. apply deref_ptr; [reflexivity|reflexivity|cbn [j_mem]; lia].
  Qed.
  Lemma deref_end : (q <= p)%nat -> iter_op k (b "*") [] (cells p q e) m = Some (JMember (b "empty"), cells p q e, m).
  Proof.
    intros A. pose proof (at_end m) as L. replace (q <=? p)%nat with true in L by (symmetry; apply Nat.leb_le; exact A).
    assert (exists f, ofind (i_ops k) (b "*") [] = Some f /\
              o_body f = [TIf (EBin (b ">=") e_cur e_end) (TReturn (Some (EName [b "empty"]))) None; TReturn (Some (EPre (b "*") e_cur))] /\ o_params f = []) as (f & F & G & P).
    { destruct KK as [-> | ->]; eexists; (split; [reflexivity|split; reflexivity]). }
    rewrite (iter_is k (b "*") [] _ m f (JMember (b "empty")) (ISt (cells p q e) [] m)); [reflexivity|exact F| |exact I].
    unfold obind. rewrite P, G. cbn [map combine]. erewrite if_return; [|exact L]. reflexivity.
  Qed.
End Ops.
Lemma equal_ops : forall p q e p' q' e' m, iter_op (t_const the_iters) (b "==") [(words_of "const mem_const_iterator<T> &", XObj (cells p' q' e'))] (cells p q e) m
  = Some (JVal (XBool (Nat.eqb p p')), cells p q e, m).
Proof. intros. vm_compute. reflexivity. Qed.

(** ** One character: *++beg_ = y *)
Definition in_op (op : bytes) := iter_op (t_mem the_iters) op [].
Definition put (y : hexpr) : hexpr := ESet (b "=") (EPre (b "*") (EPre (b "++") (EName [b "beg_"]))) y.
Definition one (it : ival) (m : bytes) (c : ascii) (it' : ival) (m' : bytes) : Prop :=
  forall own y s vs, ivalue in_op own y s = Some (XChr (schar c), ISt [(b "beg_", it)] vs m) -> has vs (b "beg_") = false ->
  i_expr in_op own (put y) s = Some (ISt [(b "beg_", it')] vs m').
Lemma ivalue_is : forall inner own e s, ivalue inner own e s
  = match ieval inner own e s with Some (r, s1) => match iload s1 r with Some v => Some (v, s1) | None => None end | None => None end.
Proof. reflexivity. Qed.
Lemma eval_set : forall inner own x y s v s1, ivalue inner own y s = Some (v, s1) ->
  ieval inner own (ESet (b "=") x y) s = match ieval inner own x s1 with Some (r, s2) => option_map (fun s3 => (r, s3)) (istore s2 r v) | None => None end.
Proof. intros inner own x y s v s1 H. rewrite ivalue_is in H. cbn [ieval]. change (same (b "=") (b "=")) with true. cbn beta iota. rewrite H. reflexivity. Qed.
Lemma eval_next : forall inner own it vs m, has vs (b "beg_") = false ->
  ieval inner own (EPre (b "++") (EName [b "beg_"])) (ISt [(b "beg_", it)] vs m) = i_next inner (JMember (b "beg_")) (ISt [(b "beg_", it)] vs m).
Proof. intros inner own it vs m H. cbn [ieval]. change (same (b "++") (b "++")) with true. cbn beta iota. cbn [j_vars]. rewrite H. reflexivity. Qed.
Lemma eval_deref : forall inner own x s, x <> EThis ->
  ieval inner own (EPre (b "*") x) s = match ieval inner own x s with Some (r, s1) => i_deref inner r s1 | None => None end.
Proof.
  intros inner own x s H. cbn [ieval]. change (same (b "*") (b "++")) with false. change (same (b "*") (b "*")) with true. cbn beta iota.
  destruct x; try reflexivity. contradiction.
Qed.

Lemma one_back : forall m c, one XBack m c XBack (m ++ [c]).
Proof.
  intros m c own y s vs H V. unfold i_expr, put. rewrite (eval_set _ _ _ _ _ _ _ H).
  rewrite eval_deref by discriminate. rewrite (eval_next _ _ _ _ _ V).
  change (i_next in_op (JMember (b "beg_")) (ISt [(b "beg_", XBack)] vs m)) with (Some (JMember (b "beg_"), ISt [(b "beg_", XBack)] vs m)). cbn beta iota.
  change (i_deref in_op (JMember (b "beg_")) (ISt [(b "beg_", XBack)] vs m)) with (Some (JBack, ISt [(b "beg_", XBack)] vs m)). cbn beta iota.
  cbn [istore option_map snd]. rewrite chr_schar. reflexivity.
Qed.

Lemma next_obj : forall l l' vs m, in_op (b "++") l m = Some (JThis, l', m) ->
  i_next in_op (JMember (b "beg_")) (ISt [(b "beg_", XObj l)] vs m) = Some (JMember (b "beg_"), ISt [(b "beg_", XObj l')] vs m).
Proof. intros l l' vs m H. unfold i_next. change (iload (ISt [(b "beg_", XObj l)] vs m) (JMember (b "beg_"))) with (Some (XObj l)). cbn beta iota. cbn [j_mem]. rewrite H. reflexivity. Qed.
Lemma deref_obj : forall l vs m n, in_op (b "*") l m = Some (JMem n, l, m) ->
  i_deref in_op (JMember (b "beg_")) (ISt [(b "beg_", XObj l)] vs m) = Some (JMem n, ISt [(b "beg_", XObj l)] vs m).
Proof. intros l vs m n H. unfold i_deref. change (iload (ISt [(b "beg_", XObj l)] vs m) (JMember (b "beg_"))) with (Some (XObj l)). cbn beta iota. cbn [j_mem]. rewrite H. reflexivity. Qed.
Lemma deref_obj_end : forall l vs m y, in_op (b "*") l m = Some (JMember y, l, m) ->
  i_deref in_op (JMember (b "beg_")) (ISt [(b "beg_", XObj l)] vs m) = Some (JIn (b "beg_") y, ISt [(b "beg_", XObj l)] vs m).
Proof. intros l vs m y H. unfold i_deref. change (iload (ISt [(b "beg_", XObj l)] vs m) (JMember (b "beg_"))) with (Some (XObj l)). cbn beta iota. cbn [j_mem]. rewrite H. reflexivity. Qed.

Lemma one_mem : forall i e c i', (mi_cur i <= mi_end i)%nat -> (mi_end i <= length (mi_mem i))%nat -> sink_mem i c = Some i' ->
  exists e', one (mem_obj i e) (mi_mem i) c (mem_obj i' e') (mi_mem i') /\ (mi_cur i' <= mi_end i')%nat /\ (mi_end i' <= length (mi_mem i'))%nat.
Proof.
  intros [m p q] e c i' A B. unfold sink_mem, mem_obj. cbn [mi_cur mi_end mi_mem] in A, B |- *. intros SM.
  assert (KK : iter_class (t_mem the_iters)) by (left; reflexivity).
  assert (NX : in_op (b "++") (cells p q e) m = Some (JThis, cells (if (p <? q)%nat then (p + 1)%nat else p) q e, m)).
  { unfold in_op. destruct (p <? q)%nat eqn:L.
    - apply Nat.ltb_lt in L. rewrite Nat.add_1_r. exact (next_in _ KK m p q e L B).
    - apply Nat.ltb_ge in L. exact (next_end _ KK m p q e L). }
  set (p1 := if (p <? q)%nat then (p + 1)%nat else p) in NX.
  assert (P : (if (p <? q)%nat then S p else p) = p1) by (unfold p1; destruct (p <? q)%nat; lia). rewrite P in SM.
  assert (p1 <= q)%nat by (unfold p1; destruct (Nat.ltb_spec p q); lia).
  destruct (Nat.leb_spec q p1) as [L|L].
  - injection SM as <-. exists (schar c). cbn [mi_cur mi_end mi_mem]. split; [|split; assumption].
    intros own y s vs HY V. unfold i_expr, put. rewrite (eval_set _ _ _ _ _ _ _ HY).
    rewrite eval_deref by discriminate. rewrite (eval_next _ _ _ _ _ V). rewrite (next_obj _ _ _ _ NX). cbn beta iota.
    rewrite (deref_obj_end _ _ _ (b "empty")) by exact (deref_end _ KK m p1 q e L). cbn beta iota. reflexivity.
  - destruct (Nat.ltb_spec p1 (length m)) as [L2|L2]; [|lia]. injection SM as <-. exists e. cbn [mi_cur mi_end mi_mem]. rewrite set_nth_length. split; [|split; assumption].
    intros own y s vs HY V. unfold i_expr, put. rewrite (eval_set _ _ _ _ _ _ _ HY).
    rewrite eval_deref by discriminate. rewrite (eval_next _ _ _ _ _ V). rewrite (next_obj _ _ _ _ NX). cbn beta iota.
    rewrite (deref_obj _ _ _ p1) by exact (deref_in _ KK m p1 q e L B). cbn beta iota. cbn [istore j_mem]. apply Nat.ltb_lt in L2. rewrite L2. cbn [option_map snd].
    rewrite chr_schar. reflexivity.
Qed.

(** ** All characters *)
Inductive ones (it : ival) (m : bytes) : bytes -> ival -> bytes -> Prop :=
  | OnesNone : ones it m [] it m
  | OnesMore : forall c s it1 m1 it' m', one it m c it1 m1 -> ones it1 m1 s it' m' -> ones it m (c :: s) it' m'.
Lemma ones_back : forall s m, ones XBack m s XBack (m ++ s).
Proof.
  induction s as [|c s IH]; intros m; [rewrite app_nil_r; constructor|]. econstructor; [apply one_back|]. specialize (IH (m ++ [c])). rewrite <- app_assoc in IH. exact IH.
Qed.
Lemma ones_mem : forall s i e, (mi_cur i <= mi_end i)%nat -> (mi_end i <= length (mi_mem i))%nat ->
  exists i' e', sink_mem_all i s = Some i' /\ ones (mem_obj i e) (mi_mem i) s (mem_obj i' e') (mi_mem i') /\ (mi_cur i' <= mi_end i')%nat /\ (mi_end i' <= length (mi_mem i'))%nat.
Proof.
  induction s as [|c s IH]; intros i e A B; [exists i, e; repeat split; [constructor|assumption..]|].
  assert (exists i1, sink_mem i c = Some i1) as [i1 S].
  { unfold sink_mem. destruct (Nat.ltb_spec (mi_cur i) (mi_end i)); match goal with |- context [Nat.leb ?x ?y] => destruct (Nat.leb_spec x y) end; eauto;
      match goal with |- context [Nat.ltb ?x ?y] => destruct (Nat.ltb_spec x y) end; eauto; lia. }
  destruct (one_mem i e c i1 A B S) as (e1 & H1 & A1 & B1). destruct (IH i1 e1 A1 B1) as (i' & e' & S' & H' & A' & B').
  exists i', e'. cbn [sink_mem_all]. rewrite S. repeat split; try assumption. econstructor; eassumption.
Qed.

(** ** The three loops *)
Section Out.
  Context (N : nat) (own : list bytes -> ival -> ist -> option (ires * ist)).
  Definition e_it : hexpr := EName [b "it"].
  Definition e_val : hexpr := EName [b "value"].
  Definition c_for : hexpr := EBin (b "!=") e_it (ECall (EDot e_val (b "end")) []).
  Definition s_for (s : ist) : option ist := match i_expr in_op own (put (EPre (b "*") e_it)) s with Some s' => i_expr in_op own (EPre (b "++") e_it) s' | None => None end.
  Lemma loop_for : forall s w it m it' m' n, ones it m s it' m' -> (length s < n)%nat ->
    i_while in_op own n c_for s_for (ISt [(b "beg_", it)] [(b "it", XIt s); (b "value", XString w)] m)
    = Some (ISt [(b "beg_", it')] [(b "it", XIt []); (b "value", XString w)] m').
  Proof.
    induction s as [|c s IH]; intros w it m it' m' n H L; (destruct n as [|n]; [inversion L|]); inversion H as [|c' s' it1 m1 i2 m2 H1 H2]; subst.
    - reflexivity.
    - cbn [i_while].
      change (ivalue in_op own c_for (ISt [(b "beg_", it)] [(b "it", XIt (c :: s)); (b "value", XString w)] m))
        with (Some (XBool true, ISt [(b "beg_", it)] [(b "it", XIt (c :: s)); (b "value", XString w)] m)). cbn beta iota.
      unfold s_for at 1. rewrite (H1 own (EPre (b "*") e_it) _ [(b "it", XIt (c :: s)); (b "value", XString w)]) by reflexivity.
      change (i_expr in_op own (EPre (b "++") e_it) (ISt [(b "beg_", it1)] [(b "it", XIt (c :: s)); (b "value", XString w)] m1))
        with (Some (ISt [(b "beg_", it1)] [(b "it", XIt s); (b "value", XString w)] m1)). cbn beta iota.
      apply IH; [exact H2|cbn [length] in L; lia].
  Qed.
  Definition c_while : hexpr := EBin (b "!=") (EPre (b "*") e_val) (ENum false 0).
  Lemma loop_while : forall s r it m it' m' n, ones it m s it' m' -> (length s < n)%nat -> ~ In (chr 0) s ->
    i_while in_op own n c_while (i_expr in_op own (put (EPre (b "*") (EPost (b "++") e_val)))) (ISt [(b "beg_", it)] [(b "value", XArr (s ++ chr 0 :: r))] m)
    = Some (ISt [(b "beg_", it')] [(b "value", XArr (chr 0 :: r))] m').
  Proof.
    induction s as [|c s IH]; intros r it m it' m' n H L Z; (destruct n as [|n]; [inversion L|]); inversion H as [|c' s' it1 m1 i2 m2 H1 H2]; subst.
    - reflexivity.
    - cbn [i_while app].
      assert (C : ivalue in_op own c_while (ISt [(b "beg_", it)] [(b "value", XArr (c :: s ++ chr 0 :: r))] m)
        = Some (XBool (negb (schar c =? 0)), ISt [(b "beg_", it)] [(b "value", XArr (c :: s ++ chr 0 :: r))] m)) by reflexivity.
      rewrite C. replace (schar c =? 0) with false; [|symmetry; apply Z.eqb_neq; intros E; apply Z; left; rewrite <- (chr_schar c), E; reflexivity].
      cbn [negb]. cbn beta iota. rewrite (H1 own _ _ [(b "value", XArr (s ++ chr 0 :: r))]) by reflexivity.
      apply IH; [exact H2|cbn [length] in L; lia|intros I; apply Z; right; exact I].
  Qed.
End Out.

Lemma puts_ones : forall t v s, shows t v s -> forall it m it' m', ones it m s it' m' -> puts it m t v it' m'.
Proof.
  intros t v s H it m it' m' O. exists (S (length s)). intros N L. rewrite iters_is. destruct H as [c|s|s r Z|s r Z].
  - inversion O as [|c' s' it1 m1 i2 m2 H1 H2]; subst. inversion H2; subst. cbn [out_op].
    change (ofind (i_ops (t_out the_iters)) (b "<<") [words_of "char"]) with (Some (OFun (b "<<") [([b "char"], b "value")] [TExpr [put e_val]; TReturn (Some (EPre (b "*") EThis))])).
    cbn beta iota. unfold obind. cbn [o_body o_params map combine]. change (fun op => iter_op (t_mem the_iters) op []) with in_op.
    erewrite then_step; [|unfold i_step; apply (H1 _ e_val _ [(b "value", XChr (schar c))]); reflexivity]. reflexivity.
  - cbn [out_op].
    change (ofind (i_ops (t_out the_iters)) (b "<<") [words_of "const std::string &"])
      with (Some (OFun (b "<<") [(words_of "const std::string &", b "value")]
             [TFor (TVar [b "auto"] (b "it") None (Some (ECall (EDot e_val (b "begin")) []))) c_for [EPre (b "++") e_it] (TExpr [put (EPre (b "*") e_it)]); TReturn (Some (EPre (b "*") EThis))])).
    cbn beta iota. unfold obind. cbn [o_body o_params map combine]. change (fun op => iter_op (t_mem the_iters) op []) with in_op.
    cbn [i_body]. unfold i_step.
    match goal with |- context [ivalue in_op ?o ?i ?s0] => change (ivalue in_op o i s0) with (Some (XIt s, s0)) end. cbn beta iota.
    change (words_eqb [b "auto"] [b "auto"]) with true. cbn [j_this j_vars j_mem sink snd fst].
    match goal with |- context [i_while in_op ?o N c_for ?f ?s0] => pose proof (loop_for o s s it m it' m' N O ltac:(lia)) as E; unfold s_for in E; rewrite E end.
    reflexivity.
  - cbn [out_op].
    change (ofind (i_ops (t_out the_iters)) (b "<<") [words_of "const char *"])
      with (Some (OFun (b "<<") [(words_of "const char *", b "value")]
             [TWhile c_while (TExpr [put (EPre (b "*") (EPost (b "++") e_val))]); TReturn (Some (EPre (b "*") EThis))])).
    cbn beta iota. unfold obind. cbn [o_body o_params map combine]. change (fun op => iter_op (t_mem the_iters) op []) with in_op.
    cbn [i_body]. unfold i_step. cbn [j_this j_vars j_mem sink snd fst].
    match goal with |- context [i_while in_op ?o N c_while ?f ?s0] => rewrite (loop_while o s r it m it' m' N O ltac:(lia) Z) end.
    reflexivity.
  - cbn [out_op].
    change (ofind (i_ops (t_out the_iters)) (b "<<") [words_of "char *"])
      with (Some (OFun (b "<<") [(words_of "char *", b "value")] [TReturn (Some (EBin (b "<<") (EPre (b "*") EThis) (ECast (words_of "const char *") e_val)))])).
    change (ofind (i_ops (t_out the_iters)) (b "<<") [words_of "const char *"])
      with (Some (OFun (b "<<") [(words_of "const char *", b "value")]
             [TWhile c_while (TExpr [put (EPre (b "*") (EPost (b "++") e_val))]); TReturn (Some (EPre (b "*") EThis))])).
    cbn beta iota. unfold obind. cbn [o_body o_params map combine]. change (fun op => iter_op (t_mem the_iters) op []) with in_op.
    cbn [i_body].
    match goal with |- context [ieval in_op ?o (EBin ?a ?x ?y) ?s0] =>
      change (ieval in_op o (EBin a x y) s0) with (o (words_of "const char *") (XArr (s ++ chr 0 :: r)) s0) end. cbn beta iota.
    change (ofind (i_ops (t_out the_iters)) (b "<<") [words_of "const char *"])
      with (Some (OFun (b "<<") [(words_of "const char *", b "value")]
             [TWhile c_while (TExpr [put (EPre (b "*") (EPost (b "++") e_val))]); TReturn (Some (EPre (b "*") EThis))])).
    cbn beta iota. unfold obind. cbn [o_body o_params map combine].
    cbn [i_body]. unfold i_step. cbn [j_this j_vars j_mem sink snd fst].
    match goal with |- context [i_while in_op ?o N c_while ?f ?s0] => rewrite (loop_while o s r it m it' m' N O ltac:(lia) Z) end.
    reflexivity.
Qed.

(** ** The stream as a whole *)
Lemma out_append : forall t v s m, shows t v s -> puts XBack m t v XBack (m ++ s).
Proof. intros t v s m H. eapply puts_ones; [exact H|apply ones_back]. Qed.
Lemma out_memory : forall t v s i e, shows t v s -> (mi_cur i <= mi_end i)%nat -> (mi_end i <= length (mi_mem i))%nat ->
  exists i' e', sink_mem_all i s = Some i' /\ puts (mem_obj i e) (mi_mem i) t v (mem_obj i' e') (mi_mem i') /\
    (mi_cur i' <= mi_end i')%nat /\ (mi_end i' <= length (mi_mem i'))%nat.
Proof.
  intros t v s i e H A B. destruct (ones_mem s i e A B) as (i' & e' & S & O & A' & B'). exists i', e'. repeat split; try assumption. eapply puts_ones; eassumption.
Qed.
Lemma out_new : forall it m, it = XBack \/ (exists l, it = XObj l) -> iter_new (t_out iters) [it] m = Some (j_this (sink it m)).
Proof. intros it m H. rewrite iters_is. destruct H as [->|[l ->]]; vm_compute; reflexivity. Qed.
Lemma ptr_new : forall k m p n, iter_class k -> (p + n <= length m)%nat -> iter_new k [XPtr p; XNum (Z.of_nat n)] m = Some (cells p (p + n) 0).
Proof.
  intros k m p n H L.
  assert (E : ivalue no_inner no_own (EBin (b "+") (EName [b "begin"]) (EName [b "count"])) (ISt [] [(b "begin", XPtr p); (b "count", XNum (Z.of_nat n))] m)
    = Some (XPtr (p + n), ISt [] [(b "begin", XPtr p); (b "count", XNum (Z.of_nat n))] m)).
  { rewrite ivalue_is.
    assert (F : ieval no_inner no_own (EBin (b "+") (EName [b "begin"]) (EName [b "count"])) (ISt [] [(b "begin", XPtr p); (b "count", XNum (Z.of_nat n))] m)
      = match i_binary m (b "+") (XPtr p) (XNum (Z.of_nat n)) with Some w => Some (JVal w, ISt [] [(b "begin", XPtr p); (b "count", XNum (Z.of_nat n))] m) | None => None end) by reflexivity.
    rewrite F. unfold i_binary. change (same (b "+") (b "+")) with true. cbn [andb].
    replace (0 <=? Z.of_nat n) with true by (symmetry; apply Z.leb_le; lia).
    replace (Z.of_nat p + Z.of_nat n <=? Z.of_nat (length m)) with true by (symmetry; apply Z.leb_le; lia). cbn [andb]. rewrite Nat2Z.id. reflexivity. }
  unfold iter_new.
  assert (Q : exists ps, i_ctor k = Some (HCtor ps [(b "cursor", [EName [b "begin"]]); (b "end", [EBin (b "+") (EName [b "begin"]) (EName [b "count"])]); (b "empty", [ENum false 0])] []) /\
             map snd ps = [b "begin"; b "count"] /\ length ps = 2%nat).
  { destruct H as [-> | ->]; eexists; (split; [reflexivity|split; reflexivity]). }
  destruct Q as (ps & Q & NM & LP). rewrite Q, LP, NM. change (Nat.eqb 2 (length [XPtr p; XNum (Z.of_nat n)])) with true. cbn beta iota.
  cbn [combine].
  assert (T : exists t1 t2, i_cells k = [(t1, b "cursor"); (t2, b "end"); (words_of "T", b "empty")] /\ (forall x, cell_conv t1 (XPtr x) = Some (XPtr x)) /\ (forall x, cell_conv t2 (XPtr x) = Some (XPtr x))).
  { destruct H as [-> | ->]; eexists _, _; (split; [reflexivity|split; intros x; reflexivity]). }
  destruct T as (t1 & t2 & T & T1 & T2). rewrite T. cbn [map snd fst].
  match goal with |- context [assoc ?l (b "cursor")] => change (assoc l (b "cursor")) with (Some [EName [b "begin"]]);
    change (assoc l (b "end")) with (Some [EBin (b "+") (EName [b "begin"]) (EName [b "count"])]); change (assoc l (b "empty")) with (Some [ENum false 0]) end.
  cbn beta iota. rewrite E.
  match goal with |- context [ivalue no_inner no_own (EName [b "begin"]) ?s] => change (ivalue no_inner no_own (EName [b "begin"]) s) with (Some (XPtr p, s));
    change (ivalue no_inner no_own (ENum false 0) s) with (Some (XNum 0, s)) end.
  cbn beta iota. rewrite T1, T2. reflexivity.
Qed.

Lemma append_all : forall l ss m, Forall2 (fun a s => shows (fst a) (snd a) s) l ss -> all_put XBack m l XBack (m ++ concat ss).
Proof.
  intros l ss m H. revert m. induction H as [|[t v] s l ss H _ IH]; intros m; [cbn [concat]; rewrite app_nil_r; constructor|].
  econstructor; [apply out_append, H|]. cbn [concat]. rewrite app_assoc. apply IH.
Qed.
Lemma sink_app : forall s1 s2 i, sink_mem_all i (s1 ++ s2) = match sink_mem_all i s1 with Some i' => sink_mem_all i' s2 | None => None end.
Proof. induction s1 as [|c s1 IH]; intros s2 i; [reflexivity|]. cbn [app sink_mem_all]. destruct (sink_mem i c); [apply IH|reflexivity]. Qed.
Lemma memory_all : forall l ss, Forall2 (fun a s => shows (fst a) (snd a) s) l ss -> forall i e, (mi_cur i <= mi_end i)%nat -> (mi_end i <= length (mi_mem i))%nat ->
  exists i' e', sink_mem_all i (concat ss) = Some i' /\ all_put (mem_obj i e) (mi_mem i) l (mem_obj i' e') (mi_mem i').
Proof.
  intros l ss H. induction H as [|[t v] s l ss H _ IH]; intros i e A B; [exists i, e; split; [reflexivity|constructor]|].
  destruct (out_memory t v s i e H A B) as (i1 & e1 & S1 & P1 & A1 & B1). destruct (IH i1 e1 A1 B1) as (i' & e' & S' & P').
  exists i', e'. cbn [concat]. rewrite sink_app, S1. split; [exact S'|econstructor; eassumption].
Qed.
Lemma buffer_all : forall ty0 v m inp len po l ss r po', (inp + len <= length m)%nat -> serialize ty0 v po = (r, concat ss, po') ->
  Forall2 (fun a s => shows (fst a) (snd a) s) l ss ->
  exists first it' m', iter_new (t_mem iters) [XPtr inp; XNum (Z.of_nat len)] m = Some first /\
    serialize_mem ty0 v m inp len po = Some (r, m', po') /\ all_put (XObj first) m l it' m'.
Proof.
  intros ty0 v m inp len po l ss r po' L S H.
  destruct (memory_all l ss H (MI m inp (inp + len)) 0) as (i' & e' & S' & P'); [cbn [mi_cur mi_end]; lia|exact L|].
  exists (cells inp (inp + len) 0), (mem_obj i' e'), (mi_mem i'). split; [rewrite iters_is; apply ptr_new; [left; reflexivity|exact L]|].
  split; [|exact P']. unfold serialize_mem. rewrite S, S'. reflexivity.
Qed.

(** ** Reading *)
Lemma between_more : forall m p q, (p < q)%nat -> (q <= length m)%nat -> exists c, nth_error m p = Some c /\ between m p q = c :: between m (S p) q.
Proof.
  intros m p q A B. unfold between. replace (q - p)%nat with (S (q - S p)) by lia.
  revert m B. induction p as [|p IH] in q, A |- *.
  - intros [|c m] B; [cbn [length] in B; lia|]. exists c. split; reflexivity.
  - intros [|c m] B; [cbn [length] in B; lia|]. destruct q as [|q]; [lia|]. destruct (IH q ltac:(lia) m ltac:(cbn [length] in B; lia)) as (d & D & E).
    exists d. split; [exact D|]. cbn [skipn] in E |- *. replace (S q - S (S p))%nat with (q - S p)%nat by lia. exact E.
Qed.
Lemma reading : forall m p q e e', (p <= q)%nat -> (q <= length m)%nat ->
  iter_op (t_const iters) (b "==") [(words_of "const mem_const_iterator<T> &", XObj (cells q q e'))] (cells p q e) m
    = Some (JVal (XBool (match between m p q with [] => true | _ => false end)), cells p q e, m) /\
  match between m p q with
  | c :: r => nth_error m p = Some c /\ iter_op (t_const iters) (b "*") [] (cells p q e) m = Some (JMem p, cells p q e, m) /\
              iter_op (t_const iters) (b "++") [] (cells p q e) m = Some (JThis, cells (S p) q e, m) /\ between m (S p) q = r /\ (S p <= q)%nat
  | [] => iter_op (t_const iters) (b "*") [] (cells p q e) m = Some (JMember (b "empty"), cells p q e, m) /\
          iter_op (t_const iters) (b "++") [] (cells p q e) m = Some (JThis, cells p q e, m)
  end.
Proof.
  intros m p q e e' A B. rewrite iters_is. rewrite equal_ops.
  assert (KK : iter_class (t_const the_iters)) by (right; reflexivity).
  destruct (Nat.eqb_spec p q) as [<-|NE].
  - unfold between. rewrite Nat.sub_diag. cbn [firstn]. split; [reflexivity|]. split; [apply deref_end; [exact KK|lia]|apply next_end; [exact KK|lia]].
  - destruct (between_more m p q ltac:(lia) B) as (c & C & ->). split; [reflexivity|]. split; [exact C|].
    split; [apply deref_in; [exact KK|lia|exact B]|]. split; [apply next_in; [exact KK|lia|exact B]|]. split; [reflexivity|lia].
Qed.
Lemma const_new : forall m p n, (p + n <= length m)%nat ->
  iter_new (t_const iters) [XPtr p; XNum (Z.of_nat n)] m = Some (cells p (p + n) 0) /\ iter_new (t_const iters) [XPtr (p + n); XNum 0] m = Some (cells (p + n) (p + n) 0).
Proof.
  intros m p n L. rewrite iters_is. split; [apply ptr_new; [right; reflexivity|exact L]|].
  replace (cells (p + n) (p + n) 0) with (cells (p + n) (p + n + 0) 0) by (rewrite Nat.add_0_r; reflexivity).
  apply (ptr_new _ m (p + n) 0); [right; reflexivity|lia].
Qed.

Lemma zero_free : forall s, existsb (Ascii.eqb (chr 0)) s = false -> ~ In (chr 0) s.
Proof. intros s H I. rewrite (proj2 (existsb_exists (Ascii.eqb (chr 0)) s)) in H; [discriminate H|]. exists (chr 0). split; [exact I|apply Ascii.eqb_refl]. Qed.
