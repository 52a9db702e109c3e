(** The token reader takes what the grammar gives, and nothing can follow a point
    where it stopped with an error. *)
From Verif Require Import Bytes BaseProofs Num Dbl Types Stream Tokenizer Write Read
  SpecJson SpecInterp SpecTok SpecTakes Termination ReadSim TokRead TokRun.

(** ** Skipped values *)
Definition opener (k : jtok) : bool :=
  match k with
  | KLBrace | KLBrack | KStr _ | KNum _ | KTrue | KFalse | KNull => true
  | _ => false
  end.

Lemma skips_head x : skips x -> exists k y, x = k :: y /\ opener k = true.
Proof. destruct 1; eexists _, _; split; reflexivity. Qed.

Lemma tign_arr_open n k y : opener k = true -> tign_arr (S n) (k :: y) =
  match tign n (k :: y) with
  | Some (TOk, _, l1) =>
      match l1 with
      | KComma :: l2 => tign_arr n l2
      | KRBrack :: l2 => Some (TOk, tt, l2)
      | _ => Some (ign_err (b "invalid array"), tt, l1)
      end
  | x => x
  end.
Proof. intros O. rewrite tign_arr_S. destruct k; try discriminate O; reflexivity. Qed.

Lemma skips_complete :
  (forall p, skips p -> forall n l' r u l2, tign n (p ++ l') = Some (r, u, l2) -> l' <> [] -> r = TOk /\ l2 = l') /\
  (forall p, skip_elems p -> forall n l' r u l2, tign_arr n (p ++ l') = Some (r, u, l2) -> r = TOk /\ l2 = l') /\
  (forall p, skip_members p -> forall n l' r u l2, tign_obj n (p ++ l') = Some (r, u, l2) -> r = TOk /\ l2 = l').
Proof.
  apply skips_ind3;
    try (intros; match goal with H : tign ?n _ = Some _ |- _ => destruct n; [discriminate H|] end;
         cbn [app tign] in *; destruct l' as [|k l']; [congruence|];
         match goal with H : Some _ = Some _ |- _ => injection H as <- <- <- end; now split).
  - intros x _ IH [|n] l' r u l2 E _; [discriminate E|]. cbn [app tign] in E. eapply IH, E.
  - intros x _ IH [|n] l' r u l2 E _; [discriminate E|]. cbn [app tign] in E. eapply IH, E.
  - intros [|n] l' r u l2 E; [discriminate E|]. cbn [app] in E. rewrite tign_arr_S in E. now injection E as <- <- <-.
  - intros x K IH [|n] l' r u l2 E; [discriminate E|]. destruct (skips_head _ K) as (k & y & -> & O).
    rewrite <- app_assoc in E. cbn [app] in E. rewrite tign_arr_open in E by exact O.
    destruct (tign n (k :: y ++ KRBrack :: l')) as [[[r1 []] l1]|] eqn:E1; [|discriminate E].
    destruct (IH _ _ _ _ _ E1) as [-> ->]; [discriminate|]. now injection E as <- <- <-.
  - intros x y K IH K2 IH2 [|n] l' r u l2 E; [discriminate E|]. destruct (skips_head _ K) as (k & z & -> & O).
    rewrite <- app_assoc in E. cbn [app] in E. rewrite tign_arr_open in E by exact O.
    destruct (tign n (k :: z ++ KComma :: y ++ l')) as [[[r1 []] l1]|] eqn:E1; [|discriminate E].
    destruct (IH _ _ _ _ _ E1) as [-> ->]; [discriminate|]. eapply IH2, E.
  - intros [|n] l' r u l2 E; [discriminate E|]. cbn [app] in E. rewrite tign_obj_S in E. now injection E as <- <- <-.
  - intros name x K IH [|n] l' r u l2 E; [discriminate E|].
    cbn [app] in E. rewrite <- app_assoc in E. cbn [app] in E. rewrite tign_obj_S in E.
    destruct (tign n (x ++ KRBrace :: l')) as [[[r1 []] l1]|] eqn:E1; [|discriminate E].
    destruct (IH _ _ _ _ _ E1) as [-> ->]; [discriminate|]. now injection E as <- <- <-.
  - intros name x y K IH K2 IH2 [|n] l' r u l2 E; [discriminate E|].
    cbn [app] in E. rewrite <- app_assoc in E. cbn [app] in E. rewrite tign_obj_S in E.
    destruct (tign n (x ++ KComma :: y ++ l')) as [[[r1 []] l1]|] eqn:E1; [|discriminate E].
    destruct (IH _ _ _ _ _ E1) as [-> ->]; [discriminate|]. eapply IH2, E.
Qed.

(** ** Values *)
Lemma takes_head w t v x v' : takes w t v x v' -> exists k y, x = k :: y /\ opener k = true /\ k <> KNull.
Proof.
  destruct 1; try (eexists _, _; split; [reflexivity|split; [reflexivity|discriminate]]);
    (eexists _, _; split; [reflexivity|]; destruct H; split; (reflexivity || discriminate)).
Qed.

Lemma takes_prim_complete p k x x0 l : takes_prim p k x -> tprim p x0 (k :: l) = (TOk, x, l).
Proof. destruct 1; try reflexivity. destruct p; try reflexivity. now elim H. Qed.

Lemma b64_whole_decode s : (Nat.modulo (length s) 4 = 0)%nat -> snd (b64_decode s) = false.
Proof. intros H. apply b64_whole in H. exact H. Qed.

Lemma complete w :
  forall t v p v', takes w t v p v' -> lookup_ok t ->
  forall n l' r v2 l2, tread w n t v (p ++ l') = Some (r, v2, l2) -> r = TOk /\ v2 = v' /\ l2 = l'.
Proof.
  apply (takes_mut w
    (fun t v p v' _ => lookup_ok t ->
       forall n l' r v2 l2, tread w n t v (p ++ l') = Some (r, v2, l2) -> r = TOk /\ v2 = v' /\ l2 = l')
    (fun t l p l3 _ => lookup_ok t -> forall n m l' r v2 l2,
       tarr m (tread w n t) (dflt t) l (p ++ l') = Some (r, v2, l2) -> r = TOk /\ v2 = l3 /\ l2 = l')
    (fun ms g vs p vs' _ => lookup_ok (TMsg ms g) -> forall n m l' r v2 l2,
       tobj m n (tmember g (map (tread w n) ms)) vs (p ++ l') = Some (r, v2, l2) -> r = TOk /\ v2 = vs' /\ l2 = l')
    (fun ms g vs name p vs' _ => lookup_ok (TMsg ms g) -> forall n l' r v2 l2,
       tvalue n (tmember g (map (tread w n) ms)) name vs (p ++ l') = Some (r, v2, l2) -> l' <> [] ->
       r = TOk /\ v2 = vs' /\ l2 = l')).
  - intros p x0 k x T _ n l' r v2 l2 E. cbn [tread app] in E. rewrite (takes_prim_complete _ _ _ _ _ T) in E.
    now injection E as <- <- <-.
  - intros p e x0 k x T _ n l' r v2 l2 E. cbn [tread app] in E. unfold tfield in E.
    rewrite (takes_prim_complete _ _ _ _ _ T) in E. now injection E as <- <- <-.
  - intros e s0 s _ n l' r v2 l2 E. cbn [tread app tstr] in E. now injection E as <- <- <-.
  - intros s0 s W _ n l' r v2 l2 E. cbn [tread app tb64] in E.
    assert (B : snd (b64_decode s) && w = false).
    { destruct w; [|apply andb_false_r]. rewrite b64_whole_decode by auto. reflexivity. }
    destruct (b64_decode s) as [o bad]. cbn [snd fst] in *. rewrite B in E. now injection E as <- <- <-.
  - intros t l _ n l' r v2 l2 E. cbn [tread app tarray tmap] in E. now injection E as <- <- <-.
  - intros t l x l3 TE IH LO n l' r v2 l2 E. cbn [tread app] in E.
    assert (A : tarray n (tread w n t) (dflt t) l (KLBrack :: x ++ l') = tarr n (tread w n t) (dflt t) l (x ++ l')).
    { assert (exists k y, x = k :: y /\ opener k = true) as (k & y & -> & O).
      { destruct TE as [t l x v TK|t l x v y l4 TK TK2]; destruct (takes_head _ _ _ _ _ TK) as (k & z & -> & O & _); eexists _, _; split; try reflexivity; exact O. }
      destruct k; try discriminate O; reflexivity. }
    rewrite A in E. destruct (tarr n (tread w n t) (dflt t) l (x ++ l')) as [[[r1 x1] l1]|] eqn:E1; [|discriminate E].
    destruct (IH LO _ _ _ _ _ _ E1) as (-> & -> & ->). cbn [tmap] in E. now injection E as <- <- <-.
  - intros ms g vs _ n l' r v2 l2 E. cbn [tread app tobject tmap] in E. now injection E as <- <- <-.
  - intros ms g vs x vs' TM IH LO n l' r v2 l2 E. cbn [tread app] in E.
    set (rf := tmember g (map (tread w n) ms)) in *.
    assert (A : tobject n rf vs (KLBrace :: x ++ l') = tobj n n rf vs (x ++ l')) by (destruct TM; reflexivity).
    rewrite A in E. destruct (tobj n n rf vs (x ++ l')) as [[[r1 x1] l1]|] eqn:E1; [|discriminate E].
    destruct (IH LO _ _ _ _ _ _ E1) as (-> & -> & ->). cbn [tmap] in E. now injection E as <- <- <-.
  - intros t l x v TK IH LO n m l' r v2 l2 E. destruct m as [|m]; [discriminate E|].
    rewrite <- app_assoc in E. cbn [app] in E. rewrite tarr_S in E.
    destruct (tread w n t (dflt t) (x ++ KRBrack :: l')) as [[[r1 x1] l1]|] eqn:E1; [|discriminate E].
    destruct (IH LO _ _ _ _ _ E1) as (-> & -> & ->). now injection E as <- <- <-.
  - intros t l x v y l3 TK IH TK2 IH2 LO n m l' r v2 l2 E. destruct m as [|m]; [discriminate E|].
    rewrite <- app_assoc in E. cbn [app] in E. rewrite tarr_S in E.
    destruct (tread w n t (dflt t) (x ++ KComma :: y ++ l')) as [[[r1 x1] l1]|] eqn:E1; [|discriminate E].
    destruct (IH LO _ _ _ _ _ E1) as (-> & -> & ->). eapply IH2; [exact LO|exact E].
  - intros ms g vs name x vs' TK IH LO n m l' r v2 l2 E. destruct m as [|m]; [discriminate E|].
    cbn [app] in E. rewrite <- app_assoc in E. cbn [app] in E. rewrite tobj_S in E.
    destruct (tvalue n (tmember g (map (tread w n) ms)) name vs (x ++ KRBrace :: l')) as [[[r1 x1] l1]|] eqn:E1; [|discriminate E].
    destruct (IH LO _ _ _ _ _ E1) as (-> & -> & ->); [discriminate|]. now injection E as <- <- <-.
  - intros ms g vs name x vs1 y vs' TK IH TK2 IH2 LO n m l' r v2 l2 E. destruct m as [|m]; [discriminate E|].
    cbn [app] in E. rewrite <- app_assoc in E. cbn [app] in E. rewrite tobj_S in E.
    destruct (tvalue n (tmember g (map (tread w n) ms)) name vs (x ++ KComma :: y ++ l')) as [[[r1 x1] l1]|] eqn:E1; [|discriminate E].
    destruct (IH LO _ _ _ _ _ E1) as (-> & -> & ->); [discriminate|]. eapply IH2; [exact LO|exact E].
  - intros ms g vs name x F K LO n l' r v2 l2 E NE. apply lookup_ok_msg in LO as [LO LOs].
    unfold tvalue, tmember in E. rewrite LO in E. unfold field_of in F.
    assert (E' : match tign n (x ++ l') with None => None | Some (r, _, l2) => Some (r, vs, l2) end = Some (r, v2, l2)).
    { destruct (member_named (g_write g) name) as [k|]; [|exact E].
      rewrite nth_error_map in E. destruct (nth_error ms k); [discriminate F|exact E]. }
    destruct (tign n (x ++ l')) as [[[r1 []] l1]|] eqn:E1; [|discriminate E'].
    destruct (proj1 skips_complete _ K _ _ _ _ _ E1 NE) as [-> ->]. now injection E' as <- <- <-.
  - intros ms g vs name k t v F V LO n l' r v2 l2 E NE. pose proof LO as LO'. apply lookup_ok_msg in LO as [LO LOs].
    unfold tvalue, tmember in E. rewrite LO in E. pose proof (field_of_some _ _ _ _ _ F) as [M N].
    rewrite M, nth_error_map, N, V in E. cbn [option_map app] in E.
    destruct (tread w n t v (KNull :: l')) as [[[r1 x1] l1]|] eqn:E1; [|discriminate E].
    assert (r1 = TNil /\ x1 = nulled v /\ l1 = KNull :: l') as (-> & -> & ->).
    { clear -E1. destruct t, v; try discriminate E1; cbn [tread] in E1; try (injection E1 as <- <- <-; now repeat split). }
    destruct n as [|n]; [discriminate E|]. cbn [tign] in E. destruct l'; [congruence|]. now injection E as <- <- <-.
  - intros ms g vs name k t v x v' F V TK IH LO n l' r v2 l2 E NE. apply lookup_ok_msg in LO as [LO LOs].
    unfold tvalue, tmember in E. rewrite LO in E. pose proof (field_of_some _ _ _ _ _ F) as [M N].
    rewrite M, nth_error_map, N, V in E. cbn [option_map] in E.
    destruct (tread w n t v (x ++ l')) as [[[r1 x1] l1]|] eqn:E1; [|discriminate E].
    rewrite Forall_forall in LOs.
    destruct (IH (LOs _ (nth_error_In _ _ N)) _ _ _ _ _ E1) as (-> & -> & ->). now injection E as <- <- <-.
Qed.

(** ** Where a run ends *)
(** After an error no value goes on with the next token. *)
Lemma run_dead w n t v p c m x l' : lookup_ok t -> shape t v = true ->
  loc (tread w n t v) (TErr c m) x p l' ->
  match l' with
  | k :: _ => forall more v', ~ takes w t v (p ++ k :: more) v'
  | [] => True
  end.
Proof.
  intros LO S (_ & L). destruct l' as [|k l']; [exact I|]. intros more v' T.
  assert (E : tread w n t v (p ++ k :: more) = Some (TErr c m, x, k :: more)) by (apply L; right; reflexivity).
  rewrite <- (app_nil_r (p ++ k :: more)) in E.
  now destruct (complete _ _ _ _ _ T LO _ _ _ _ _ E) as (K & _ & _).
Qed.

Lemma run_stuck w n t v l c m x l' : lookup_ok t -> shape t v = true ->
  tread w n t v l = Some (TErr c m, x, l') ->
  exists p, l = p ++ l' /\ viable w t v p /\
    match l' with
    | k :: _ => forall more v', ~ takes w t v (p ++ k :: more) v'
    | [] => True
    end.
Proof.
  intros LO S E. destruct (tread_run w n t LO v S _ _ _ _ E) as (p & -> & L & O).
  exists p. split; [reflexivity|]. split; [|eapply run_dead; eauto].
  destruct O as ([|k more] & z & T); [|now exists k, more, z].
  rewrite app_nil_r in T. destruct (complete _ _ _ _ _ T LO _ _ _ _ _ E) as (K & _ & _). discriminate K.
Qed.

Lemma run_bad n t v l x l' : lookup_ok t -> shape t v = true ->
  tread true n t v l = Some (TBad, x, l') ->
  exists p s, l = p ++ KStr s :: l' /\ viable true t v p /\
    (exists more v', takes false t v (p ++ KStr s :: more) v') /\
    (forall more v', ~ takes true t v (p ++ KStr s :: more) v').
Proof.
  intros LO S E. destruct (tread_run true n t LO v S _ _ _ _ E) as (q & -> & (_ & L) & _ & p & s & -> & O1 & O2).
  rewrite <- app_assoc in *. exists p, s. split; [reflexivity|]. split; [|split].
  - destruct O1 as ([|k more] & z & T); [|now exists k, more, z].
    rewrite app_nil_r in T. destruct (complete _ _ _ _ _ T LO _ _ _ _ _ E) as (K & _ & _). discriminate K.
  - destruct O2 as (more & z & T). rewrite <- app_assoc in T. eauto.
  - intros more v' T. specialize (L more (or_introl eq_refl)). rewrite <- app_assoc in L.
    rewrite <- (app_nil_r (p ++ _)) in L.
    now destruct (complete _ _ _ _ _ T LO _ _ _ _ _ L) as (K & _ & _).
Qed.

(** An accepted value. *)
Lemma run_ok w n t v l x l' : lookup_ok t -> shape t v = true ->
  tread w n t v l = Some (TOk, x, l') -> exists p, l = p ++ l' /\ takes w t v p x.
Proof.
  intros LO S E. destruct (tread_run w n t LO v S _ _ _ _ E) as (p & -> & _ & O). eauto.
Qed.
