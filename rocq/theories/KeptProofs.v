(** Transient fields are not touched by deserialization (C18). *)
From Verif Require Import Bytes BaseProofs Num Dbl Types Stream Tokenizer Write Read
  SpecJson SpecInterp SpecWrite SpecKept Termination ReadSim ApiProofs InterpProofs WriteProofs.

Lemma shape_nth ms g vs k t v : shape (TMsg ms g) (VMsg vs) = true ->
  nth_error ms k = Some t -> nth_error vs k = Some v -> shape t v = true.
Proof.
  intros S M X. apply shape_msg in S. unfold shapes in S. revert k M X.
  induction S; intros [|k] M X; try discriminate; simpl in *; [congruence|eauto].
Qed.

Lemma kept_refl t : forall v, shape t v = true -> kept t v v.
Proof.
  induction t using ty_ind2; intros v S; try constructor; destruct v; try discriminate.
  - rewrite <- (app_nil_r s) at 2. constructor.
  - rewrite <- (app_nil_r l) at 2. constructor. intros x [].
  - constructor; [reflexivity|]. intros k t v M X. exists v. split; [exact X|]. split; [|reflexivity].
    intros _. rewrite Forall_forall in H. apply H; [eapply nth_error_In; eauto|]. eapply shape_nth; eauto.
Qed.

Lemma kept_trans t : forall x y z, kept t x y -> kept t y z -> kept t x z.
Proof.
  induction t using ty_ind2; intros x y z A B; try constructor.
  - inversion A; subst. inversion B; subst. rewrite <- app_assoc. constructor.
  - inversion A as [| | | |t' l new H1|]; subst. inversion B as [| | | |t' l' new' H2|]; subst.
    rewrite <- app_assoc. constructor. intros x I. apply in_app_iff in I as [I|I]; auto.
  - inversion A as [| | | | |ms' g' vs1 vs2 L1 H1]; subst.
    inversion B as [| | | | |ms' g' vs2' vs3 L2 H2]; subst. constructor; [congruence|].
    intros k t v M X. destruct (H1 k t v M X) as (v2 & X2 & K1 & E1).
    destruct (H2 k t v2 M X2) as (v3 & X3 & K2 & E2). exists v3. split; [exact X3|].
    pose proof (nth_error_In _ _ M) as IM. rewrite Forall_forall in H. split.
    + intros W. eapply H; eauto.
    + intros W. rewrite E2, E1 by exact W. reflexivity.
Qed.

(** A reader that keeps and preserves the shape. *)
Definition keeps (t : ty) (rd : tokenizer -> val -> rres val) : Prop :=
  forall tok v r v' tok', shape t v = true -> rd tok v = Some (r, v', tok') ->
    kept t v v' /\ shape t v' = true.

Lemma read_prim_shape n p tok x r x' tok' : pshape p x = true ->
  read_prim n p tok x = Some (r, x', tok') -> pshape p x' = true.
Proof.
  intros S. unfold read_prim, rfail.
  destruct (tk_id tok), p; intros E; try (injection E as <- <- <-; assumption);
    destruct (tk_next n tok); try discriminate; injection E as <- <- <-; reflexivity.
Qed.

Lemma array_loop_keeps nf t rd : keeps t rd -> forall n tok l r l' tok',
  forallb (shape t) l = true -> array_loop n nf rd (dflt t) tok l = Some (r, l', tok') ->
  exists new, l' = l ++ new /\ (forall x, In x new -> kept t (dflt t) x) /\ forallb (shape t) l' = true.
Proof.
  intros K. induction n as [|n IH]; intros tok l r l' tok' S E; [discriminate|]. cbn [array_loop] in E.
  destruct (rd tok (dflt t)) as [[[r1 x] t1]|] eqn:R; [|discriminate].
  destruct (K _ _ _ _ _ (dflt_shape t) R) as [KX SX].
  set (l1 := match r1 with PGR_OK => l ++ [x] | _ => l end) in *.
  assert (L1 : exists new, l1 = l ++ new /\ (forall y, In y new -> kept t (dflt t) y) /\ forallb (shape t) l1 = true).
  { destruct r1; unfold l1.
    - exists [x]. split; [reflexivity|]. split; [intros y [<-|[]]; exact KX|].
      rewrite forallb_app, S. simpl. now rewrite SX.
    - exists []. rewrite app_nil_r. split; [reflexivity|]. split; [intros y []|exact S].
    - exists []. rewrite app_nil_r. split; [reflexivity|]. split; [intros y []|exact S]. }
  assert (G : forall r0 t0, Some (r0, l1, t0) = Some (r, l', tok') -> 
    exists new, l' = l ++ new /\ (forall x, In x new -> kept t (dflt t) x) /\ forallb (shape t) l' = true).
  { intros r0 t0 [= _ <- _]. exact L1. }
  assert (E' : r1 = PGR_ERROR /\ Some (PGR_ERROR, l, t1) = Some (r, l', tok') \/ r1 <> PGR_ERROR /\
     match tk_expect nf T_COMMA t1 with
     | None => None
     | Some (true, t2) => array_loop n nf rd (dflt t) t2 l1
     | Some (false, t2) =>
         match tk_expect nf T_ARRE t2 with
         | None => None
         | Some (true, t3) => Some (PGR_OK, l1, t3)
         | Some (false, t3) => rfail PGERR_INVALID_ARRAY (b "invalid array") l1 t3
         end
     end = Some (r, l', tok')) by (destruct r1; [right|left|right]; split; auto; discriminate).
  clear E. destruct E' as [[_ [= _ <- _]]|[_ E]].
  { exists []. rewrite app_nil_r. split; [reflexivity|]. split; [intros y []|exact S]. }
  destruct (tk_expect nf T_COMMA t1) as [[[] t2]|]; [| |discriminate].
  - destruct L1 as (new & EL & KN & SL). destruct (IH _ _ _ _ _ SL E) as (new2 & -> & KN2 & S2).
    exists (new ++ new2). rewrite EL, <- app_assoc. split; [reflexivity|]. split; [|now rewrite app_assoc, <- EL].
    intros y I. apply in_app_iff in I as [I|I]; auto.
  - destruct (tk_expect nf T_ARRE t2) as [[[] t3]|]; [| |discriminate]; unfold rfail in E; eauto.
Qed.

(** Members. *)
Lemma object_loop_keeps nf t g ms rf :
  t = TMsg ms g ->
  (forall name tok vs r vs' tok', shape t (VMsg vs) = true -> rf name tok vs = Some (r, vs', tok') ->
     kept t (VMsg vs) (VMsg vs') /\ shape t (VMsg vs') = true) ->
  forall n tok vs r vs' tok', shape t (VMsg vs) = true -> object_loop n nf rf tok vs = Some (r, vs', tok') ->
  kept t (VMsg vs) (VMsg vs') /\ shape t (VMsg vs') = true.
Proof.
  intros _ K. induction n as [|n IH]; intros tok vs r vs' tok' S E; [discriminate|].
  assert (Z : forall r0 t0, Some (r0, vs, t0) = Some (r, vs', tok') ->
     kept t (VMsg vs) (VMsg vs') /\ shape t (VMsg vs') = true).
  { intros r0 t0 [= _ <- _]. split; [now apply kept_refl|exact S]. }
  cbn [object_loop] in E. unfold rfail in E.
  destruct (tk_expect nf T_STRING tok) as [[[] t1]|]; [|eauto|discriminate].
  destruct (tk_expect nf T_COLON t1) as [[[] t2]|]; [|eauto|discriminate].
  destruct (rf (t_val (tk_cur tok)) t2 vs) as [[[r1 vs1] t3]|] eqn:R; [|discriminate].
  destruct (K _ _ _ _ _ _ S R) as [K1 S1].
  assert (Z1 : forall r0 t0, Some (r0, vs1, t0) = Some (r, vs', tok') ->
     kept t (VMsg vs) (VMsg vs') /\ shape t (VMsg vs') = true).
  { intros r0 t0 [= _ <- _]. auto. }
  destruct r1; [|eauto|].
  - destruct (tk_expect nf T_COMMA t3) as [[[] t5]|]; [| |discriminate].
    + destruct (IH _ _ _ _ _ S1 E) as [K2 S2]. split; [|exact S2]. eapply kept_trans; eauto.
    + destruct (tk_expect nf T_OBJE t5) as [[[] t6]|]; [eauto|eauto|discriminate].
  - destruct (ignore_value nf t3) as [[r4 t4]|]; [|discriminate]. destruct r4; [|eauto|].
    + destruct (tk_expect nf T_COMMA t4) as [[[] t5]|]; [| |discriminate].
      * destruct (IH _ _ _ _ _ S1 E) as [K2 S2]. split; [|exact S2]. eapply kept_trans; eauto.
      * destruct (tk_expect nf T_OBJE t5) as [[[] t6]|]; [eauto|eauto|discriminate].
    + destruct (tk_expect nf T_COMMA t4) as [[[] t5]|]; [| |discriminate].
      * destruct (IH _ _ _ _ _ S1 E) as [K2 S2]. split; [|exact S2]. eapply kept_trans; eauto.
      * destruct (tk_expect nf T_OBJE t5) as [[[] t6]|]; [eauto|eauto|discriminate].
Qed.

Lemma member_named_written g name k : member_named (g_write g) name = Some k -> written g k = true.
Proof.
  intros E. apply written_in. revert E. induction (g_write g) as [|[k' n] l IH]; [discriminate|].
  cbn [member_named]. destruct (bytes_eqb n name); [intros [= ->]; exists n; now left|].
  intros E. destruct (IH E) as (l' & I). exists l'. now right.
Qed.

Lemma lookup_ok_all ms g : lookup_ok (TMsg ms g) ->
  (forall name, select_member g name = member_named (g_write g) name) /\ Forall lookup_ok ms.
Proof.
  intros [A B]. split; [exact A|]. clear A. induction ms as [|t ms IH]; constructor; destruct B; auto.
Qed.

Theorem read_keeps n t : lookup_ok t -> keeps t (read n t).
Proof.
  induction t using ty_ind2; intros L tok v r v' tok' S E; destruct v; try discriminate; cbn [read] in E.
  - destruct (read_prim n p tok p0) as [[[r1 x1] t1]|] eqn:R; [|discriminate].
    cbn [rmap] in E. injection E as <- <- <-. split; [constructor|]. eapply read_prim_shape; [|eassumption].
    exact S.
  - unfold read_fieldnum in E. destruct (read_prim n p tok (pzero p)) as [[[r1 x1] t1]|] eqn:R; [|discriminate].
    split; [constructor|]. assert (PS : pshape p x1 = true).
    { eapply read_prim_shape; [|exact R]. destruct p; reflexivity. }
    destruct r1; injection E as <- <- <-; assumption.
  - unfold read_strfield in E. destruct (read_string n tok []) as [[[r1 x1] t1]|]; [|discriminate].
    injection E as <- <- <-. split; [constructor|reflexivity].
  - unfold read_b64, rfail in E.
    assert (Z : forall r0 t0, Some (r0, VB64 s, t0) = Some (r, v', tok') -> kept TB64 (VB64 s) v' /\ shape TB64 v' = true).
    { intros r0 t0 [= _ <- _]. split; [now apply kept_refl|reflexivity]. }
    destruct (tk_id tok); eauto. destruct (tk_next n tok); [|discriminate].
    destruct (b64_decode _) as [o bad]. injection E as <- <- <-. split; [constructor|reflexivity].
  - unfold read_array, rfail in E.
    assert (Z : forall r0 t0, rmap VList (Some (r0, l, t0)) = Some (r, v', tok') ->
       kept (TRep t) (VList l) v' /\ shape (TRep t) v' = true).
    { intros r0 t0 [= _ <- _]. split; [now apply kept_refl|exact S]. }
    assert (Y : rmap VList (match tk_expect n T_ARRS tok with
      | None => None
      | Some (false, t1) => Some (PGR_ERROR, l, tk_error PGERR_INVALID_ARRAY (b "invalid array") t1)
      | Some (true, t1) =>
          match tk_expect n T_ARRE t1 with
          | None => None
          | Some (true, t2) => Some (PGR_OK, l, t2)
          | Some (false, t2) => array_loop n n (read n t) (dflt t) t2 l
          end
      end) = Some (r, v', tok') -> kept (TRep t) (VList l) v' /\ shape (TRep t) v' = true).
    { clear E. intros E. destruct (tk_expect n T_ARRS tok) as [[[] t1]|]; [|eauto|discriminate].
      destruct (tk_expect n T_ARRE t1) as [[[] t2]|]; [eauto| |discriminate].
      destruct (array_loop n n (read n t) (dflt t) t2 l) as [[[r1 l1] t3]|] eqn:A; [|discriminate].
      cbn [rmap] in E. injection E as <- <- <-.
      destruct (array_loop_keeps n t (read n t) (IHt L) n _ _ _ _ _ S A) as (new & -> & KN & SN).
      split; [now constructor|exact SN]. }
    destruct (tk_id tok); eauto.
  - unfold read_object, rfail in E.
    assert (Z : forall r0 t0, rmap VMsg (Some (r0, l, t0)) = Some (r, v', tok') ->
       kept (TMsg ms g) (VMsg l) v' /\ shape (TMsg ms g) v' = true).
    { intros r0 t0 [= _ <- _]. split; [now apply kept_refl|exact S]. }
    destruct (lookup_ok_all _ _ L) as [LS LM].
    assert (RM : forall name tok vs r vs' tok', shape (TMsg ms g) (VMsg vs) = true ->
       read_member g (map (read n) ms) name tok vs = Some (r, vs', tok') ->
       kept (TMsg ms g) (VMsg vs) (VMsg vs') /\ shape (TMsg ms g) (VMsg vs') = true).
    { clear - H LS LM. intros name tok vs r vs' tok' S E. unfold read_member in E. rewrite LS in E.
      assert (Z : forall r0 t0, Some (r0, vs, t0) = Some (r, vs', tok') ->
         kept (TMsg ms g) (VMsg vs) (VMsg vs') /\ shape (TMsg ms g) (VMsg vs') = true).
      { intros r0 t0 [= _ <- _]. split; [now apply kept_refl|exact S]. }
      destruct (member_named (g_write g) name) as [k|] eqn:MN; [|eauto].
      rewrite nth_error_map' in E. destruct (nth_error ms k) as [t|] eqn:M; [|eauto].
      destruct (nth_error vs k) as [v|] eqn:X; [|eauto].
      destruct (read n t tok v) as [[[r1 v1] t1]|] eqn:R; [|discriminate]. injection E as <- <- <-.
      pose proof (nth_error_In _ _ M) as IM. rewrite Forall_forall in H, LM.
      destruct (H t IM (LM t IM) tok v r1 v1 t1 (shape_nth _ _ _ _ _ _ S M X) R) as [K1 S1].
      assert (KL : (k < length vs)%nat) by (apply nth_error_Some; congruence).
      split.
      - constructor; [now rewrite set_nth_length|]. intros k' t' v' M' X'.
        destruct (Nat.eq_dec k k') as [->|NE].
        + exists v1. rewrite nth_error_set_nth_eq by exact KL. split; [reflexivity|].
          rewrite M in M'. injection M' as <-. rewrite X in X'. injection X' as <-.
          split; [auto|]. intros W. rewrite (member_named_written _ _ _ MN) in W. discriminate.
        + exists v'. rewrite nth_error_set_nth_neq by exact NE. split; [exact X'|].
          split; [|reflexivity]. intros _. apply kept_refl. eapply shape_nth; eauto.
      - apply shape_msg. apply shape_msg in S. unfold shapes in *. eapply Forall2_set_nth; eauto. }
    assert (Y : rmap VMsg (match tk_expect n T_OBJS tok with
      | None => None
      | Some (false, t1) => Some (PGR_ERROR, l, tk_error PGERR_INVALID_OBJECT (b "objects must start with '{'") t1)
      | Some (true, t1) =>
          match tk_expect n T_OBJE t1 with
          | None => None
          | Some (true, t2) => Some (PGR_OK, l, t2)
          | Some (false, t2) => object_loop n n (read_member g (map (read n) ms)) t2 l
          end
      end) = Some (r, v', tok') -> kept (TMsg ms g) (VMsg l) v' /\ shape (TMsg ms g) v' = true).
    { clear E. intros E. destruct (tk_expect n T_OBJS tok) as [[[] t1]|]; [|eauto|discriminate].
      destruct (tk_expect n T_OBJE t1) as [[[] t2]|]; [eauto| |discriminate].
      destruct (object_loop n n _ t2 l) as [[[r1 l1] t3]|] eqn:A; [|discriminate].
      cbn [rmap] in E. injection E as <- <- <-.
      exact (object_loop_keeps n (TMsg ms g) g ms _ eq_refl RM n _ _ _ _ _ S A). }
    destruct (tk_id tok); eauto.
Qed.

Lemma deserialize_kept t v inp po r v' po' : shape t v = true -> lookup_ok t ->
  deserialize t v inp po = Some (r, v', po') -> kept t v v'.
Proof.
  intros S L E. unfold deserialize, deserialize_fuel in E.
  destruct (tk_make _ _ _) as [tok|]; [|discriminate].
  destruct (read _ t tok v) as [[[r1 v1] t1]|] eqn:R; [|discriminate].
  destruct (read_keeps _ t L _ _ _ _ _ S R) as [K _].
  destruct r1; injection E as <- <- <-; exact K.
Qed.
