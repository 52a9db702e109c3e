(** Fields behave like optional values. *)
From Verif Require Import Bytes BaseProofs Num Dbl Types Fields SpecOption.

Section FieldProofs.
  Context {T : Type} (zero : T).

  Lemma map_set_nth {A B} (f : A -> B) k x l : map f (set_nth k x l) = set_nth k (f x) (map f l).
  Proof. revert k. induction l as [|y l IH]; intros [|k]; cbn [set_nth map]; f_equal; auto. Qed.

  Lemma in_set_nth {A} (x y : A) k l : In x (set_nth k y l) -> x = y \/ In x l.
  Proof.
    revert k. induction l as [|z l IH]; intros [|k] I; cbn [set_nth] in I.
    - destruct I.
    - destruct I.
    - destruct I as [<-|I]; [now left|right; now right].
    - destruct I as [<-|I]; [right; now left|]. destruct (IH _ I); [now left|right; now right].
  Qed.

  Lemma seen_at (fs : list (cell T)) i a : nth_error fs i = Some a -> nth_error (map seen fs) i = Some (seen a).
  Proof. intros E. rewrite nth_error_map, E. reflexivity. Qed.

  Lemma there {A} (l : list A) i a : nth_error l i = Some a -> (i < length l)%nat.
  Proof. intros E. apply nth_error_Some. congruence. Qed.

  Lemma step_does (h : T -> Prop) o s s' : step zero o s = Some s' ->
    (forall a, In a (fst s) -> c_unset a = true -> h (c_val a)) -> does h o (contents s) (contents s').
  Proof.
    destruct s as [fs vs]. unfold contents. cbn [fst snd]. intros E H.
    destruct o as [i|i x|i j|i j|i k|i st|i x]; cbn [step] in E.
    - destruct (nth_error fs i) as [a|] eqn:A; [|discriminate E]. injection E as <-. cbn [fst snd]. rewrite map_set_nth.
      apply d_clear. rewrite map_length. eapply there; eauto.
    - destruct (nth_error fs i) as [a|] eqn:A; [|discriminate E]. injection E as <-. cbn [fst snd]. rewrite map_set_nth.
      apply d_set. rewrite map_length. eapply there; eauto.
    - destruct (nth_error fs i) as [a|] eqn:A; [|discriminate E]. destruct (nth_error fs j) as [c|] eqn:C; [|discriminate E].
      injection E as <-. cbn [fst snd]. rewrite map_set_nth.
      replace (seen (assign a c)) with (seen c) by (unfold seen, assign; cbn [c_unset c_val]; now destruct (c_unset c)).
      apply d_assign; [rewrite map_length; eapply there; eauto|now apply seen_at].
    - destruct (nth_error fs i) as [a|] eqn:A; [|discriminate E]. destruct (nth_error fs j) as [c|] eqn:C; [|discriminate E].
      injection E as <-. cbn [fst snd]. rewrite !map_set_nth. apply d_swap; now apply seen_at.
    - destruct (nth_error fs i) as [a|] eqn:A; [|discriminate E]. destruct (nth_error vs k) as [x|] eqn:X; [|discriminate E].
      injection E as <-. cbn [fst snd]. rewrite map_set_nth. cbn [seen c_unset c_val].
      pose proof (seen_at _ _ _ A) as SA. unfold seen in SA. destruct (c_unset a) eqn:U.
      + apply d_swap_none; [exact SA|exact X|]. apply H; [eapply nth_error_In; eauto|exact U].
      + apply d_swap_val; assumption.
    - destruct (nth_error fs i) as [a|] eqn:A; [|discriminate E]. injection E as <-. cbn [fst snd]. rewrite map_set_nth.
      destruct st.
      + apply d_mark. rewrite map_length. eapply there; eauto.
      + pose proof (seen_at _ _ _ A) as SA. cbn [mark seen c_unset c_val]. unfold seen in SA. destruct (c_unset a) eqn:U.
        * apply d_unmark_none; [exact SA|]. apply H; [eapply nth_error_In; eauto|exact U].
        * rewrite set_nth_same by exact SA. eapply d_unmark; eauto.
    - destruct (nth_error fs i) as [a|] eqn:A; [|discriminate E]. injection E as <-. cbn [fst snd]. rewrite map_set_nth.
      pose proof (seen_at _ _ _ A) as SA. unfold write_ref, seen at 2. cbn [c_unset c_val]. unfold seen in SA. destruct (c_unset a) eqn:U.
      + rewrite set_nth_same by exact SA. now apply d_write_none.
      + eapply d_write; eauto.
  Qed.

  Lemma steps_does l : forall s s', steps zero l s = Some s' -> does_all (fun _ => True) l (contents s) (contents s').
  Proof.
    induction l as [|o l IH]; intros s s' E; cbn [steps] in E.
    - injection E as <-. constructor.
    - destruct (step zero o s) as [s1|] eqn:S1; [|discriminate E].
      econstructor; [eapply step_does; eauto|eauto].
  Qed.

  Lemma step_tidy o s s' : tidy zero s -> careful o (contents s) -> step zero o s = Some s' -> tidy zero s'.
  Proof.
    destruct s as [fs vs]. unfold tidy, contents. cbn [fst snd]. intros TD CA E.
    destruct o as [i|i x|i j|i j|i k|i st|i x]; cbn [step] in E.
    - destruct (nth_error fs i) as [a|] eqn:A; [|discriminate E]. injection E as <-. cbn [fst].
      intros d D U. apply in_set_nth in D as [->|D]; [reflexivity|auto].
    - destruct (nth_error fs i) as [a|] eqn:A; [|discriminate E]. injection E as <-. cbn [fst].
      intros d D U. apply in_set_nth in D as [->|D]; [discriminate U|auto].
    - destruct (nth_error fs i) as [a|] eqn:A; [|discriminate E]. destruct (nth_error fs j) as [c|] eqn:C; [|discriminate E].
      injection E as <-. cbn [fst]. cbn [careful fst] in CA. rewrite (seen_at _ _ _ A), (seen_at _ _ _ C) in CA.
      intros d D U. apply in_set_nth in D as [->|D]; [|auto]. cbn [assign c_unset c_val] in *. rewrite U.
      unfold seen in CA. rewrite U in CA. specialize (CA eq_refl). apply TD; [eapply nth_error_In; eauto|].
      destruct (c_unset a); [reflexivity|discriminate CA].
    - destruct (nth_error fs i) as [a|] eqn:A; [|discriminate E]. destruct (nth_error fs j) as [c|] eqn:C; [|discriminate E].
      injection E as <-. cbn [fst]. intros d D U. apply in_set_nth in D as [->|D]; [apply TD; [eapply nth_error_In; eauto|exact U]|].
      apply in_set_nth in D as [->|D]; [apply TD; [eapply nth_error_In; eauto|exact U]|auto].
    - destruct (nth_error fs i) as [a|] eqn:A; [|discriminate E]. destruct (nth_error vs k) as [x|] eqn:X; [|discriminate E].
      injection E as <-. cbn [fst]. intros d D U. apply in_set_nth in D as [->|D]; [discriminate U|auto].
    - destruct (nth_error fs i) as [a|] eqn:A; [|discriminate E]. injection E as <-. cbn [fst].
      intros d D U. apply in_set_nth in D as [->|D]; [|auto]. cbn [mark c_unset c_val] in *. now rewrite U.
    - destruct (nth_error fs i) as [a|] eqn:A; [|discriminate E]. injection E as <-. cbn [fst].
      intros d D U. apply in_set_nth in D as [->|D]; [|auto]. cbn [write_ref c_unset c_val] in *. exfalso. apply CA.
      cbn [fst]. rewrite (seen_at _ _ _ A). unfold seen. now rewrite U.
  Qed.

  Lemma steps_tidy l : forall s s', tidy zero s -> careful_all (eq zero) l (contents s) -> steps zero l s = Some s' ->
    tidy zero s' /\ does_all (eq zero) l (contents s) (contents s').
  Proof.
    induction l as [|o l IH]; intros s s' TD CA E; cbn [steps] in E.
    - injection E as <-. split; [exact TD|constructor].
    - destruct (step zero o s) as [s1|] eqn:S1; [|discriminate E]. inversion CA as [|o0 l0 a0 C1 C2]; subst.
      assert (D : does (eq zero) o (contents s) (contents s1)).
      { eapply step_does; [exact S1|]. intros a A U. symmetry. now apply TD. }
      destruct (IH s1 s' (step_tidy _ _ _ TD C1 S1) (C2 _ D) E) as [T2 D2].
      split; [exact T2|]. econstructor; eauto.
  Qed.

  (** The operations are defined exactly where those on optional values are. *)
  Lemma step_defined h o s a : does h o (contents s) a -> exists s', step zero o s = Some s'.
  Proof.
    destruct s as [fs vs]. unfold contents. cbn [fst snd]. intros D.
    assert (N : forall i v, nth_error (map seen fs) i = Some v -> exists c, nth_error fs i = Some c).
    { intros i v E. rewrite nth_error_map in E. destruct (nth_error fs i); [eauto|discriminate E]. }
    assert (L : forall i, (i < length (map seen fs))%nat -> exists c, nth_error fs i = Some c).
    { intros i K. rewrite map_length in K. apply nth_error_Some in K. destruct (nth_error fs i); [eauto|congruence]. }
    inversion D; subst; cbn [step];
      repeat match goal with
      | H : nth_error (map seen fs) _ = Some _ |- _ => apply N in H as [? H]; rewrite H
      | H : (_ < length (map seen fs))%nat |- _ => apply L in H as [? H]; rewrite H
      | H : nth_error vs _ = Some _ |- _ => rewrite H
      end; try (eexists; reflexivity).
  Qed.

  Context (eqb : T -> T -> bool).

  Lemma observers a c x :
    (num_empty a = true <-> seen a = None) /\
    (eq_val eqb a x = true <-> exists y, seen a = Some y /\ eqb y x = true) /\
    (ne_val eqb a x = true <-> exists y, seen a = Some y /\ eqb y x = false) /\
    ne_field eqb a c = negb (eq_field eqb a c) /\
    (forall y, seen a = Some y -> get a = y).
  Proof.
    unfold num_empty, eq_val, ne_val, ne_field, eq_field, get, seen. destruct a as [v []], c as [w []]; cbn [c_unset c_val negb andb orb Bool.eqb].
    all: repeat split; try discriminate; try (intros (y & Y & _); discriminate Y); try (intros (y & Y & E); injection Y as <-; now rewrite ?E);
      try (intros E; eexists; split; [reflexivity|]); try (now destruct (eqb v w)); try congruence.
    all: destruct (eqb v x); [|]; try reflexivity; try discriminate.
  Qed.

  Lemma tidy_observers a c : eqb zero zero = true -> (c_unset a = true -> c_val a = zero) -> (c_unset c = true -> c_val c = zero) ->
    (str_empty zero eqb a = true <-> seen a = None) /\
    (eq_field eqb a c = true <-> match seen a, seen c with
       | None, None => True | Some x, Some y => eqb x y = true | _, _ => False end) /\
    (seen a = None -> get a = zero).
  Proof.
    intros Z TA TC. unfold str_empty, eq_field, get, seen. destruct a as [v []], c as [w []]; cbn [c_unset c_val andb Bool.eqb] in *;
      try rewrite (TA eq_refl); try rewrite (TC eq_refl); rewrite ?Z; repeat split; try discriminate; auto; try contradiction.
  Qed.
End FieldProofs.

(** The functions of the generated code on fields are these. *)
Definition num_cell (e : bool) (p : pval) : cell pval := Cell p e.
Definition str_cell (n : bool) (s : bytes) : cell bytes := Cell s n.
Definition of_num (c : cell pval) : val := VField (c_unset c) (c_val c).
Definition of_str (c : cell bytes) : val := VStr (c_unset c) (c_val c).

Lemma numbers_use reuse a c x : pval_ok x (c_val a) = true ->
  vempty (of_num a) = num_empty a /\ vequal (of_num a) (of_num c) = eq_field pval_eqb a c /\
  vclear (of_num a) = of_num (clear (pzero x) a) /\ vassign reuse (of_num a) (of_num c) = of_num (assign a c) /\
  vswap (of_num a) (of_num c) = (of_num (fst (swap a c)), of_num (snd (swap a c))).
Proof.
  intros K. destruct a as [v e], c as [w e']. unfold of_num. cbn [c_unset c_val] in *. repeat split.
  cbn [vclear clear c_unset c_val]. do 2 f_equal. destruct x, v; cbn [pval_ok] in K; congruence || reflexivity.
Qed.

Lemma strings_use reuse a c :
  vempty (of_str a) = str_empty [] bytes_eqb a /\ vequal (of_str a) (of_str c) = eq_field bytes_eqb a c /\
  vclear (of_str a) = of_str (clear [] a) /\ vassign reuse (of_str a) (of_str c) = of_str (assign a c) /\
  vswap (of_str a) (of_str c) = (of_str (fst (swap a c)), of_str (snd (swap a c))).
Proof.
  destruct a as [v e], c as [w e']. unfold of_str. cbn [c_unset c_val] in *. repeat split.
  cbn [vempty str_empty c_unset c_val]. unfold str_empty. cbn [c_unset c_val]. now destruct v.
Qed.

Lemma fresh_compared {T} (zero : T) (eqb : T -> T -> bool) x :
  eq_val eqb (fresh zero) x = false /\ ne_val eqb (fresh zero) x = false.
Proof. split; reflexivity. Qed.

Lemma hidden : exists l fs vs, steps 0 l ([fresh 0; fresh 0], [9]) = Some (fs, vs) /\
  l = [OSet 0 5; OAssign 0 1] /\ map seen fs = [None; None] /\
  (exists a c, fs = [a; c] /\ eq_field Z.eqb a c = false /\ get a = 5) /\
  option_map snd (steps 0 [OSwapVal 0 0] (fs, vs)) = Some [5].
Proof. exists [OSet 0 5; OAssign 0 1], [Cell 5 true; fresh 0], [9]. repeat split. exists (Cell 5 true), (fresh 0). repeat split. Qed.

Lemma reference : exists a, a = write_ref (fresh []) (b "x") /\
  str_empty [] bytes_eqb a = false /\ eq_val bytes_eqb a (b "x") = false /\ get a = b "x" /\
  assign (fresh []) a = fresh [].
Proof. eexists. repeat split. Qed.

Lemma careful_sample : exists s', tidy 0 ([fresh 0; made 7], [9]) /\
  careful_all (eq 0) [OSet 0 5; OSwap 0 1; OSwapVal 0 0; OClear 1] (contents ([fresh 0; made 7], [9])) /\
  steps 0 [OSet 0 5; OSwap 0 1; OSwapVal 0 0; OClear 1] ([fresh 0; made 7], [9]) = Some s' /\
  contents s' = ([Some 9; None], [7]).
Proof.
  eexists. split; [|split; [|split; [reflexivity|reflexivity]]].
  - intros a [<-|[<-|[]]] U; [reflexivity|discriminate U].
  - repeat (constructor; [exact Logic.I|intros ? _]).  constructor.
Qed.

Lemma strings_sample : exists s', steps [] [OMark 0 false; OWrite 0 (b "ab"); OAssign 1 0; OMark 0 true]
  ([fresh []; fresh []], []) = Some s' /\ contents s' = ([None; Some (b "ab")], []) /\
  pval_ok (PInt true 32) (c_val (num_cell false (VInt 5))) = true.
Proof. eexists. repeat split. Qed.
