(** C20: assignment copies the value.  Refuted in general; true for fully set objects. *)
From Verif Require Import Bytes Types Stream Tokenizer Write SpecVal ValProofs Samples SpecAssign AssignProofs.

(** If every numeric and string field of the source is set, the target becomes equal to
    the source, however the standard library assigns containers ([reuse]). *)
Theorem C20_assign_set : forall reuse x y, all_set y -> vassign reuse x y = y.
Proof. exact assign_lemma. Qed.
Print Assumptions C20_assign_set.

(** In general the target is equal to the source exactly if it held, wherever the source is
    unset, the same value before. *)
Theorem C20_equal : forall reuse t x y, has_ty t x = true -> has_ty t y = true -> no_nan y ->
  (vequal (vassign reuse x y) y = true <-> harmless reuse x y).
Proof. exact assign_equal. Qed.
Print Assumptions C20_equal.

(** Assignment to a new or cleared object copies, if the unset fields of the source hold
    the values of a new object. *)
Theorem C20_new : forall reuse t y, has_ty t y = true -> tidy y -> vassign reuse (dflt t) y = y.
Proof. exact assign_new. Qed.
Print Assumptions C20_new.

(** Only unset strings matter for what the target is seen as: if there are none, it is
    empty if the source is, and serializes like it. *)
Theorem C20_text : forall reuse t x y po, strings_set y ->
  vempty (vassign reuse x y) = vempty y /\ serialize t (vassign reuse x y) po = serialize t y po.
Proof. exact assign_text. Qed.
Print Assumptions C20_text.

(** An unset field of the source leaves the old value in the target: afterwards the
    two are not equal, the target is not empty although the source is, and it
    serializes differently. *)
Theorem C20_assign_refuted : exists t a c a',
  has_ty t a = true /\ has_ty t c = true /\
  (forall reuse, vassign reuse a c = a') /\
  vequal a' c = false /\ vempty c = true /\ vempty a' = false /\
  fst (serialize t c None) = (true, b "{}") /\ fst (serialize t a' None) = (true, b "{""s"":""old""}").
Proof.
  exists (TMsg [TStr] (plain_tables [b "s"])), (VMsg [VStr false (b "old")]), (VMsg [VStr true []]),
    (VMsg [VStr true (b "old")]). repeat split; vm_compute; reflexivity.
Qed.
Print Assumptions C20_assign_refuted.

Example C20_example : all_set (VMsg [VField false (VInt 1); VStr false (b "a"); VList [VStr false (b "z")]]).
Proof. repeat constructor. Qed.

(** Numbers unset in the source, an element of a repeated field assigned to. *)
Definition c20_ty : ty := TMsg [TField (PInt true 32); TRep TStr] (plain_tables [b "n"; b "l"]).
Definition c20_new : val := VMsg [VField true (VInt 0); VList [VStr true []; VStr false (b "z")]].
Example C20_equal_applies : has_ty c20_ty c20_new = true /\ no_nan c20_new /\
  has_ty c20_ty (VMsg [VField false (VInt 7); VList []]) = true /\
  (exists reuse, ~ harmless reuse (VMsg [VField false (VInt 7); VList []]) c20_new) /\
  harmless (fun _ _ => true) (VMsg [VField false (VInt 0); VList [VStr false []]]) c20_new /\
  ~ harmless (fun _ _ => true) (VMsg [VField false (VInt 0); VList [VStr false (b "x")]]) c20_new.
Proof.
  split; [reflexivity|]. split.
  { constructor. apply Forall_cons; [apply nn_field; intros []|]. apply Forall_cons; [|apply Forall_nil].
    constructor. repeat (apply Forall_cons; [constructor|]). apply Forall_nil. }
  split; [reflexivity|]. split; [|split].
  - exists (fun _ _ => true). intros H. inversion H; subst.
    match goal with A : forall i u v, _ |- _ => specialize (A 0%nat _ _ eq_refl eq_refl) end.
    match goal with A : harmless _ (VField _ _) _ |- _ => inversion A; subst end.
    match goal with A : peq _ _ |- _ => inversion A end.
  - apply hl_msg. intros [|[|i]] u v E1 E2; [| |destruct i; discriminate].
    + injection E1 as <-. injection E2 as <-. apply hl_unset. constructor.
    + injection E1 as <-. injection E2 as <-. apply hl_list. intros [|i] u v E1 E2; [|destruct i; discriminate].
      injection E1 as <-. injection E2 as <-. apply hl_null.
  - intros H. inversion H; subst.
    match goal with A : forall i u v, _ |- _ => specialize (A 1%nat _ _ eq_refl eq_refl) end.
    match goal with A : harmless _ (VList _) _ |- _ => inversion A; subst; [discriminate|] end.
    match goal with A : forall i u v, _ |- _ => specialize (A 0%nat _ _ eq_refl eq_refl); inversion A end.
Qed.

Example C20_new_applies : has_ty c20_ty c20_new = true /\ tidy c20_new.
Proof.
  split; [reflexivity|]. constructor. apply Forall_cons; [apply td_unset; auto|]. apply Forall_cons; [|apply Forall_nil].
  constructor. apply Forall_cons; [apply td_null|]. apply Forall_cons; [apply td_str|]. apply Forall_nil.
Qed.

Example C20_text_applies : strings_set (VMsg [VField true (VInt 0); VList [VStr false (b "z")]]) /\
  serialize c20_ty (vassign (fun _ _ => true) (VMsg [VField false (VInt 7); VList [VStr false (b "x")]])
                            (VMsg [VField true (VInt 0); VList [VStr false (b "z")]])) None = (true, b "{""l"":[""z""]}", None).
Proof.
  split; [|vm_compute; reflexivity]. constructor. apply Forall_cons; [constructor|]. apply Forall_cons; [|apply Forall_nil].
  constructor. apply Forall_cons; [constructor|]. apply Forall_nil.
Qed.
