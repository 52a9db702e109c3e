(** C19: clear, empty, equal and swap obey their laws. *)
From Verif Require Import Bytes Dbl Types SpecVal ValProofs Samples.

(** clear gives the default constructed object, which is empty. *)
Theorem C19_clear : forall t v, has_ty t v = true -> vclear v = dflt t /\ vempty (vclear v) = true.
Proof. exact (fun t v H => conj (clear_dflt t v H) (clear_empty v)). Qed.
Print Assumptions C19_clear.

(** A message is empty exactly when all its fields are. *)
Theorem C19_empty : forall vs, vempty (VMsg vs) = true <-> (forall v, In v vs -> vempty v = true).
Proof. exact (fun vs => forallb_forall vempty vs). Qed.
Print Assumptions C19_empty.

(** The fields: numbers unless set, strings if null and without text, bytes and repeated
    fields without elements.  Of plain values (json-number.hh:160,
    184) zero and false; plain floating point numbers are the subject of C59. *)
Theorem C19_empty_fields :
  (forall e p, vempty (VField e p) = true <-> e = true) /\
  (forall null s, vempty (VStr null s) = true <-> null = true /\ s = []) /\
  (forall s, vempty (VB64 s) = true <-> s = []) /\ (forall l, vempty (VList l) = true <-> l = []) /\
  (forall z, vempty (VPrim (VInt z)) = true <-> z = 0) /\ (forall x, vempty (VPrim (VBool x)) = true <-> x = false).
Proof. exact empty_fields. Qed.
Print Assumptions C19_empty_fields.

(** equal decides [veq]: same presence and value of every field. *)
Theorem C19_equal : forall x y, vequal x y = true <-> veq x y.
Proof. exact vequal_veq. Qed.
Print Assumptions C19_equal.

Theorem C19_equal_reflexive : forall x, no_nan x -> veq x x.
Proof. exact veq_refl. Qed.
Print Assumptions C19_equal_reflexive.
Theorem C19_equal_symmetric : forall x y, veq x y -> veq y x.
Proof. exact veq_sym. Qed.
Print Assumptions C19_equal_symmetric.
Theorem C19_equal_transitive : forall x y z, veq x y -> veq y z -> veq x z.
Proof. exact veq_trans. Qed.
Print Assumptions C19_equal_transitive.

Theorem C19_swap : forall t x y, has_ty t x = true -> has_ty t y = true -> vswap x y = (y, x).
Proof. exact swap_lemma. Qed.
Print Assumptions C19_swap.

Example C19_example : has_ty outer_ty outer_val = true /\ vclear outer_val <> outer_val /\
  vequal outer_val outer_val = true /\ vequal outer_val (dflt outer_ty) = false /\
  vswap outer_val (dflt outer_ty) = (dflt outer_ty, outer_val).
Proof. split; [reflexivity|]. split; [discriminate|]. repeat split; vm_compute; reflexivity. Qed.

Example C19_no_nan_example : no_nan (VMsg [VField false (VDbl (DZero true)); VStr true []]) /\
  ~ veq (VField false (VDbl (DNan false))) (VField false (VDbl (DNan false))).
Proof.
  split.
  - constructor. repeat constructor. intros [].
  - intros H. inversion H as [|? ? ? P| | | |]; subst. inversion P as [|? ? D|]; subst. inversion D.
Qed.
