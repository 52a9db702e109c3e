(** C47: deserialize keeps every value inside the range of its type. *)
From Coq Require Import Lia.
From Verif Require Import Bytes Num Dbl Types Stream Tokenizer Write Read SpecRange ErrProofs Samples.

(** For every input, valid or not, accepted or not: integers stay within their
    width, floating point values are values of their format, members keep their
    number and kind. *)
Theorem C47_values_in_range : forall ty v inp po r v' po',
  ty_wf ty -> has_ty ty v = true ->
  deserialize ty v inp po = Some (r, v', po') -> has_ty ty v' = true.
Proof. exact deserialize_typed. Qed.
Print Assumptions C47_values_in_range.

Example C47_example : ty_wf outer_ty /\ has_ty outer_ty (dflt outer_ty) = true /\
  exists v', deserialize outer_ty (dflt outer_ty) (b "{""id"":99999999999,""inner"":{""ratio"":-1e999}} x") None
             = Some (true, v', None) /\
    v' = VMsg [VField false (VInt 1215752191);
               VMsg [VField true (VBool false); VField false (VDbl (DInf true))];
               VStr true []; VB64 []; VList []].
Proof.
  split. { repeat (constructor; try (simpl; lia)). }
  split; [vm_compute; reflexivity|]. eexists. split; vm_compute; reflexivity.
Qed.
