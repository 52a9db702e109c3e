(** C11: failure is reported through Parameters::error, success leaves it clear. *)
From Coq Require Import Lia.
From Verif Require Import Bytes Num Dbl Types Stream Tokenizer Write Read SpecJson SpecErr SpecRange
  ErrProofs Samples.

(** Success: whatever [*params] held before, its error is clear afterwards; the
    options are untouched. *)
Theorem C11_success_clear : forall ty v inp p v' po',
  deserialize ty v inp (Some p) = Some (true, v', po') ->
  exists p', po' = Some p' /\ no_error (p_err p') /\
    ensure_ascii p' = ensure_ascii p /\ serialize_null p' = serialize_null p.
Proof. exact success_clear. Qed.
Print Assumptions C11_success_clear.

(** Failure: the error code is not OK, for every input, except when the document
    is the literal null; then nothing is recorded and the object is unchanged. *)
Theorem C11_failure_reported : forall ty v inp p v' po',
  toplevel ty -> ty_wf ty -> has_ty ty v = true ->
  deserialize ty v inp (Some p) = Some (false, v', po') ->
  exists p', po' = Some p' /\ (e_code (p_err p') = PGERR_OK <-> starts_null inp) /\
    (starts_null inp -> no_error (p_err p') /\ v' = v) /\
    ensure_ascii p' = ensure_ascii p /\ serialize_null p' = serialize_null p.
Proof. exact failure_code. Qed.
Print Assumptions C11_failure_reported.

Definition c11_stale : params := Par true false (EI PGERR_INVALID_NAME (b "old") 4 7).

Example C11_example : toplevel outer_ty /\ ty_wf outer_ty /\ has_ty outer_ty outer_val = true /\
  deserialize outer_ty (dflt outer_ty) (b "{""id"":3}") (Some c11_stale)
  = Some (true, VMsg [VField false (VInt 3); dflt inner_ty; VStr true []; VB64 []; VList []],
          Some (Par true false (EI PGERR_OK [] 0 0))) /\
  deserialize outer_ty outer_val (b "{""id"":""3""}") (Some c11_stale)
  = Some (false, VMsg (VField false (VInt 0) :: tl (match outer_val with VMsg l => l | _ => [] end)),
          Some (Par true false (EI PGERR_INVALID_VALUE (b "invalid numeric value") 0 0))) /\
  deserialize outer_ty outer_val (b " null") (Some c11_stale)
  = Some (false, outer_val, Some (Par true false (EI PGERR_OK [] 0 0))) /\
  starts_null (b " null").
Proof.
  split; [exact I|]. split.
  { repeat (constructor; try (simpl; lia)). }
  split; [vm_compute; reflexivity|]. split; [vm_compute; reflexivity|].
  split; [vm_compute; reflexivity|]. split; [vm_compute; reflexivity|].
  exists (b " "), []. repeat split.
Qed.
