(** C64: the stack the reader needs.  [deserialize_depth] counts the activations of
    [json<T>::read] and [ignore_value] that exist at the same time; [deserialize_within]
    is a call with a stack for that many. *)
From Verif Require Import Bytes Types Stream Tokenizer Write Read Depth SpecJson SpecInterp SpecWrite SpecTok SpecDepth
  DepthProofs DepthAny DepthOwn Samples SampleProofs.

(** A JSON document that is taken needs exactly [reach]: members of the type are followed
    as far as the type goes, unknown members to their end.  One that does not fit needs no more. *)
Theorem C64_exact : forall strict t v j inp po,
  has_ty t v = true -> lookup_ok t -> jdoc strict j inp ->
  (deserialize_depth t v inp po <= reach t j)%nat /\
  (fst (interp t v j) <> RFail -> deserialize_depth t v inp po = reach t j).
Proof. exact exact_depth. Qed.
Print Assumptions C64_exact.

(** Without unknown members the type is the bound, whatever the document. *)
Theorem C64_known : forall strict t v j inp po,
  has_ty t v = true -> lookup_ok t -> jdoc strict j inp -> known t j ->
  (deserialize_depth t v inp po <= levels t)%nat.
Proof. exact typed_depth. Qed.
Print Assumptions C64_known.

(** In particular for the texts [serialize] makes. *)
Theorem C64_own : forall t v po v2 po2 w1 w2,
  tables_ok false t -> lookup_ok t -> jsonable (po_ea po) false t v -> has_ty t v2 = true -> ws w1 -> ws w2 ->
  exists text po', serialize t v po = (true, text, po') /\
    (deserialize_depth t v2 (w1 ++ text ++ w2) po2 <= levels t)%nat.
Proof. exact own_depth. Qed.
Print Assumptions C64_own.

(** Any input, valid or not: one activation more than the brackets that are ever open
    at the same time are enough. *)
Theorem C64_any : forall t v inp po d limit,
  has_ty t v = true -> lookup_ok t -> nested_at_most d inp -> (d < limit)%nat ->
  exists r, deserialize t v inp po = Some r /\ deserialize_within limit t v inp po = SResult r.
Proof. exact enough_stack. Qed.
Print Assumptions C64_any.

(** The opening brackets of the input are a bound one can compute beforehand. *)
Theorem C64_brackets : forall t v inp po limit,
  has_ty t v = true -> lookup_ok t -> (brackets inp < limit)%nat ->
  exists r, deserialize t v inp po = Some r /\ deserialize_within limit t v inp po = SResult r.
Proof. exact bracket_stack. Qed.
Print Assumptions C64_brackets.

(** That the stack needed is bounded by the type is false: for every message type, every
    object and every stack there is a JSON document, two bytes per activation long, that
    is accepted and changes nothing, and overflows the stack. *)
Theorem C64_bounded_refuted : forall ms g vs po,
  has_ty (TMsg ms g) (VMsg vs) = true -> lookup_ok (TMsg ms g) ->
  exists k, forall limit, exists inp j po', jdoc true j inp /\ (length inp <= 2 * limit + k)%nat /\
    deserialize (TMsg ms g) (VMsg vs) inp po = Some (true, VMsg vs, po') /\
    deserialize_within limit (TMsg ms g) (VMsg vs) inp po = SOverflow.
Proof. exact too_deep_typed. Qed.
Print Assumptions C64_bounded_refuted.

Definition c64_json : jval :=
  JObj [(b "id", JNum (b "1")); (b "x", JArr [JArr []; JObj [(b "y", JArr [JNull])]]);
        (b "tags", JArr [JStr (b "n")]); (b "inner", JObj [(b "flag", JBool false)])].
Definition c64_plain : jval :=
  JObj [(b "id", JNum (b "1")); (b "tags", JArr [JStr (b "[")]); (b "inner", JNull)].

Example C64_applies : has_ty outer_ty outer_val = true /\ lookup_ok outer_ty /\
  jdoc true c64_json (jprint [] c64_json) /\ fst (interp outer_ty outer_val c64_json) = RGood /\
  reach outer_ty c64_json = 5%nat /\ levels outer_ty = 3%nat /\
  deserialize_depth outer_ty outer_val (jprint [] c64_json) None = 5%nat /\
  deserialize_within 4 outer_ty outer_val (jprint [] c64_json) None = SOverflow.
Proof.
  split; [reflexivity|]. split; [apply outer_lookup_ok|].
  split; [rewrite <- (app_nil_r (jprint [] c64_json)); exact (jprint_doc [] c64_json eq_refl eq_refl)|].
  repeat split; vm_compute; reflexivity.
Qed.

Example C64_known_applies : known outer_ty c64_plain /\ jdoc true c64_plain (jprint [] c64_plain) /\
  reach outer_ty c64_plain = 3%nat /\ brackets (jprint [] c64_plain) = 3%nat /\
  tables_ok false outer_ty /\ jsonable false false outer_ty outer_val.
Proof.
  split; [vm_compute; repeat (constructor; try exact I)|].
  split; [rewrite <- (app_nil_r (jprint [] c64_plain)); exact (jprint_doc [] c64_plain eq_refl eq_refl)|].
  split; [vm_compute; reflexivity|]. split; [vm_compute; reflexivity|].
  split; [apply outer_tables_ok|]. apply jsonable_lax, outer_jsonable.
Qed.

(** A text that is no document: the bound of [C64_any] is met. *)
Example C64_any_applies : nested_at_most 4 (b "{""x"":[[[1") /\
  deserialize_depth outer_ty outer_val (b "{""x"":[[[1") None = 5%nat.
Proof. split; [exact (nested_brackets (b "{""x"":[[[1"))|vm_compute; reflexivity]. Qed.
