(** C17: non-finite floating point values do not survive serialization. *)
From Coq Require Import Lia.
From Verif Require Import Bytes Num Dbl Types Stream Tokenizer Write Read SpecJson SpecInterp SpecErr SpecWrite
  SpecBad SpecNonFinite NonFinite Samples SampleProofs.

(** A user relies on every object producing readable JSON.  Every object that has a
    NaN or an infinity in a written field, at any depth, and is otherwise fine, is
    serialized with the result [true] to a text that [deserialize] rejects, whatever
    precedes (white space), follows, and is already in the target. *)
Theorem C17_rejected : forall strict t v po,
  tables_ok strict t -> lookup_ok t -> toplevel t -> nearly (po_ea po) strict t v -> nonfinite_in t v ->
  exists text, serialize t v po = (true, text, clear_params po) /\
    forall target w rest po2, has_ty t target = true -> ws w ->
      exists v' po', deserialize t target (w ++ text ++ rest) po2 = Some (false, v', po').
Proof. exact C17_lemma. Qed.
Print Assumptions C17_rejected.

Definition c17_val : val :=
  VMsg [VField false (VInt 1); VMsg [VField false (VBool true); VField false (VDbl (DInf true))];
        VStr true []; VB64 []; VList []].

Theorem C17_readable_refuted : exists t v text, has_ty t v = true /\
  serialize t v None = (true, text, None) /\ text = b "{""id"":1,""inner"":{""flag"":true,""ratio"":-inf}}" /\
  exists v', deserialize t (dflt t) text None = Some (false, v', None).
Proof. exact C17_witness. Qed.
Print Assumptions C17_readable_refuted.

Example C17_example : tables_ok true outer_ty /\ lookup_ok outer_ty /\ toplevel outer_ty /\
  nearly false true outer_ty c17_val /\ nonfinite_in outer_ty c17_val.
Proof.
  split; [apply outer_tables_ok|]. split; [apply outer_lookup_ok|]. split; [exact I|]. split.
  - constructor. intros k label t x I M X. apply plain_in in I.
    destruct k as [|[|[|[|[|k]]]]]; cbn in M, X; try (destruct k; discriminate); injection M as <-; injection X as <-;
      [now apply ne_field| |now apply ne_null|apply ne_b64|constructor; intros x []].
    constructor. intros k label' t x J M X. apply plain_in in J.
    destruct k as [|[|k]]; cbn in M, X; try (destruct k; discriminate); injection M as <-; injection X as <-;
      now apply ne_field.
  - eapply (ni_msg _ _ _ 1%nat (b "inner")); try reflexivity; [simpl; auto|].
    eapply (ni_msg _ _ _ 1%nat (b "ratio")); try reflexivity; [simpl; auto|]. now constructor.
Qed.
