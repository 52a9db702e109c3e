(** C21: serialize_null writes every persistent field. *)
From Verif Require Import Bytes Types Stream Tokenizer Write SpecJson SpecWrite WriteProofs SerProofs
  Samples SampleProofs.

(** The names in the output are, in order and without repetition, those of the
    persistent fields (all of them with serialize_null, else the non-empty ones); the
    value of each is the JSON value of the field, null for unset numbers and strings.
    The same holds for sub-messages, as [j] is the text of [tojson] of the field. *)
Theorem C21_fields_written : forall strict ms g vs po,
  tables_ok strict (TMsg ms g) -> has_ty (TMsg ms g) (VMsg vs) = true ->
  jsonable (po_ea po) strict (TMsg ms g) (VMsg vs) ->
  exists text l, serialize (TMsg ms g) (VMsg vs) po = (true, text, clear_params po) /\
    jtext strict (JObj l) text /\
    map fst l = map snd (filter (fun it => po_sn po || negb (match nth_error vs (fst it) with
                                                             | Some v => vempty v | None => true end)) (g_write g)) /\
    NoDup (map fst l) /\
    (forall label j, In (label, j) l -> exists k t v, In (k, label) (g_write g) /\ nth_error ms k = Some t /\
       nth_error vs k = Some v /\ j = tojson (po_sn po) t v /\
       (vempty v = true -> (exists p, t = TField p) \/ t = TStr -> j = JNull)).
Proof. exact C21_lemma. Qed.
Print Assumptions C21_fields_written.

Example C21_example : tables_ok true outer_ty /\ has_ty outer_ty outer_val = true /\
  jsonable false true outer_ty outer_val /\
  snd (fst (serialize outer_ty (dflt outer_ty) (Some (Par false true err_clear))))
  = b "{""id"":null,""inner"":{""flag"":null,""ratio"":null},""name"":null,""raw"":"""",""tags"":[]}" /\
  snd (fst (serialize outer_ty (dflt outer_ty) None)) = b "{}".
Proof.
  split; [apply outer_tables_ok|]. split; [reflexivity|]. split; [apply outer_jsonable|].
  split; vm_compute; reflexivity.
Qed.
