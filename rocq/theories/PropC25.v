(** C25: data after the document is ignored. *)
From Verif Require Import Bytes Num Dbl Types Stream Tokenizer Write Read SpecErr SuffixProofs Samples.

(** If a text is accepted, so is the text followed by anything, with the same
    resulting object and parameters. *)
Theorem C25_suffix_ignored : forall ty v inp suffix po v' po',
  toplevel ty ->
  deserialize ty v inp po = Some (true, v', po') ->
  deserialize ty v (inp ++ suffix) po = Some (true, v', po').
Proof. exact deserialize_suffix. Qed.
Print Assumptions C25_suffix_ignored.

Example C25_example : toplevel inner_ty /\ exists v',
  deserialize inner_ty (dflt inner_ty) (b "{""flag"":true}") None = Some (true, v', None) /\
  deserialize inner_ty (dflt inner_ty) (b "{""flag"":true}" ++ b "}]{""flag"":false") None
  = Some (true, v', None) /\ v' <> dflt inner_ty.
Proof.
  split; [exact I|]. eexists. split; [vm_compute; reflexivity|].
  split; [vm_compute; reflexivity|]. discriminate.
Qed.
