(** C24: serialization appends. *)
From Verif Require Import Bytes Num Dbl Types Stream Tokenizer Write Sinks SinkProofs Samples.

(** The previous content of the string, vector or stream is a prefix of the new
    content, and what follows is the text of [serialize], which does not depend on
    it. *)
Theorem C24_appends : forall t v out po,
  serialize_append t v out po =
  (fst (fst (serialize t v po)), out ++ snd (fst (serialize t v po)), snd (serialize t v po)).
Proof. exact append_lemma. Qed.
Print Assumptions C24_appends.

Example C24_example :
  serialize_append inner_ty (VMsg [VField false (VBool true); VField true (VDbl (DZero false))]) (b "x=") None
  = (true, b "x={""flag"":true}", None).
Proof. vm_compute. reflexivity. Qed.
