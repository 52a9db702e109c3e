(** C22: serializing into a caller buffer. *)
From Verif Require Import Bytes Num Dbl Types Stream Tokenizer Write Sinks SinkProofs Samples.

(** For every buffer [inp .. inp + len) inside the memory, the call does no
    undefined behaviour, leaves every byte outside the buffer alone, and the byte
    at offset [i + 1] of the buffer becomes the [i]-th character of the text, as far
    as both go.  The result is that of [serialize], whatever the length. *)
Theorem C22_in_bounds : forall t v mem inp len po, (inp + len <= length mem)%nat ->
  exists mem', serialize_mem t v mem inp len po
    = Some (fst (fst (serialize t v po)), mem', snd (serialize t v po)) /\
    length mem' = length mem /\
    (forall a, (a <= inp \/ inp + len <= a)%nat -> nth_error mem' a = nth_error mem a) /\
    (forall i, (i + 1 < len)%nat -> nth_error mem' (inp + 1 + i)
       = match nth_error (snd (fst (serialize t v po))) i with
         | Some c => Some c | None => nth_error mem (inp + 1 + i) end).
Proof. exact mem_lemma. Qed.
Print Assumptions C22_in_bounds.

(** A user relies on finding the text at the beginning of the buffer: false. *)
Theorem C22_text_at_start_refuted : exists v mem mem' text,
  has_ty inner_ty v = true /\ serialize inner_ty v None = (true, text, None) /\
  (length text < length mem)%nat /\
  serialize_mem inner_ty v mem 0 (length mem) None = Some (true, mem', None) /\
  firstn (length text) mem' <> text.
Proof. exact C22_text_lemma. Qed.
Print Assumptions C22_text_at_start_refuted.

(** A user relies on a buffer that is too short being reported: false. *)
Theorem C22_short_buffer_refuted : exists v mem mem' text,
  has_ty inner_ty v = true /\ serialize inner_ty v None = (true, text, None) /\
  (length mem < length text)%nat /\
  serialize_mem inner_ty v mem 0 (length mem) None = Some (true, mem', None).
Proof. exact C22_truncated_lemma. Qed.
Print Assumptions C22_short_buffer_refuted.

Example C22_example :
  serialize_mem inner_ty (VMsg [VField false (VBool true); VField true (VDbl (DZero false))])
    (b "................") 2 9 None
  = Some (true, b "...{""flag"":.....", None).
Proof. vm_compute. reflexivity. Qed.
