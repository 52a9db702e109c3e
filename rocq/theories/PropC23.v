(** C23: all input overloads agree and never read out of bounds. *)
From Verif Require Import Bytes Num Dbl Types Stream Tokenizer Write Read GenRead GenProofs Samples.

(** Reading from a pointer and a length: the result is that of [deserialize] on the
    bytes of the buffer.  [deserialize_mem] is [None] when the reader dereferences
    an address outside [inp .. inp + len), so that never happens; what is in the
    rest of the memory does not matter.  [fuel] only bounds the loop that skips line
    feeds.  Plain [char] may be signed or unsigned. *)
Theorem C23_pointer : forall pc fuel t v mem inp len po, plain pc ->
  (inp + len <= length mem)%nat -> (len < fuel)%nat ->
  deserialize_mem pc fuel (fuel_for (firstn len (skipn inp mem))) t v mem inp len po
  = deserialize t v (firstn len (skipn inp mem)) po.
Proof. exact mem_input_lemma. Qed.
Print Assumptions C23_pointer.

(** Reading from a [std::string] or a [std::vector<char>]. *)
Theorem C23_container : forall pc fuel t v inp po, plain pc -> (length inp < fuel)%nat ->
  deserialize_container pc fuel (fuel_for inp) t v inp po = deserialize t v inp po.
Proof. exact container_lemma. Qed.
Print Assumptions C23_container.

(** Reading from a [std::istream]. *)
Theorem C23_stream : forall pc fuel t v inp po, plain pc -> (length inp < fuel)%nat ->
  deserialize_stream pc fuel (fuel_for inp) t v inp po = deserialize t v inp po.
Proof. exact stream_lemma. Qed.
Print Assumptions C23_stream.

(** [deserialize] always has a result, so the four of them do. *)
Theorem C23_defined : forall t v inp po, deserialize t v inp po <> None.
Proof. exact deserialize_defined. Qed.
Print Assumptions C23_defined.

Example C23_example :
  deserialize_mem schar 40 60 inner_ty (dflt inner_ty) (b "xx{""flag"":true}yy") 2 13 None
  = Some (true, VMsg [VField false (VBool true); VField true (VDbl (DZero false))], None) /\
  deserialize_mem code 1 3 inner_ty (dflt inner_ty) (b "xx{""flag"":true}yy") 2 0 None
  = Some (false, dflt inner_ty, None) /\
  deserialize_stream schar 40 60 inner_ty (dflt inner_ty) (b "{""flag"":true}") None
  = deserialize_container code 40 60 inner_ty (dflt inner_ty) (b "{""flag"":true}") None.
Proof. vm_compute. auto. Qed.

(** The model does report a load outside the buffer. *)
Example C23_example_bounds : mci_deref 2 4 (b "abcdef") (MCI 4 5) = None.
Proof. reflexivity. Qed.
