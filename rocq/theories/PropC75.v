(** C75: what the text of the remaining functions of a message does, read and executed as C++: deserialize for a std::istream and for
    characters in memory, serialize into a buffer, clear, empty, equal, swap, ==, != (json.hh, protogen.hh), and json<N>. *)
From Verif Require Import Bytes Num Dbl Types Stream Tokenizer Write Read GenRead StdIn Sinks Samples CParse Unit HdrText HText HParse SpecHTok HIter HTok HJson HApi HStd SpecHStd HStdProofs.

(** From a std::istream: [deserialize_std] of StdIn.v (C61), with what it leaves in the stream and the flag skipws as it was. *)
Theorem C75_stream : forall fuel n t v s po, text_std fuel n t v s po = deserialize_std schar fuel n t v s po.
Proof. exact std_text. Qed.
Print Assumptions C75_stream.

(** From characters in memory: as [deserialize] of these characters; no other character is read, and none is changed. *)
Theorem C75_memory : forall fuel t v w m p len s po, (p + len <= length m)%nat -> (len < fuel)%nat ->
  exists r v' po', deserialize t v (firstn len (skipn p m)) po = Some (r, v', po') /\
    text_mem fuel (fuel_for (firstn len (skipn p m))) t v w m p len s po = Some (r, v', po', s, m).
Proof. exact mem_reads. Qed.
Print Assumptions C75_memory.

(** Into a buffer: [serialize_mem] of Sinks.v (C22). *)
Theorem C75_buffer : forall t v m p len s po, (p + len <= length m)%nat ->
  text_buffer t v true m p len s po = match serialize_mem t v m p len po with Some (r, m', po') => Some (r, v, po', s, m') | None => None end.
Proof. exact buffer_text. Qed.
Print Assumptions C75_buffer.

(** deserialize_array for characters in memory cannot be used: a mem_iterator is not made from a const char *. *)
Theorem C75_array_refuted : forall fuel n t v w m p len s po, text_array fuel n t v w m p len s po = None.
Proof. exact array_text. Qed.
Print Assumptions C75_array_refuted.

(** The functions of N are those of S, whatever S does; so are those of json<N>. *)
Theorem C75_member : forall M (ser : bytes -> list mval -> M -> option (mval * M)) x y m,
  text_member ser x "clear" [] m = as_void (ser (b "clear") [MObj x] m) /\
  text_member ser x "empty" [] m = as_bool (ser (b "empty") [MObj x] m) /\
  text_member ser x "equal" [MObj y] m = as_bool (ser (b "equal") [MObj x; MObj y] m) /\
  text_member ser x "swap" [MObj y] m = as_void (ser (b "swap") [MObj x; MObj y] m).
Proof. exact @member_all. Qed.
Print Assumptions C75_member.

Theorem C75_static : forall M (ser : bytes -> list mval -> M -> option (mval * M)) x y s m,
  text_static ser "read" [MCtx; MObj x] m = as_int (ser (b "read") [MCtx; MObj x] m) /\
  text_static ser "read_field" [MCtx; MName s; MObj x] m = as_int (ser (b "read_field") [MCtx; MName s; MObj x] m) /\
  text_static ser "write" [MCtx; MObj x] m = as_int (ser (b "write") [MCtx; MObj x] m) /\
  text_static ser "empty" [MObj x] m = as_bool (ser (b "empty") [MObj x] m) /\
  text_static ser "clear" [MObj x] m = as_void (ser (b "clear") [MObj x] m) /\
  text_static ser "equal" [MObj x; MObj y] m = as_bool (ser (b "equal") [MObj x; MObj y] m) /\
  text_static ser "swap" [MObj x; MObj y] m = as_void (ser (b "swap") [MObj x; MObj y] m).
Proof. exact @static_all. Qed.
Print Assumptions C75_static.

(** On messages: the operations of Types.v; == is equal, and != its negation. *)
Theorem C75_values : forall x y m v w, nth_error m x = Some v -> nth_error m y = Some w ->
  text_member model_ser x "clear" [] m = Some (MVoid, set_nth x (vclear v) m) /\
  text_member model_ser x "empty" [] m = Some (MB (vempty v), m) /\
  text_member model_ser x "equal" [MObj y] m = Some (MB (vequal v w), m) /\
  text_member model_ser x "==" [MObj y] m = Some (MB (vequal v w), m) /\
  text_member model_ser x "!=" [MObj y] m = Some (MB (negb (vequal v w)), m) /\
  text_member model_ser x "swap" [MObj y] m = Some (MVoid, set_nth y (snd (vswap v w)) (set_nth x (fst (vswap v w)) m)).
Proof. exact member_values. Qed.
Print Assumptions C75_values.

(** ** Examples *)
Definition text : bytes := b "xx{""flag"":true} yy".
Definition flagged : val := VMsg [VField false (VBool true); VField true (VDbl (DZero false))].
Example C75_applies : (2 + 14 <= length text)%nat /\ (14 < 40)%nat /\ nth_error [flagged; dflt inner_ty] 1 = Some (dflt inner_ty).
Proof. vm_compute. repeat constructor. Qed.
Example C75_texts : stds = the_std.
Proof. exact stds_is. Qed.
Definition none : std_in := SIn [] false true.
Definition in_std (S : stext) (s : std_in) := option_map fst (scall (s_iters S) 40 60 inner_ty 0 0 (s_message S) (b "deserialize") [WIn; WPar] s [] (dflt inner_ty) None).
Definition in_mem (S : stext) := option_map (fun x => fst (fst x)) (scall (s_iters S) 40 60 inner_ty 2 16 (s_message S) (b "deserialize") [WPtr false 2; WSize 14; WPar] none text (dflt inner_ty) None).
Definition in_array (S : stext) (w : bool) := option_map (fun x => fst (fst x)) (scall (s_iters S) 40 60 (TRep inner_ty) 0 17 (s_array S) (b "deserialize_array") [WT; WPtr w 0; WSize 17; WPar] none (b "[{""flag"":true},5]") (VList []) None).
Definition out_mem (S : stext) (w : bool) (len : Z) := option_map snd (scall (s_iters S) 0 0 inner_ty 0 0 (s_message S) (b "serialize") [WPtr w 2; WSize len; WPar] none (b "012345678901234567890") flagged None).
Example C75_executed :
  in_std the_std (SIn (b " {""flag"":true} , 1") false true) = Some (true, flagged, None, SIn (b "1") false true) /\
  in_mem the_std = Some (true, flagged, None) /\
  out_mem the_std true 18 = Some (b "012{""flag"":true}67890") /\ out_mem the_std true 4 = Some (b "012{""f678901234567890") /\ out_mem the_std false 18 = None /\
  text_member model_ser 0 "!=" [MObj 1] [flagged; dflt inner_ty] = Some (MB true, [flagged; dflt inner_ty]) /\
  text_member model_ser 0 "clear" [] [flagged] = Some (MVoid, [dflt inner_ty]).
Proof. vm_compute. repeat split. Qed.

(** Other texts do other things: white space skipped, the flag not put back, the ends exchanged, a buffer of another length, an
    iterator that takes a const char *, operators that are the wrong way round. *)
Definition change (old new : string) (t : bytes) : bytes := instead (length (b old)) (b old) (b new) t.
Definition proto (old new : string) : stext :=
  STx (s_functions (inner_block (header (change old new protogen_hh)) message_path)) (s_array the_std) (s_iters the_std) (s_entity the_std) (s_json the_std).
Definition iterator (old new : string) : stext :=
  STx (s_message the_std) (s_array the_std) (itext_of (change old new protogen_hh)) (s_entity the_std) (s_json the_std).
Definition array (old new : string) : stext :=
  STx (s_message the_std) (s_functions (inner_block (header (change old new json_array_hh)) [ns])) (s_iters the_std) (s_entity the_std) (s_json the_std).
Definition others (old new : string) : list hfun :=
  firstn 6 (s_entity the_std) ++ map as_fun (flat_map ofunction (items [] (inner_block (header (change old new protogen_hh)) message_path))).
Definition entity (old new : string) : list hfun := hfunctions (inner_block (macro_body (change old new json_hh) "PG_X_Y_Z_ENTITY") entity_path).
Definition static (old new : string) : list hfun := hfunctions (inner_block (macro_body (change old new json_hh) "PG_X_Y_Z_ENTITY_SERIALIZER") json_path).
Example C75_tells :
  in_std (proto "std::noskipws(in);" "") (SIn (b " {""flag"":true} , 1") false true) = Some (true, flagged, None, SIn [] false true) /\
  in_std (proto "if (skip) std::skipws(in);" "") (SIn (b " {""flag"":true} , 1") false true) = Some (true, flagged, None, SIn (b "1") false false) /\
  in_mem (proto "mem_const_iterator<char>(in + len, 0);
        iterator_istream" "mem_const_iterator<char>(in, 0);
        iterator_istream") <> Some (true, flagged, None) /\
  in_mem (iterator "cursor(begin), end(begin + count)" "cursor(begin), end(begin)") <> Some (true, flagged, None) /\
  in_array the_std false = None /\ in_array the_std true = None /\
  in_array (array "T& container, const char *in" "T& container, char *in") true
    = Some (false, VList [flagged], None) /\
  mcall model_ser 2 (others "return !equal(that);" "return equal(that);") (Some 0%nat) (b "!=") [MObj 1] [flagged; flagged] = Some (MB true, [flagged; flagged]) /\
  mcall model_ser 2 (entity "{ S::clear(*this); }" "{ S::empty(*this); }") (Some 0%nat) (b "clear") [] [flagged] = Some (MVoid, [flagged]) /\
  mcall model_ser 1 (static "{ S::swap(a, b); }" "{ S::swap(a, a); }") None (b "swap") [MObj 0; MObj 1] [flagged; dflt inner_ty] = Some (MVoid, [flagged; dflt inner_ty]).
Proof. vm_compute. repeat split; discriminate. Qed.
