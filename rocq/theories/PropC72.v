(** C72: what the text of iterator_ostream, mem_iterator and mem_const_iterator (protogen.hh) does, read and executed as C++. *)
From Verif Require Import Bytes Stream Types Tokenizer Write Sinks Samples CExec Unit HdrText HText HParse SpecHTok HExec HApi HIter SpecHIter HIterProofs.

(** Over a std::back_insert_iterator or a std::ostream_iterator<char>: any "<<" one after another appends its characters and returns
    the stream. *)
Theorem C72_append : forall l ss m, Forall2 (fun a s => shows (fst a) (snd a) s) l ss -> all_put XBack m l XBack (m ++ concat ss).
Proof. exact append_all. Qed.
Print Assumptions C72_append.

(** Over a mem_iterator: [sink_mem_all] of Stream.v, never outside the array. *)
Theorem C72_memory : forall l ss, Forall2 (fun a s => shows (fst a) (snd a) s) l ss -> forall i e, (mi_cur i <= mi_end i)%nat ->
  (mi_end i <= length (mi_mem i))%nat ->
  exists i' e', sink_mem_all i (concat ss) = Some i' /\ all_put (mem_obj i e) (mi_mem i) l (mem_obj i' e') (mi_mem i').
Proof. exact memory_all. Qed.
Print Assumptions C72_memory.

(** The constructors. *)
Theorem C72_stream : forall it m, it = XBack \/ (exists l, it = XObj l) -> iter_new (t_out iters) [it] m = Some (j_this (sink it m)).
Proof. exact out_new. Qed.
Print Assumptions C72_stream.

(** [serialize] into a buffer (C22): whatever pieces its output is given in. *)
Theorem C72_buffer : forall ty0 v m inp len po l ss r po', (inp + len <= length m)%nat -> serialize ty0 v po = (r, concat ss, po') ->
  Forall2 (fun a s => shows (fst a) (snd a) s) l ss ->
  exists first it' m', iter_new (t_mem iters) [XPtr inp; XNum (Z.of_nat len)] m = Some first /\
    serialize_mem ty0 v m inp len po = Some (r, m', po') /\ all_put (XObj first) m l it' m'.
Proof. exact buffer_all. Qed.
Print Assumptions C72_buffer.

(** A mem_const_iterator does what an iterator over the characters between its two ends does, and beyond the last one nothing undefined:
    it stays, and gives the member "empty". *)
Theorem C72_new : forall m p n, (p + n <= length m)%nat ->
  iter_new (t_const iters) [XPtr p; XNum (Z.of_nat n)] m = Some (cells p (p + n) 0) /\
  iter_new (t_const iters) [XPtr (p + n); XNum 0] m = Some (cells (p + n) (p + n) 0).
Proof. exact const_new. Qed.
Print Assumptions C72_new.

Theorem C72_reading : forall m p q e e', (p <= q)%nat -> (q <= length m)%nat ->
  iter_op (t_const iters) (b "==") [(words_of "const mem_const_iterator<T> &", XObj (cells q q e'))] (cells p q e) m
    = Some (JVal (XBool (match between m p q with [] => true | _ => false end)), cells p q e, m) /\
  match between m p q with
  | c :: r => nth_error m p = Some c /\ iter_op (t_const iters) (b "*") [] (cells p q e) m = Some (JMem p, cells p q e, m) /\
              iter_op (t_const iters) (b "++") [] (cells p q e) m = Some (JThis, cells (S p) q e, m) /\ between m (S p) q = r /\ (S p <= q)%nat
  | [] => iter_op (t_const iters) (b "*") [] (cells p q e) m = Some (JMember (b "empty"), cells p q e, m) /\
          iter_op (t_const iters) (b "++") [] (cells p q e) m = Some (JThis, cells p q e, m)
  end.
Proof. exact reading. Qed.
Print Assumptions C72_reading.

(** ** Examples *)
Definition pieces : list (string * ival) :=
  [("char", XChr 123); ("const std::string &", XString (b """a"":")); ("const char *", XArr (b "null" ++ chr 0 :: b "xy")%list); ("char *", XArr (b "}" ++ [chr 0])%list)]%string.
Example C72_applies : Forall2 (fun a s => shows (fst a) (snd a) s) pieces [b "{"; b """a"":"; b "null"; b "}"] /\
  (2 + 9 <= length (b "................"))%nat /\ serialize TStr (VStr false (b "ab")) None = (true, concat [b """"; b "ab"; b """"], None).
Proof.
  split; [|split; [cbn; repeat constructor|reflexivity]].
  constructor; [exact (ShowsChar "{")|]. constructor; [constructor|].
  constructor; [exact (ShowsPointer (b "null") (b "xy") (zero_free (b "null") eq_refl))|].
  constructor; [exact (ShowsBuffer (b "}") [] (zero_free (b "}") eq_refl))|constructor].
Qed.

(** The pieces into a back inserter, and into nine characters of an array. *)
Fixpoint run (T : itext) (l : list (string * ival)) (s : ist) : option ist :=
  match l with
  | [] => Some s
  | (t, v) :: r => match out_op 20 (t_out T) (t_mem T) 2 (words_of t) v s with Some (JThis, s') => run T r s' | _ => None end
  end.
Definition into (T : itext) (p n : nat) : option (list (bytes * ival) * bytes) :=
  match iter_new (t_mem T) [XPtr p; XNum (Z.of_nat n)] (b "................") with
  | Some l => option_map (fun s => (j_this s, j_mem s)) (run T pieces (sink (XObj l) (b "................")))
  | None => None
  end.
Example C72_texts : iters = the_iters.
Proof. exact iters_is. Qed.
Example C72_executed :
  run the_iters pieces (sink XBack (b ">")) = Some (sink XBack (b ">{""a"":null}")) /\
  into the_iters 2 9 = Some ([(b "beg_", XObj (cells 11 11 125))], b "...{""a"":nul.....") /\
  into the_iters 2 15 = None.
Proof. vm_compute. repeat split. Qed.

(** Other texts do other things: one character after the buffer is written, one too few, the first one lost in an undefined way, a step too many. *)
Definition changes (old new : string) : itext := itext_of (instead (length (b old)) (b old) (b new) protogen_hh).
Example C72_tells :
  option_map snd (into (changes "mem_iterator( T *begin, size_t count ) : cursor(begin), end(begin + count), empty(0)"
                                "mem_iterator( T *begin, size_t count ) : cursor(begin), end(cursor), empty(0)") 2 9) = None /\
  run (changes "*++beg_ = value;" "*beg_ = value; ++beg_;") pieces (sink (XObj (cells 2 11 0)) (b "................"))
    = Some (sink (XObj (cells 11 11 125)) (b "..{.""a"":nul.....")) /\
  run (changes "while (*value != 0) *++beg_ = *value++;" "while (*++value != 0) *++beg_ = *value++;") pieces (sink XBack (b ">")) = None.
Proof. vm_compute. repeat split. Qed.
