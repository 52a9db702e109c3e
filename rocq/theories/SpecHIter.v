(** Calls of the operators of iterator_ostream, mem_iterator and mem_const_iterator as the text of protogen.hh has them. *)
From Verif Require Import Bytes Stream Types Tokenizer Write Unit HdrText HText HParse HExec HApi HIter.

Definition iters : itext := itext_of protogen_hh.

(** The characters that an argument of "<<" stands for, with its type in the text. *)
Inductive shows : string -> ival -> bytes -> Prop :=
  | ShowsChar : forall c, shows "char" (XChr (schar c)) [c]
  | ShowsString : forall s, shows "const std::string &" (XString s) s
  | ShowsPointer : forall s r, ~ In (chr 0) s -> shows "const char *" (XArr (s ++ chr 0 :: r)) s
  | ShowsBuffer : forall s r, ~ In (chr 0) s -> shows "char *" (XArr (s ++ chr 0 :: r)) s.

(** An iterator_ostream for an iterator and the characters it writes to. *)
Definition sink (it : ival) (m : bytes) : ist := ISt [(b "beg_", it)] [] m.
(** With enough room for loops: out << v returns out and leaves this. *)
Definition puts (it : ival) (m : bytes) (t : string) (v : ival) (it' : ival) (m' : bytes) : Prop :=
  exists N0, forall N, (N0 <= N)%nat -> out_op N (t_out iters) (t_mem iters) 2 (words_of t) v (sink it m) = Some (JThis, sink it' m').
Inductive all_put (it : ival) (m : bytes) : list (string * ival) -> ival -> bytes -> Prop :=
  | PutNone : all_put it m [] it m
  | PutMore : forall t v l it1 m1 it' m', puts it m t v it1 m1 -> all_put it1 m1 l it' m' -> all_put it m ((t, v) :: l) it' m'.

(** A mem_iterator<char> or mem_const_iterator<char>. *)
Definition cells (cur last : nat) (e : Z) : list (bytes * ival) :=
  [(b "cursor", XPtr cur); (b "end", XPtr last); (b "empty", XChr e)].
Definition mem_obj (i : mem_iter) (e : Z) : ival := XObj (cells (mi_cur i) (mi_end i) e).

(** The characters between two places. *)
Definition between (m : bytes) (p q : nat) : bytes := firstn (q - p) (skipn p m).
