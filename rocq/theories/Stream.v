(** Model of the runtime streams of source/cpp/protogen.hh. *)
From Verif Require Import Bytes.

(** ** [iterator_istream<I>] (protogen.hh:157-193)

    [is_rest] is the range [beg_, end_) of the underlying iterators.  The
    counters are C++ [int]; overflow (inputs over 2^31 bytes) is not modelled. *)
Record istream := IS { is_rest : bytes; is_line : Z; is_col : Z }.

(** protogen.hh:184-192, [skip]. *)
Fixpoint skip_lf (rest : bytes) (line col : Z) : istream :=
  match rest with
  | c :: r => if Ascii.eqb c LF then skip_lf r (line + 1) 1 else IS rest line col
  | [] => IS [] line col
  end.

(** protogen.hh:161-165, constructor. *)
Definition mk_istream (inp : bytes) : istream := skip_lf inp 1 1.

(** protogen.hh:166-170, [peek]: 0 at the end, otherwise the [char] promoted to
    [int] (negative for bytes >= 0x80, signed [char] assumed). *)
Definition is_peek (s : istream) : Z :=
  match is_rest s with [] => 0 | c :: _ => schar c end.

(** protogen.hh:171-177, [next]. *)
Definition is_next (s : istream) : istream :=
  match is_rest s with
  | [] => s
  | _ :: r => skip_lf r (is_line s) (is_col s + 1)
  end.

(** protogen.hh:178, [eof]. *)
Definition is_eof (s : istream) : bool :=
  match is_rest s with [] => true | _ => false end.

(** ** [iterator_ostream<I>] (protogen.hh:117-144)

    Every [operator<<] stores characters one by one with [*++beg_ = c].  The
    writers below produce the sequence of characters; a sink consumes it. *)

(** [std::back_insert_iterator<std::string>], [std::back_insert_iterator<std::vector<char>>]
    and [std::ostream_iterator<char>]: [++] is a no-op and assignment appends. *)
Definition sink_append (out : bytes) (c : ascii) : bytes := out ++ [c].

(** [mem_iterator<char>] (protogen.hh:223-249) inside a memory [mi_mem]; [mi_cur]
    and [mi_end] are addresses.  The member [empty] absorbs writes at the end. *)
Record mem_iter := MI { mi_mem : bytes; mi_cur : nat; mi_end : nat }.

(** [*++beg_ = c] (protogen.hh:126 with 231-240).  [None]: store outside memory. *)
Definition sink_mem (s : mem_iter) (c : ascii) : option mem_iter :=
  let cur := if Nat.ltb (mi_cur s) (mi_end s) then S (mi_cur s) else mi_cur s in
  if Nat.leb (mi_end s) cur then Some (MI (mi_mem s) cur (mi_end s))
  else if Nat.ltb cur (length (mi_mem s))
       then Some (MI (set_nth cur c (mi_mem s)) cur (mi_end s))
       else None.

Fixpoint sink_mem_all (s : mem_iter) (out : bytes) : option mem_iter :=
  match out with
  | [] => Some s
  | c :: r => match sink_mem s c with Some s' => sink_mem_all s' r | None => None end
  end.
