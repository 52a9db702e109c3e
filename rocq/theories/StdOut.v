(** Writing into a [std::ostream]. *)
From Verif Require Import Bytes Num Dbl Types Stream Tokenizer Write.

(** ** [std::ostream]

    What its buffer has received, whether the state is good (no error bit is set; which one
    makes no difference here), and the formatting state that concerns characters: field
    width, left adjustment ([internal] and no adjustment pad like [right]), fill character.
    Exceptions switched on by [exceptions()], and [tie()], are not modelled. *)
Record std_out := SOut { so_text : bytes; so_good : bool; so_width : Z; so_left : bool; so_fill : ascii }.

Section Out.
  (** The stream buffer: whether [sputc] of a character succeeds after what was received. *)
  Context (accepts : bytes -> ascii -> bool).

  (** [sputc] of one character after another, until one fails. *)
  Fixpoint so_puts (seq text : bytes) {struct seq} : bytes * bool :=
    match seq with
    | [] => (text, true)
    | c :: r => if accepts text c then so_puts r (text ++ [c]) else (text, false)
    end.

  (** [out << c] (C++11 27.7.3.6.4, 27.7.3.6.1): nothing happens if the state is not good;
      padding to the width; the width is zero afterwards. *)
  Definition so_insert (s : std_out) (c : ascii) : std_out :=
    if so_good s then
      let pad := repeat (so_fill s) (Z.to_nat (so_width s - 1)) in
      let '(text, ok) := so_puts (if so_left s then c :: pad else pad ++ [c]) (so_text s) in
      SOut text ok 0 (so_left s) (so_fill s)
    else s.

  (** protogen.hh:677-683: every character goes through [std::ostream_iterator<char>], whose
      assignment is [out << c] (24.6.2.2) and whose [++] does nothing (protogen.hh:124-143).
      The same for the stream of [serialize_array] (json-array.hh:127-140) over such an
      iterator. *)
  Definition serialize_std (t : ty) (v : val) (s : std_out) (po : option params) : bool * std_out * option params :=
    let '(r, o, po1) := serialize t v po in (r, fold_left so_insert o s, po1).
End Out.
