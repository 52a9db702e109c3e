(** Model of the overloads of [message::serialize] (protogen.hh:669-698): the
    characters produced by [serialize] go through an [iterator_ostream] to the
    target.  ([serialize_array], json-array.hh:127-140, only takes a stream, on
    which the caller builds the same iterators.) *)
From Verif Require Import Bytes Num Dbl Types Stream Tokenizer Write.

(** protogen.hh:669-675 (std::string), 677-683 (std::ostream), 692-698 (std::vector<char>).
    Result: returned boolean,
    the target afterwards, [*params] afterwards. *)
Definition serialize_append (t : ty) (v : val) (out : bytes) (po : option params)
  : bool * bytes * option params :=
  let '(r, o, po1) := serialize t v po in (r, fold_left sink_append o out, po1).

(** protogen.hh:685-690, [serialize(char *in, size_t len)]: the buffer is at the
    addresses [in .. in + len) of the memory.  [None]: store outside memory. *)
Definition serialize_mem (t : ty) (v : val) (mem : bytes) (inp len : nat) (po : option params)
  : option (bool * bytes * option params) :=
  let '(r, o, po1) := serialize t v po in
  match sink_mem_all (MI mem inp (inp + len)) o with
  | Some s => Some (r, mi_mem s, po1)
  | None => None
  end.
