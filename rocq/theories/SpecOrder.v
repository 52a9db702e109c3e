(** Order of the fields (C42). *)
From Coq Require Import Sorted Permutation.
From Verif Require Import Bytes ProtoLex ProtoParse SpecProto SpecGen SpecFile.

(** [operator<] of strings: lexicographic by the values of the bytes. *)
Inductive name_lt : bytes -> bytes -> Prop :=
  | nl_nil c s : name_lt [] (c :: s)
  | nl_first c d s t : code c < code d -> name_lt (c :: s) (d :: t)
  | nl_more c s t : name_lt s t -> name_lt (c :: s) (c :: t).

(** A sorting routine for fields by name; the order of equal names is not determined. *)
Definition sorts (srt : list field -> list field) : Prop :=
  permutes srt /\ forall l, StronglySorted (fun f g => ~ name_lt (f_name g) (f_name f)) (srt l).

(** Trees that differ in the order of the fields, in the lines of options, and in the
    options of messages, which mean nothing. *)
Definition same_entries (o o' : omap) : Prop :=
  forall n, match o_find n o, o_find n o' with
            | Some e, Some e' => o_type e = o_type e' /\ o_value e = o_value e'
            | None, None => True
            | _, _ => False
            end.
Definition same_field (f g : field) : Prop :=
  f_type f = f_type g /\ f_ref f = f_ref g /\ f_repeated f = f_repeated g /\ f_name f = f_name g /\
  f_index f = f_index g /\ same_entries (f_options f) (f_options g).
Definition same_message (m m' : message) : Prop :=
  m_name m = m_name m' /\ m_package m = m_package m' /\ exists l, Permutation (m_fields m) l /\ Forall2 same_field l (m_fields m').
Definition reordered (p p' : proto) : Prop :=
  Forall2 same_message (pr_messages p) (pr_messages p') /\ same_entries (pr_options p) (pr_options p').

Definition distinct_names (p : proto) : Prop := forall m, In m (pr_messages p) -> NoDup (map f_name (m_fields m)).

(** The same for schemas. *)
Definition schema_reordered (d d' : list sdecl) : Prop :=
  Forall2 (fun m m' : bytes * bytes * list sitem => fst m = fst m' /\ Permutation (item_fields (snd m)) (item_fields (snd m')))
          (messages_of [] d) (messages_of [] d') /\
  same_options (decl_opts d) (decl_opts d').
Definition schema_distinct (d : list sdecl) : Prop :=
  forall m, In m (messages_of [] d) -> NoDup (map sf_name (item_fields (snd m))).
