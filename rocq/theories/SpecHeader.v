(** Which schemas give a header that C++ accepts, and what the fields are called in JSON. *)
From Verif Require Import Bytes Num Types Read ProtoLex ProtoParse SpecProto SpecWrite SpecLiteral Cpp SpecGen SpecFile SpecOpts SpecProgram.

(** The name of a field as it is printed into the literal. *)
Definition label (p : proto) (f : field) : bytes := json_label (flag (pr_options p) (b "number_names")) f.
Definition obfuscated (p : proto) : bool := flag (pr_options p) (b "obfuscate_strings").

(** The name in JSON: what the literal denotes, up to a NUL.  Obfuscated names as in C33. *)
Definition known_as (p : proto) (f : field) (n : bytes) : Prop :=
  if obfuscated p then n = effective true (label p f)
  else exists v, denotes (label p f) v /\ to_nul v n.

(** One message: different names of the fields, no keywords, literals. *)
Definition message_accepted (p : proto) (m : message) : Prop :=
  NoDup (map f_name (m_fields m)) /\
  (forall f, In f (m_fields m) -> ~ In (f_name f) reserved_words) /\
  ~ In (m_name m) reserved_words /\
  (forall ps w, package_parts (m_package m) ps -> In w ps -> ~ In w reserved_words) /\
  (forall f, In f (m_fields m) -> transient f = false -> obfuscated p = false -> exists v, denotes (label p f) v).

(** All messages: different structures, no structure that is a namespace as well, a serializer
    for every bytes field. *)
Definition accepted (p : proto) : Prop :=
  (forall m, In m (pr_messages p) -> message_accepted p m) /\
  NoDup (concat (map structs (pr_messages p))) /\
  (forall m m' ns, In m (pr_messages p) -> In m' (pr_messages p) -> encloses ns (m_package m) -> ~ In ns (structs m')) /\
  (uses (pr_messages p) (fun f => f_type f = FBytes) ->
   uses (pr_messages p) (fun f => f_repeated f = true /\ f_type f = FBytes) \/
   uses (pr_messages p) (fun f => f_repeated f = true) /\ uses (pr_messages p) numeric).

(** The members written by a class, with their names; transient fields are not written. *)
Fixpoint written_as (p : proto) (k : nat) (l : list field) (w : list (nat * bytes)) : Prop :=
  match l with
  | [] => w = []
  | f :: r => if transient f then written_as p (S k) r w
              else exists n w', w = (k, n) :: w' /\ known_as p f n /\ written_as p (S k) r w'
  end.

(** Distinct clean names. *)
Definition known_fine (strict : bool) (p : proto) : Prop :=
  forall m, In m (pr_messages p) -> exists ns, Forall2 (known_as p) (written m) ns /\ NoDup ns /\ Forall (clean strict) ns.
