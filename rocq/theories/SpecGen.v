(** What the generator is meant to do, stated on the syntax tree. *)
From Verif Require Import Bytes Num Types ProtoLex ProtoParse Cpp.

(** ** References between messages (C31) *)

(** Message [k] has a field of type [j]. *)
Definition refers (msgs : list message) (k j : nat) : Prop :=
  exists m f, nth_error msgs k = Some m /\ In f (m_fields m) /\ f_ref f = Some j.

(** A path of one or more references. *)
Inductive reaches (msgs : list message) : nat -> nat -> Prop :=
  | rc_one k j : refers msgs k j -> reaches msgs k j
  | rc_more k j i : refers msgs k j -> reaches msgs j i -> reaches msgs k i.

Definition cyclic (msgs : list message) : Prop := exists k, reaches msgs k k.

(** The message of the failure names a message of a cycle. *)
Definition circular (msgs : list message) (e : bytes) : Prop :=
  exists k m, nth_error msgs k = Some m /\ reaches msgs k k /\ e = b "circular reference with '" ++ m_name m ++ b "'".

(** References point to messages, and message fields have one: what the parser
    guarantees (C30). *)
Definition refs_ok (msgs : list message) : Prop :=
  forall m f, In m msgs -> In f (m_fields m) ->
    (forall j, f_ref f = Some j -> (j < length msgs)%nat) /\ (f_type f = FMessage -> f_ref f <> None).

(** Every message once, after those it refers to. *)
Definition well_ordered (msgs : list message) (order : list nat) : Prop :=
  (forall k, In k order <-> (k < length msgs)%nat) /\ NoDup order /\
  forall u k v, order = u ++ k :: v -> forall j, refers msgs k j -> In j u.

(** ** Options (C35) *)

(** Boolean options; without value they are off. *)
Definition is_bool (o : omap) (n : bytes) : Prop :=
  match o_find n o with None => True | Some e => o_type e = OBoolean end.
Definition flag (o : omap) (n : bytes) : bool :=
  match o_find n o with None => false | Some e => bytes_eqb (o_value e) (b "true") end.

Definition transient (f : field) : bool := flag (f_options f) (b "transient").

(** The JSON name: the option [name], or the name of the field. *)
Definition given_name (f : field) : bytes :=
  match o_find (b "name") (f_options f) with None => f_name f | Some e => o_value e end.
Definition name_fine (f : field) : Prop :=
  match o_find (b "name") (f_options f) with None => True | Some e => o_type e = OString end /\
  ~ In "'"%char (given_name f) /\ ~ In """"%char (given_name f).

(** The name of a transient field does not matter. *)
Definition field_fine (f : field) : Prop :=
  is_bool (f_options f) (b "transient") /\ (transient f = false -> name_fine f).

(** At most 64 fields (C41). *)
Definition message_fine (m : message) : Prop :=
  (length (m_fields m) <= 64)%nat /\ Forall field_fine (m_fields m).

Definition file_flags : list bytes := [b "obfuscate_strings"; b "cpp_use_lists"; b "number_names"].

(** When generation succeeds. *)
Definition proto_fine (p : proto) : Prop :=
  (forall n, In n file_flags -> is_bool (pr_options p) n) /\
  (forall m, In m (pr_messages p) -> message_fine m) /\ ~ cyclic (pr_messages p).

(** ** The class of a message *)

(** Names as numbers (C34), obfuscated names (C33): "\x" and the hexadecimal value of every
    byte, combined with a mask that depends on the length. *)
Definition json_label (numbers : bool) (f : field) : bytes :=
  if numbers then dec (f_index f) else given_name f.
Definition name_mask (n : nat) : Z := nth (n mod 8) [147; 39; 78; 156; 57; 114; 228; 201] 0.
Definition hexd (z : Z) : ascii := nth (Z.to_nat z) (b "0123456789abcdef") NUL.
Definition hexnum (z : Z) : bytes := if z <? 16 then [hexd z] else [hexd (z / 16); hexd (z mod 16)].
Definition masked (l : bytes) : bytes :=
  concat (map (fun c => b "\x" ++ hexnum (Z.lxor (code c) (name_mask (length l)))) l).
Definition literal_of (obf : bool) (l : bytes) : bytes := if obf then masked l else l.

(** The C++ types of the fields. *)
Definition value_elem (msgs : list message) (f : field) : celem :=
  match f_type f with
  | FDouble => EPrim PDouble
  | FFloat => EPrim PFloat
  | FInt32 | FSint32 | FSfixed32 => EPrim (PInt true 32)
  | FInt64 | FSint64 | FSfixed64 => EPrim (PInt true 64)
  | FUint32 | FFixed32 => EPrim (PInt false 32)
  | FUint64 | FFixed64 => EPrim (PInt false 64)
  | FBool => EPrim PBool
  | FBytes => EPrim (PInt false 8)
  | FString => EStr
  | FMessage => match f_ref f with
                | Some k => match nth_error msgs k with Some m => EMsg (m_package m) (m_name m) | None => EStr end
                | None => EStr
                end
  end.
Definition is_bytes (f : field) : bool := match f_type f with FBytes => true | _ => false end.
Definition member_type (msgs : list message) (lists : bool) (f : field) : ctype :=
  if is_bytes f then CSeq false (value_elem msgs f)
  else if f_repeated f then CSeq lists (value_elem msgs f)
  else match value_elem msgs f with EPrim p => CField p | e => CElem e end.

Definition written (m : message) : list field := filter (fun f => negb (transient f)) (m_fields m).

Fixpoint numbered {A} (i : Z) (l : list A) : list (Z * A) :=
  match l with [] => [] | x :: r => (i, x) :: numbered (i + 1) r end.

Definition class_of (msgs : list message) (obf lists numbers : bool) (m : message) : cls :=
  let names := map f_name (m_fields m) in
  Cls (m_package m) (m_name m)
    (map (fun f => (member_type msgs lists f, f_name f)) (m_fields m))
    (map (fun x => (fst x, f_name (snd x))) (numbered 0 (written m)))
    (map (fun f => (f_name f, Label obf (literal_of obf (json_label numbers f)))) (written m))
    names names names names
    (match written m with [] => false | _ => obf end)
    (map (fun x => (literal_of obf (json_label numbers (snd x)), fst x)) (numbered 0 (written m))).
