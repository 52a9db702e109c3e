(** Options, guards and namespaces on the schema (C35, C36, C37). *)
From Verif Require Import Bytes SpecProto SpecTemplate ProtoLex ProtoParse SpecSchema SpecGen SpecFile.

(** The last value decides. *)
Definition bool_opt (l : list sopt) (n : bytes) : Prop :=
  match last_value l n with None | Some (SBool _) => True | Some _ => False end.
Definition on (l : list sopt) (n : bytes) : bool :=
  match last_value l n with Some (SBool x) => x | _ => false end.
Definition sname (s : sfield) : bytes :=
  match last_value (sf_opts s) (b "name") with Some (SStr x) => x | _ => sf_name s end.
Definition name_opt (s : sfield) : Prop :=
  match last_value (sf_opts s) (b "name") with
  | None => ~ In "'"%char (sf_name s) /\ ~ In """"%char (sf_name s)
  | Some (SStr x) => ~ In "'"%char x /\ ~ In """"%char x
  | Some _ => False
  end.
Definition field_opts_fine (s : sfield) : Prop :=
  bool_opt (sf_opts s) (b "transient") /\ (on (sf_opts s) (b "transient") = false -> name_opt s).

(** Field [s] of message [i] has type message [j]. *)
Definition srefers (l : list (bytes * bytes * list sitem)) (i j : nat) : Prop :=
  exists pkg name items s w, nth_error l i = Some (pkg, name, items) /\ In s (item_fields items) /\
    sf_type s = SMessage w /\ first_named l (full_name pkg w) j.
Inductive sreaches (l : list (bytes * bytes * list sitem)) : nat -> nat -> Prop :=
  | sr_one i j : srefers l i j -> sreaches l i j
  | sr_more i j k : srefers l i j -> sreaches l j k -> sreaches l i k.

(** The schemas the compiler generates code for. *)
Definition schema_fine (decls : list sdecl) : Prop :=
  (forall n, In n file_flags -> bool_opt (decl_opts decls) n) /\
  (forall pkg name items, In (pkg, name, items) (messages_of [] decls) ->
     (length (item_fields items) <= 64)%nat /\ Forall field_opts_fine (item_fields items)) /\
  ~ exists k, sreaches (messages_of [] decls) k k.

(** Two file names with the same guard. *)
Definition special (c : ascii) : Prop := word_char c = false \/ c = "_"%char.
Definition alike (f g : bytes) : Prop := Forall2 (fun c d => c = d \/ special c /\ special d) f g.

(** The components of a package. *)
Definition package_parts (pkg : bytes) (ps : list bytes) : Prop :=
  (pkg = [] /\ ps = []) \/ (pkg <> [] /\ ps <> [] /\ join (b ".") ps = pkg /\ Forall (fun c => ~ In "."%char c) ps).

Fixpoint count (c : ascii) (s : bytes) : nat :=
  match s with [] => O | d :: r => ((if Ascii.eqb d c then 1 else 0) + count c r)%nat end.
