(** The classes that a text declares, against the types of the runtime. *)
From Verif Require Import Bytes Num Types Stream Tokenizer Read Write Cpp CLex CParse CExec.

(** The functions of [json<T>] as the runtime model has them; [n]: fuel of the reader, [ea] and
    [sn]: the parameters ensure_ascii and serialize_null. *)
Definition funs (n : nat) (ea sn : bool) (t : ty) : mfun := MFun (read n t) (write ea sn t) vempty vclear vequal vswap.

(** The class [c] of the text is the message [t]: the words of its members denote the types of
    the members of [t], and every function, executed statement by statement on an object, does
    what the runtime model does, when the functions for the types of the members do. *)
Definition behaves (v : bytes) (h : headers) (env : cenv) (c : tclass) (t : ty) : Prop :=
  exists ms g, t = TMsg ms g /\
  all_some (map (fun m => resolve v h env (fst m)) (tc_members c)) = Some ms /\
  forall n ea sn vs, length vs = length ms ->
  let names := map snd (tc_members c) in
  let mfs := map (funs n ea sn) ms in
  let ty := tc_type c in
  let fs := tc_funcs c in
  (forall tk, rmap VMsg (text_read sn names mfs ty fs n tk vs) = read n t tk (VMsg vs)) /\
  (forall e, text_write sn names mfs ty fs vs e = Some (write ea sn t (VMsg vs) e)) /\
  text_empty sn names mfs ty fs vs = Some (vempty (VMsg vs)) /\
  option_map VMsg (text_clear sn names mfs ty fs vs) = Some (vclear (VMsg vs)) /\
  (forall name, text_index sn names mfs ty fs name = Some (gen_index g name)) /\
  forall vs', length vs' = length ms ->
    text_equal sn names mfs ty fs vs vs' = Some (vequal (VMsg vs) (VMsg vs')) /\
    option_map (fun p => (VMsg (fst p), VMsg (snd p))) (text_swap sn names mfs ty fs vs vs') = Some (vswap (VMsg vs) (VMsg vs')).

(** The text declares the classes of [env], in this order. *)
Definition declares (v : bytes) (h : headers) (text : bytes) (env : cenv) : Prop :=
  exists ds cs, unit_of text = Some ds /\ classes_in v ds = Some cs /\
  Forall2 (fun c x => let '(pkg, name, t) := x in tc_space c = space_of pkg /\ tc_name c = name /\ behaves v h env c t) cs env.

(** Letters, digits and underscores. *)
Definition word_text (v : bytes) : Prop := forallb is_word_c v = true.
