From Verif Require Import Bytes Types Unit HdrText HText HParse HApi HIter HField SpecHField.

Lemma fields_is : fields = the_fields.
Proof. vm_compute. reflexivity. Qed.

Ltac go := unfold text_static, text_member, statics, class_of; rewrite ?fields_is.
Ltac vr := vm_compute; reflexivity.

Lemma json_empty : forall t v, basic t -> has_ty t v = true -> text_static t "empty" [0%nat] [as_obj v] = Some (GV (FB (vempty v)), [as_obj v]).
Proof.
  intros t v B H. go. destruct t as [[]|[]| | | |]; try contradiction; destruct v as [[]|? []|[] []|[]|[]|]; try discriminate H; vr.
Qed.
Lemma json_clear : forall t v, basic t -> has_ty t v = true -> text_static t "clear" [0%nat] [as_obj v] = Some (GVoid, [as_obj (vclear v)]).
Proof.
  intros t v B H. go. destruct t as [[]|[]| | | |]; try contradiction; destruct v as [[]|? []|[] []|[]|[]|]; try discriminate H; vr.
Qed.
Lemma json_equal : forall t v w, basic t -> has_ty t v = true -> has_ty t w = true ->
  text_static t "equal" [0%nat; 1%nat] [as_obj v; as_obj w] = Some (GV (FB (vequal v w)), [as_obj v; as_obj w]).
Proof.
  intros t v w B H J. go. destruct t as [[]|[]| | | |]; try contradiction; destruct v as [[]|[] []|[] ?|?|?|]; try discriminate H;
    destruct w as [[]|[] []|[] ?|?|?|]; try discriminate J; vr.
Qed.
Lemma json_swap : forall t v w, basic t -> has_ty t v = true -> has_ty t w = true ->
  text_static t "swap" [0%nat; 1%nat] [as_obj v; as_obj w] = Some (GVoid, [as_obj w; as_obj v]) /\ vswap v w = (w, v).
Proof.
  intros t v w B H J. go. destruct t as [[]|[]| | | |]; try contradiction; destruct v as [[]|[] []|[] ?|?|?|]; try discriminate H;
    destruct w as [[]|[] []|[] ?|?|?|]; try discriminate J; (split; [vr|reflexivity]).
Qed.

(** field<T> *)
Lemma field_members : forall p e x, has_ty (TField p) (VField e x) = true ->
  text_member (TField p) "empty" [] [as_obj (VField e x)] = Some (GV (FB e), [as_obj (VField e x)]) /\
  text_member (TField p) "clear" [] [as_obj (VField e x)] = Some (GVoid, [as_obj (VField true (pzero p))]) /\
  text_member (TField p) "T" [] [as_obj (VField e x)] = Some (GV (FP x), [as_obj (VField e x)]) /\
  f_new (q_field fields) (pzero p) = Some (as_obj (VField true (pzero p))).
Proof. intros p e x H. go. destruct p; destruct x; try discriminate H; repeat split; vr. Qed.
Lemma field_field : forall reuse p e x e' y, has_ty (TField p) (VField e x) = true -> has_ty (TField p) (VField e' y) = true ->
  text_member (TField p) "=" [the_obj 1] [as_obj (VField e x); as_obj (VField e' y)]
    = Some (the_obj 0, [as_obj (vassign reuse (VField e x) (VField e' y)); as_obj (VField e' y)]) /\
  text_member (TField p) "==" [the_obj 1] [as_obj (VField e x); as_obj (VField e' y)]
    = Some (GV (FB (vequal (VField e x) (VField e' y))), [as_obj (VField e x); as_obj (VField e' y)]) /\
  text_member (TField p) "!=" [the_obj 1] [as_obj (VField e x); as_obj (VField e' y)]
    = Some (GV (FB (negb (vequal (VField e x) (VField e' y)))), [as_obj (VField e x); as_obj (VField e' y)]) /\
  text_member (TField p) "swap" [the_obj 1] [as_obj (VField e x); as_obj (VField e' y)]
    = Some (GVoid, [as_obj (VField e' y); as_obj (VField e x)]).
Proof. intros reuse p e x e' y H J. go. destruct p; destruct x; try discriminate H; destruct y; try discriminate J; destruct e, e'; repeat split; vr. Qed.
Lemma field_value : forall p e x y, has_ty (TField p) (VField e x) = true -> pval_ok p y = true ->
  text_member (TField p) "=" [the_obj 1] [as_obj (VField e x); OVal (FP y)] = Some (the_obj 0, [as_obj (VField false y); OVal (FP y)]) /\
  text_member (TField p) "==" [the_obj 1] [as_obj (VField e x); OVal (FP y)] = Some (GV (FB (negb e && pval_eqb x y)), [as_obj (VField e x); OVal (FP y)]) /\
  text_member (TField p) "!=" [the_obj 1] [as_obj (VField e x); OVal (FP y)] = Some (GV (FB (negb e && negb (pval_eqb x y))), [as_obj (VField e x); OVal (FP y)]) /\
  text_member (TField p) "swap" [the_obj 1] [as_obj (VField e x); OVal (FP y)] = Some (GVoid, [as_obj (VField false y); OVal (FP x)]).
Proof. intros p e x y H J. go. destruct p; destruct x; try discriminate H; destruct y; try discriminate J; destruct e; repeat split; vr. Qed.

(** string_field *)
Lemma string_members : forall n s k,
  text_member TStr "empty" [] [as_obj (VStr n s)] = Some (GV (FB (vempty (VStr n s))), [as_obj (VStr n s)]) /\
  text_member TStr "clear" [] [as_obj (VStr n s)] = Some (GVoid, [as_obj (VStr true [])]) /\
  text_member TStr "empty" [GV (FB k)] [as_obj (VStr n s)] = Some (GVoid, [as_obj (VStr k (if k then [] else s))]) /\
  f_new (q_string fields) (VInt 0) = Some (as_obj (VStr true [])).
Proof. intros n s k. go. destruct n, k, s; repeat split; vr. Qed.
Lemma string_string : forall reuse n s n' s',
  text_member TStr "=" [the_obj 1] [as_obj (VStr n s); as_obj (VStr n' s')]
    = Some (the_obj 0, [as_obj (vassign reuse (VStr n s) (VStr n' s')); as_obj (VStr n' s')]) /\
  text_member TStr "==" [the_obj 1] [as_obj (VStr n s); as_obj (VStr n' s')]
    = Some (GV (FB (vequal (VStr n s) (VStr n' s'))), [as_obj (VStr n s); as_obj (VStr n' s')]) /\
  text_member TStr "!=" [the_obj 1] [as_obj (VStr n s); as_obj (VStr n' s')]
    = Some (GV (FB (negb (vequal (VStr n s) (VStr n' s')))), [as_obj (VStr n s); as_obj (VStr n' s')]) /\
  text_member TStr "swap" [the_obj 1] [as_obj (VStr n s); as_obj (VStr n' s')] = Some (GVoid, [as_obj (VStr n' s'); as_obj (VStr n s)]).
Proof. intros reuse n s n' s'. go. destruct n, n'; repeat split; vr. Qed.
Lemma string_value : forall n s x t, a_text x t ->
  text_member TStr "=" [the_obj 1] [as_obj (VStr n s); OVal x] = Some (the_obj 0, [as_obj (VStr false t); OVal x]) /\
  text_member TStr "==" [the_obj 1] [as_obj (VStr n s); OVal x] = Some (GV (FB (negb n && bytes_eqb s t)), [as_obj (VStr n s); OVal x]) /\
  text_member TStr "!=" [the_obj 1] [as_obj (VStr n s); OVal x] = Some (GV (FB (negb n && negb (bytes_eqb s t))), [as_obj (VStr n s); OVal x]).
Proof. intros n s x t [-> | ->]; go; destruct n; repeat split; vr. Qed.
Lemma string_swap : forall n s t, text_member TStr "swap" [the_obj 1] [as_obj (VStr n s); OVal (FS t)] = Some (GVoid, [as_obj (VStr false t); OVal (FS s)]).
Proof. intros n s t. go. destruct n; vr. Qed.

(** A field that is not set is neither equal nor unequal to a value. *)
Lemma neither_field : forall p x y, has_ty (TField p) (VField true x) = true -> pval_ok p y = true -> exists m,
  text_member (TField p) "==" [the_obj 1] [as_obj (VField true x); OVal (FP y)] = Some (GV (FB false), m) /\
  text_member (TField p) "!=" [the_obj 1] [as_obj (VField true x); OVal (FP y)] = Some (GV (FB false), m).
Proof. intros p x y H J. destruct (field_value p true x y H J) as (_ & A & B & _). eexists. split; [exact A|exact B]. Qed.
Lemma neither_string : forall s x t, a_text x t -> exists m,
  text_member TStr "==" [the_obj 1] [as_obj (VStr true s); OVal x] = Some (GV (FB false), m) /\
  text_member TStr "!=" [the_obj 1] [as_obj (VStr true s); OVal x] = Some (GV (FB false), m).
Proof. intros s x t J. destruct (string_value true s x t J) as (_ & A & B). eexists. split; [exact A|exact B]. Qed.
