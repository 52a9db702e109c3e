(** C73: what the text of field<T>, string_field and json<T>::empty, clear, equal and swap does, read and executed as C++. *)
From Verif Require Import Bytes Types Unit HdrText HText HParse HApi HIter SpecHTok HField SpecHField HFieldProofs.

(** json<T>::empty, clear, equal and swap: [vempty], [vclear], [vequal] and [vswap] of Types.v; nothing else changes. *)
Theorem C73_empty : forall t v, basic t -> has_ty t v = true -> text_static t "empty" [0%nat] [as_obj v] = Some (GV (FB (vempty v)), [as_obj v]).
Proof. exact json_empty. Qed.
Print Assumptions C73_empty.

(** json<T>::clear *)
Theorem C73_clear : forall t v, basic t -> has_ty t v = true -> text_static t "clear" [0%nat] [as_obj v] = Some (GVoid, [as_obj (vclear v)]).
Proof. exact json_clear. Qed.
Print Assumptions C73_clear.

(** json<T>::equal *)
Theorem C73_equal : forall t v w, basic t -> has_ty t v = true -> has_ty t w = true ->
  text_static t "equal" [0%nat; 1%nat] [as_obj v; as_obj w] = Some (GV (FB (vequal v w)), [as_obj v; as_obj w]).
Proof. exact json_equal. Qed.
Print Assumptions C73_equal.

(** json<T>::swap *)
Theorem C73_swap : forall t v w, basic t -> has_ty t v = true -> has_ty t w = true ->
  text_static t "swap" [0%nat; 1%nat] [as_obj v; as_obj w] = Some (GVoid, [as_obj w; as_obj v]) /\ vswap v w = (w, v).
Proof. exact json_swap. Qed.
Print Assumptions C73_swap.

(** The members of field<T>, and a new object of it. *)
Theorem C73_field : forall p e x, has_ty (TField p) (VField e x) = true ->
  text_member (TField p) "empty" [] [as_obj (VField e x)] = Some (GV (FB e), [as_obj (VField e x)]) /\
  text_member (TField p) "clear" [] [as_obj (VField e x)] = Some (GVoid, [as_obj (VField true (pzero p))]) /\
  text_member (TField p) "T" [] [as_obj (VField e x)] = Some (GV (FP x), [as_obj (VField e x)]) /\
  f_new (q_field fields) (pzero p) = Some (as_obj (VField true (pzero p))).
Proof. exact field_members. Qed.
Print Assumptions C73_field.

(** Two objects of field<T>: the assignment is the one of C58. *)
Theorem C73_fields : forall reuse p e x e' y, has_ty (TField p) (VField e x) = true -> has_ty (TField p) (VField e' y) = true ->
  text_member (TField p) "=" [the_obj 1] [as_obj (VField e x); as_obj (VField e' y)]
    = Some (the_obj 0, [as_obj (vassign reuse (VField e x) (VField e' y)); as_obj (VField e' y)]) /\
  text_member (TField p) "==" [the_obj 1] [as_obj (VField e x); as_obj (VField e' y)]
    = Some (GV (FB (vequal (VField e x) (VField e' y))), [as_obj (VField e x); as_obj (VField e' y)]) /\
  text_member (TField p) "!=" [the_obj 1] [as_obj (VField e x); as_obj (VField e' y)]
    = Some (GV (FB (negb (vequal (VField e x) (VField e' y)))), [as_obj (VField e x); as_obj (VField e' y)]) /\
  text_member (TField p) "swap" [the_obj 1] [as_obj (VField e x); as_obj (VField e' y)]
    = Some (GVoid, [as_obj (VField e' y); as_obj (VField e x)]).
Proof. exact field_field. Qed.
Print Assumptions C73_fields.

(** An object of field<T> and a T. *)
Theorem C73_value : forall p e x y, has_ty (TField p) (VField e x) = true -> pval_ok p y = true ->
  text_member (TField p) "=" [the_obj 1] [as_obj (VField e x); OVal (FP y)] = Some (the_obj 0, [as_obj (VField false y); OVal (FP y)]) /\
  text_member (TField p) "==" [the_obj 1] [as_obj (VField e x); OVal (FP y)] = Some (GV (FB (negb e && pval_eqb x y)), [as_obj (VField e x); OVal (FP y)]) /\
  text_member (TField p) "!=" [the_obj 1] [as_obj (VField e x); OVal (FP y)] = Some (GV (FB (negb e && negb (pval_eqb x y))), [as_obj (VField e x); OVal (FP y)]) /\
  text_member (TField p) "swap" [the_obj 1] [as_obj (VField e x); OVal (FP y)] = Some (GVoid, [as_obj (VField false y); OVal (FP x)]).
Proof. exact field_value. Qed.
Print Assumptions C73_value.

(** The members of string_field, and a new object of it; empty(true) makes it null. *)
Theorem C73_string : forall n s k,
  text_member TStr "empty" [] [as_obj (VStr n s)] = Some (GV (FB (vempty (VStr n s))), [as_obj (VStr n s)]) /\
  text_member TStr "clear" [] [as_obj (VStr n s)] = Some (GVoid, [as_obj (VStr true [])]) /\
  text_member TStr "empty" [GV (FB k)] [as_obj (VStr n s)] = Some (GVoid, [as_obj (VStr k (if k then [] else s))]) /\
  f_new (q_string fields) (VInt 0) = Some (as_obj (VStr true [])).
Proof. exact string_members. Qed.
Print Assumptions C73_string.

(** Two objects of string_field. *)
Theorem C73_strings : forall reuse n s n' s',
  text_member TStr "=" [the_obj 1] [as_obj (VStr n s); as_obj (VStr n' s')]
    = Some (the_obj 0, [as_obj (vassign reuse (VStr n s) (VStr n' s')); as_obj (VStr n' s')]) /\
  text_member TStr "==" [the_obj 1] [as_obj (VStr n s); as_obj (VStr n' s')]
    = Some (GV (FB (vequal (VStr n s) (VStr n' s'))), [as_obj (VStr n s); as_obj (VStr n' s')]) /\
  text_member TStr "!=" [the_obj 1] [as_obj (VStr n s); as_obj (VStr n' s')]
    = Some (GV (FB (negb (vequal (VStr n s) (VStr n' s')))), [as_obj (VStr n s); as_obj (VStr n' s')]) /\
  text_member TStr "swap" [the_obj 1] [as_obj (VStr n s); as_obj (VStr n' s')] = Some (GVoid, [as_obj (VStr n' s'); as_obj (VStr n s)]).
Proof. exact string_string. Qed.
Print Assumptions C73_strings.

(** An object of string_field and a std::string or a C string. *)
Theorem C73_text : forall n s x t, a_text x t ->
  text_member TStr "=" [the_obj 1] [as_obj (VStr n s); OVal x] = Some (the_obj 0, [as_obj (VStr false t); OVal x]) /\
  text_member TStr "==" [the_obj 1] [as_obj (VStr n s); OVal x] = Some (GV (FB (negb n && bytes_eqb s t)), [as_obj (VStr n s); OVal x]) /\
  text_member TStr "!=" [the_obj 1] [as_obj (VStr n s); OVal x] = Some (GV (FB (negb n && negb (bytes_eqb s t))), [as_obj (VStr n s); OVal x]).
Proof. exact string_value. Qed.
Print Assumptions C73_text.

(** swap with a std::string *)
Theorem C73_text_swap : forall n s t, text_member TStr "swap" [the_obj 1] [as_obj (VStr n s); OVal (FS t)] = Some (GVoid, [as_obj (VStr false t); OVal (FS s)]).
Proof. exact string_swap. Qed.
Print Assumptions C73_text_swap.

(** "!=" is not the negation of "==": refuted for every field that is not set. *)
Theorem C73_negation_refuted : (forall p x y, has_ty (TField p) (VField true x) = true -> pval_ok p y = true -> exists m,
    text_member (TField p) "==" [the_obj 1] [as_obj (VField true x); OVal (FP y)] = Some (GV (FB false), m) /\
    text_member (TField p) "!=" [the_obj 1] [as_obj (VField true x); OVal (FP y)] = Some (GV (FB false), m)) /\
  (forall s x t, a_text x t -> exists m,
    text_member TStr "==" [the_obj 1] [as_obj (VStr true s); OVal x] = Some (GV (FB false), m) /\
    text_member TStr "!=" [the_obj 1] [as_obj (VStr true s); OVal x] = Some (GV (FB false), m)).
Proof. exact (conj neither_field neither_string). Qed.
Print Assumptions C73_negation_refuted.

(** ** Examples *)
Example C73_applies : basic (TRep (TField (PInt true 32))) /\ has_ty (TRep (TField (PInt true 32))) (VList [VField true (VInt 0); VField false (VInt 7)]) = true /\
  has_ty (TField (PInt true 32)) (VField false (VInt (-5))) = true /\ pval_ok (PInt true 32) (VInt 12) = true /\ a_text (FC (b "abc")) (b "abc") /\
  basic TStr /\ has_ty TStr (VStr false (b "xy")) = true.
Proof. repeat split. right. reflexivity. Qed.
Example C73_texts : fields = the_fields.
Proof. exact fields_is. Qed.

(** Assignment of an unset field keeps the old value behind it (C58), so that the two are not equal. *)
Example C73_executed :
  f_call (q_free the_fields) (q_field the_fields) (VInt 0) 3 (Some 0%nat) (b "=") [the_obj 1] [as_obj (VField false (VInt 5)); as_obj (VField true (VInt 0))]
    = Some (the_obj 0, [as_obj (VField true (VInt 5)); as_obj (VField true (VInt 0))]) /\
  f_static (q_free the_fields) (q_field the_fields) (q_jfield the_fields) (VInt 0) (b "equal") [the_obj 0; the_obj 1]
    [as_obj (VField true (VInt 5)); as_obj (VField true (VInt 0))] = Some (GV (FB false), [as_obj (VField true (VInt 5)); as_obj (VField true (VInt 0))]).
Proof. vm_compute. repeat split. Qed.

(** Other texts do other things. *)
Definition with_number (old new : string) : ftext :=
  ftext_of (instead (length (b old)) (b old) (b new) json_number_hh) json_string_hh json_base64_hh json_array_hh.
Definition with_string (old new : string) : ftext :=
  ftext_of json_number_hh (instead (length (b old)) (b old) (b new) json_string_hh) json_base64_hh json_array_hh.
Example C73_tells :
  f_call (q_free the_fields) (q_field (with_number "if (!empty_) this->value_ = that.value_; return" "this->value_ = that.value_; return")) (VInt 0) 3 (Some 0%nat)
    (b "=") [the_obj 1] [as_obj (VField false (VInt 5)); as_obj (VField true (VInt 0))]
    = Some (the_obj 0, [as_obj (VField true (VInt 0)); as_obj (VField true (VInt 0))]) /\
  f_call (q_free the_fields) (q_string (with_string "return null_ && value_.empty();" "return null_ || value_.empty();")) (VInt 0) 3 (Some 0%nat)
    (b "empty") [] [as_obj (VStr false [])] = Some (GV (FB true), [as_obj (VStr false [])]) /\
  f_call (q_free the_fields) (q_field (with_number "value_ = (T) 0; empty_ = true; }" "empty_ = true; }")) (VInt 0) 3 (Some 0%nat)
    (b "clear") [] [as_obj (VField false (VInt 5))] = Some (GVoid, [as_obj (VField true (VInt 5))]) /\
  f_call (q_free the_fields) (q_field (with_number "value_ = (T) 0; empty_ = true; }" "value_ = true; empty_ = true; }")) (VInt 0) 3 (Some 0%nat)
    (b "clear") [] [as_obj (VField false (VInt 5))] = None /\
  f_static (q_free the_fields) (q_field the_fields) (q_jb64 the_fields) (VBool false) (b "equal") [GV (FV (VMsg [])); GV (FV (VMsg []))] [] = None.
Proof. vm_compute. repeat split. Qed.
