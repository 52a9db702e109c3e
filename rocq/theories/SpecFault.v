(** Which error is reported, by what was read before and what comes next. *)
From Verif Require Import Bytes Num Types Tokenizer Write Read SpecJson SpecInterp SpecErr SpecTok SpecTakes.

(** The next token of the text; [None]: the text ends, or no token begins there. *)
Definition next_is (post : bytes) (n : option jtok) : Prop :=
  match n with
  | Some k => exists u x, post = u ++ x /\ tok_text k (drop_lf u) (drop_lf x)
  | None => forall k u x, post = u ++ x -> ~ tok_text k (drop_lf u) (drop_lf x)
  end.

(** ** Inside a skipped value: PGERR_IGNORE_FAILED with the message [m].

    [skip_fault p n m]: after the tokens [p] of the value, in front of [n]. *)
Definition begins (k : jtok) : bool :=
  match k with KRBrace | KRBrack | KColon | KComma => false | _ => true end.
Definition single (k : jtok) : bool :=
  match k with KStr _ | KNum _ | KTrue | KFalse | KNull => true | _ => false end.

Inductive skip_fault : list jtok -> option jtok -> bytes -> Prop :=
  | kf_none : skip_fault [] None (b "end of stream")
  | kf_bad k : begins k = false -> skip_fault [] (Some k) (b "invalid value")
  | kf_cut k : single k = true -> skip_fault [k] None (b "end of stream")
  | kf_arr p n m : skip_elems_fault p n m -> skip_fault (KLBrack :: p) n m
  | kf_obj p n m : skip_members_fault p n m -> skip_fault (KLBrace :: p) n m
(** After the opening bracket. *)
with skip_elems_fault : list jtok -> option jtok -> bytes -> Prop :=
  | ke_value p n m : skip_fault p n m -> (p = [] -> n <> Some KRBrack) -> skip_elems_fault p n m
  | ke_sep x n : skips x -> n <> Some KComma -> n <> Some KRBrack ->
      (n = None -> (2 <= length x)%nat) -> skip_elems_fault x n (b "invalid array")
  | ke_more x p n m : skips x -> skip_elems_fault p n m -> skip_elems_fault (x ++ KComma :: p) n m
(** After the opening brace. *)
with skip_members_fault : list jtok -> option jtok -> bytes -> Prop :=
  | km_name n : (forall s, n <> Some (KStr s)) -> n <> Some KRBrace ->
      skip_members_fault [] n (b "expected field name")
  | km_colon s n : n <> Some KColon -> skip_members_fault [KStr s] n (b "expected colon")
  | km_value s p n m : skip_fault p n m -> skip_members_fault (KStr s :: KColon :: p) n m
  | km_sep s x n : skips x -> n <> Some KComma -> n <> Some KRBrace ->
      (n = None -> (2 <= length x)%nat) -> skip_members_fault (KStr s :: KColon :: x) n (b "invalid object")
  | km_more s x p n m : skips x -> skip_members_fault p n m ->
      skip_members_fault (KStr s :: KColon :: x ++ KComma :: p) n m.

(** ** Values of the type *)

(** Tokens that a value can begin with. *)
Definition opens (t : ty) (k : jtok) : bool :=
  match t, k with
  | (TPrim PBool | TField PBool), (KTrue | KFalse) => true
  | (TPrim PBool | TField PBool), _ => false
  | (TPrim _ | TField _), KNum _ => true
  | (TStr | TB64), KStr _ => true
  | TRep _, KLBrack => true
  | TMsg _ _, KLBrace => true
  | _, _ => false
  end.

(** The error for anything else but null. *)
Definition start_error (t : ty) : error_code * bytes :=
  match t with
  | TPrim PBool | TField PBool => (PGERR_INVALID_VALUE, b "invalid boolean value")
  | TPrim _ | TField _ => (PGERR_INVALID_VALUE, b "invalid numeric value")
  | TStr => (PGERR_INVALID_VALUE, b "invalid string value")
  | TB64 => (PGERR_INVALID_OBJECT, b "invalid string")
  | TRep _ => (PGERR_INVALID_ARRAY, b "invalid array")
  | TMsg _ _ => (PGERR_INVALID_OBJECT, b "objects must start with '{'")
  end.

(** The tokens are a value of the type, with whole Base64 groups. *)
Definition fits (t : ty) (x : list jtok) : Prop := exists v v', takes true t v x v'.

(** A complete member value. *)
Inductive member_fits : list ty -> gencode -> bytes -> list jtok -> Prop :=
  | mf_skip ms g s x : field_of ms g s = None -> skips x -> member_fits ms g s x
  | mf_null ms g s k t : field_of ms g s = Some (k, t) -> member_fits ms g s [KNull]
  | mf_value ms g s k t x : field_of ms g s = Some (k, t) -> fits t x -> member_fits ms g s x.

(** [fault t p n c m]: a value of type [t] was read up to [p], and the error [c], [m] is
    reported in front of [n]. *)
Inductive fault : ty -> list jtok -> option jtok -> error_code -> bytes -> Prop :=
  | fa_start t n : n <> Some KNull -> (forall k, n = Some k -> opens t k = false) ->
      fault t [] n (fst (start_error t)) (snd (start_error t))
  | fa_arr t p n c m : elems_fault t p n c m -> (p = [] -> n <> Some KRBrack) ->
      fault (TRep t) (KLBrack :: p) n c m
  | fa_obj ms g p n c m : members_fault ms g p n c m -> (p = [] -> n <> Some KRBrace) ->
      fault (TMsg ms g) (KLBrace :: p) n c m
(** After the opening bracket. *)
with elems_fault : ty -> list jtok -> option jtok -> error_code -> bytes -> Prop :=
  | fe_null t : elems_fault t [] (Some KNull) PGERR_INVALID_ARRAY (b "invalid array")
  | fe_value t p n c m : fault t p n c m -> elems_fault t p n c m
  | fe_sep t x n : fits t x -> n <> Some KComma -> n <> Some KRBrack ->
      elems_fault t x n PGERR_INVALID_ARRAY (b "invalid array")
  | fe_more t x p n c m : fits t x -> elems_fault t p n c m -> elems_fault t (x ++ KComma :: p) n c m
(** After the opening brace. *)
with members_fault : list ty -> gencode -> list jtok -> option jtok -> error_code -> bytes -> Prop :=
  | fm_name ms g n : (forall s, n <> Some (KStr s)) ->
      members_fault ms g [] n PGERR_INVALID_NAME (b "object key must be string")
  | fm_colon ms g s n : n <> Some KColon ->
      members_fault ms g [KStr s] n PGERR_INVALID_SEPARATOR (b "field name and value must be separated by ':'")
  | fm_value ms g s p n c m : member_fault ms g s p n c m ->
      members_fault ms g (KStr s :: KColon :: p) n c m
  | fm_more ms g s x p n c m : member_fits ms g s x -> members_fault ms g p n c m ->
      members_fault ms g (KStr s :: KColon :: x ++ KComma :: p) n c m
(** After the name and the colon, up to the separator. *)
with member_fault : list ty -> gencode -> bytes -> list jtok -> option jtok -> error_code -> bytes -> Prop :=
  | fv_skip ms g s p n m : field_of ms g s = None -> skip_fault p n m ->
      member_fault ms g s p n PGERR_IGNORE_FAILED m
  | fv_skip_sep ms g s x n : field_of ms g s = None -> skips x -> n <> Some KComma -> n <> Some KRBrace ->
      (n = None -> (2 <= length x)%nat) ->
      member_fault ms g s x n PGERR_INVALID_OBJECT (b "invalid JSON object")
  | fv_null ms g s k t : field_of ms g s = Some (k, t) ->
      member_fault ms g s [KNull] None PGERR_IGNORE_FAILED (b "end of stream")
  | fv_null_sep ms g s k t j : field_of ms g s = Some (k, t) -> j <> KComma -> j <> KRBrace ->
      member_fault ms g s [KNull] (Some j) PGERR_INVALID_OBJECT (b "invalid JSON object")
  | fv_value ms g s k t p n c m : field_of ms g s = Some (k, t) -> fault t p n c m ->
      member_fault ms g s p n c m
  | fv_value_sep ms g s k t x n : field_of ms g s = Some (k, t) -> fits t x ->
      n <> Some KComma -> n <> Some KRBrace ->
      member_fault ms g s x n PGERR_INVALID_OBJECT (b "invalid JSON object").

Scheme skip_fault_mut := Induction for skip_fault Sort Prop
  with skip_elems_fault_mut := Induction for skip_elems_fault Sort Prop
  with skip_members_fault_mut := Induction for skip_members_fault Sort Prop.
Combined Scheme skip_fault_ind3 from skip_fault_mut, skip_elems_fault_mut, skip_members_fault_mut.

Scheme fault_mut := Induction for fault Sort Prop
  with elems_fault_mut := Induction for elems_fault Sort Prop
  with members_fault_mut := Induction for members_fault Sort Prop
  with member_fault_mut := Induction for member_fault Sort Prop.
Combined Scheme fault_ind4 from fault_mut, elems_fault_mut, members_fault_mut, member_fault_mut.
