(** Which token sequences a type accepts, and the value they give: the language of
    the JSON reader, written as a grammar.  It knows nothing of streams, fuel,
    look-ahead or error records.

    From the model it uses the types and values ([Types.v]), the conversion of a
    numeral to a number ([string_to_prim], characterised by C15 and C16), the Base64
    decoder on a string ([b64_decode], characterised by C14) and [set_nth]. *)
From Verif Require Import Bytes Num Dbl Types Read SpecJson SpecInterp SpecTok.

(** Values of unknown members: any JSON value, where a comma may also precede the
    closing brace or bracket of a non-empty object or array. *)
Inductive skips : list jtok -> Prop :=
  | sk_null : skips [KNull]
  | sk_true : skips [KTrue]
  | sk_false : skips [KFalse]
  | sk_num s : skips [KNum s]
  | sk_str s : skips [KStr s]
  | sk_arr x : skip_elems x -> skips (KLBrack :: x)
  | sk_obj x : skip_members x -> skips (KLBrace :: x)
(** What follows the opening bracket. *)
with skip_elems : list jtok -> Prop :=
  | se_end : skip_elems [KRBrack]
  | se_last x : skips x -> skip_elems (x ++ [KRBrack])
  | se_more x y : skips x -> skip_elems y -> skip_elems (x ++ KComma :: y)
(** What follows the opening brace. *)
with skip_members : list jtok -> Prop :=
  | sm_end : skip_members [KRBrace]
  | sm_last name x : skips x -> skip_members (KStr name :: KColon :: x ++ [KRBrace])
  | sm_more name x y : skips x -> skip_members y ->
      skip_members (KStr name :: KColon :: x ++ KComma :: y).

(** The member of that JSON name, if any. *)
Definition field_of (ms : list ty) (g : gencode) (name : bytes) : option (nat * ty) :=
  match member_named (g_write g) name with
  | Some k => match nth_error ms k with Some t => Some (k, t) | None => None end
  | None => None
  end.

(** A member that is null in the document keeps its value, but a string becomes
    present and empty. *)
Definition nulled (v : val) : val :=
  match v with VStr _ _ => VStr false [] | _ => v end.

(** Arithmetic values. *)
Inductive takes_prim : prim -> jtok -> pval -> Prop :=
  | tp_true : takes_prim PBool KTrue (VBool true)
  | tp_false : takes_prim PBool KFalse (VBool false)
  | tp_num p s : p <> PBool -> takes_prim p (KNum s) (string_to_prim p s).

(** [takes whole t v x v']: the tokens [x] are a value for the type [t]; read into
    [v] they give [v'].  With [whole], Base64 texts must consist of whole groups of
    four characters; without it an incomplete group at the end is dropped. *)
Inductive takes (whole : bool) : ty -> val -> list jtok -> val -> Prop :=
  | tk_prim p x0 k x : takes_prim p k x -> takes whole (TPrim p) (VPrim x0) [k] (VPrim x)
  | tk_field p e x0 k x : takes_prim p k x -> takes whole (TField p) (VField e x0) [k] (VField false x)
  | tk_str e s0 s : takes whole TStr (VStr e s0) [KStr s] (VStr false s)
  | tk_b64 s0 s : (whole = true -> (Nat.modulo (length s) 4 = 0)%nat) ->
      takes whole TB64 (VB64 s0) [KStr s] (VB64 (s0 ++ fst (b64_decode s)))
  | tk_arr0 t l : takes whole (TRep t) (VList l) [KLBrack; KRBrack] (VList l)
  | tk_arr t l x l' : takes_elems whole t l x l' ->
      takes whole (TRep t) (VList l) (KLBrack :: x) (VList l')
  | tk_obj0 ms g vs : takes whole (TMsg ms g) (VMsg vs) [KLBrace; KRBrace] (VMsg vs)
  | tk_obj ms g vs x vs' : takes_members whole ms g vs x vs' ->
      takes whole (TMsg ms g) (VMsg vs) (KLBrace :: x) (VMsg vs')
(** One or more elements and the closing bracket; elements are read into fresh values
    and appended.  No null, no trailing comma. *)
with takes_elems (whole : bool) : ty -> list val -> list jtok -> list val -> Prop :=
  | te_last t l x v : takes whole t (dflt t) x v ->
      takes_elems whole t l (x ++ [KRBrack]) (l ++ [v])
  | te_more t l x v y l' : takes whole t (dflt t) x v -> takes_elems whole t (l ++ [v]) y l' ->
      takes_elems whole t l (x ++ KComma :: y) l'
(** One or more members and the closing brace.  No trailing comma. *)
with takes_members (whole : bool) : list ty -> gencode -> list val -> list jtok -> list val -> Prop :=
  | tm_last ms g vs name x vs' : takes_member whole ms g vs name x vs' ->
      takes_members whole ms g vs (KStr name :: KColon :: x ++ [KRBrace]) vs'
  | tm_more ms g vs name x vs1 y vs' : takes_member whole ms g vs name x vs1 ->
      takes_members whole ms g vs1 y vs' ->
      takes_members whole ms g vs (KStr name :: KColon :: x ++ KComma :: y) vs'
(** The value of one member. *)
with takes_member (whole : bool) : list ty -> gencode -> list val -> bytes -> list jtok -> list val -> Prop :=
  | tf_unknown ms g vs name x : field_of ms g name = None -> skips x ->
      takes_member whole ms g vs name x vs
  | tf_null ms g vs name k t v : field_of ms g name = Some (k, t) -> nth_error vs k = Some v ->
      takes_member whole ms g vs name [KNull] (set_nth k (nulled v) vs)
  | tf_value ms g vs name k t v x v' : field_of ms g name = Some (k, t) -> nth_error vs k = Some v ->
      takes whole t v x v' -> takes_member whole ms g vs name x (set_nth k v' vs).

Scheme skips_mut := Induction for skips Sort Prop
  with skip_elems_mut := Induction for skip_elems Sort Prop
  with skip_members_mut := Induction for skip_members Sort Prop.
Combined Scheme skips_ind3 from skips_mut, skip_elems_mut, skip_members_mut.

Scheme takes_mut := Induction for takes Sort Prop
  with takes_elems_mut := Induction for takes_elems Sort Prop
  with takes_members_mut := Induction for takes_members Sort Prop
  with takes_member_mut := Induction for takes_member Sort Prop.
Combined Scheme takes_ind4 from takes_mut, takes_elems_mut, takes_members_mut, takes_member_mut.

(** Some value can be made of these tokens and at least one more. *)
Definition viable (whole : bool) (t : ty) (v : val) (l : list jtok) : Prop :=
  exists k more v', takes whole t v (l ++ k :: more) v'.
