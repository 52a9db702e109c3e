(** The JSON reader on lists of tokens, and its relation to the grammar [takes]. *)
From Verif Require Import Bytes BaseProofs Num Dbl Types Stream Tokenizer Write Read
  SpecJson SpecInterp SpecTok SpecTakes Termination ReadSim.

(** Results.  [TBad]: an incomplete Base64 group, which is an error only in the
    strict mode. *)
Inductive tres := TOk | TNil | TErr (c : error_code) (m : bytes) | TBad.

Definition ign_err (m : bytes) : tres := TErr PGERR_IGNORE_FAILED m.

(** ** Skipping.  The empty list stands for the end or for a text that is no token. *)
Fixpoint tign (n : nat) (l : list jtok) {struct n} : option (tres * unit * list jtok) :=
  match n with
  | O => None
  | S n' =>
      match l with
      | [] => Some (ign_err (b "end of stream"), tt, l)
      | KLBrace :: r => tign_obj n' r
      | KLBrack :: r => tign_arr n' r
      | (KStr _ | KNum _ | KTrue | KFalse | KNull) :: r =>
          match r with
          | [] => Some (ign_err (b "end of stream"), tt, r)
          | _ => Some (TOk, tt, r)
          end
      | _ => Some (ign_err (b "invalid value"), tt, l)
      end
  end
with tign_arr (n : nat) (l : list jtok) {struct n} : option (tres * unit * list jtok) :=
  match n with
  | O => None
  | S n' =>
      match l with
      | KRBrack :: r => Some (TOk, tt, r)
      | _ =>
          match tign n' l with
          | Some (TOk, _, l1) =>
              match l1 with
              | KComma :: l2 => tign_arr n' l2
              | KRBrack :: l2 => Some (TOk, tt, l2)
              | _ => Some (ign_err (b "invalid array"), tt, l1)
              end
          | x => x
          end
      end
  end
with tign_obj (n : nat) (l : list jtok) {struct n} : option (tres * unit * list jtok) :=
  match n with
  | O => None
  | S n' =>
      match l with
      | KRBrace :: r => Some (TOk, tt, r)
      | KStr _ :: KColon :: l1 =>
          match tign n' l1 with
          | Some (TOk, _, l2) =>
              match l2 with
              | KComma :: l3 => tign_obj n' l3
              | KRBrace :: l3 => Some (TOk, tt, l3)
              | _ => Some (ign_err (b "invalid object"), tt, l2)
              end
          | x => x
          end
      | KStr _ :: l1 => Some (ign_err (b "expected colon"), tt, l1)
      | _ => Some (ign_err (b "expected field name"), tt, l)
      end
  end.

(** ** Scalars *)
Definition tprim (p : prim) (v : pval) (l : list jtok) : tres * pval * list jtok :=
  match l with
  | KNull :: _ => (TNil, v, l)
  | k :: r =>
      match p with
      | PBool =>
          match k with
          | KTrue => (TOk, VBool true, r)
          | KFalse => (TOk, VBool false, r)
          | _ => (TErr PGERR_INVALID_VALUE (b "invalid boolean value"), v, l)
          end
      | _ =>
          match k with
          | KNum s => (TOk, string_to_prim p s, r)
          | _ => (TErr PGERR_INVALID_VALUE (b "invalid numeric value"), v, l)
          end
      end
  | [] =>
      match p with
      | PBool => (TErr PGERR_INVALID_VALUE (b "invalid boolean value"), v, l)
      | _ => (TErr PGERR_INVALID_VALUE (b "invalid numeric value"), v, l)
      end
  end.

Definition tfield (p : prim) (e : bool) (v : pval) (l : list jtok) : tres * val * list jtok :=
  match tprim p (pzero p) l with
  | (TNil, _, l1) => (TNil, VField e v, l1)
  | (r, x, l1) => (r, VField false x, l1)
  end.

Definition tstr (l : list jtok) : tres * val * list jtok :=
  match l with
  | KNull :: _ => (TNil, VStr false [], l)
  | KStr s :: r => (TOk, VStr false s, r)
  | _ => (TErr PGERR_INVALID_VALUE (b "invalid string value"), VStr false [], l)
  end.

Definition tb64 (whole : bool) (v : bytes) (l : list jtok) : tres * val * list jtok :=
  match l with
  | KNull :: _ => (TNil, VB64 v, l)
  | KStr s :: r =>
      let '(o, bad) := b64_decode s in
      (if bad && whole then TBad else TOk, VB64 (v ++ o), r)
  | _ => (TErr PGERR_INVALID_OBJECT (b "invalid string"), VB64 v, l)
  end.

(** ** Containers and messages *)
Definition trd (A : Type) : Type := A -> list jtok -> option (tres * A * list jtok).

Fixpoint tarr (n : nat) (rd : trd val) (d : val) (acc : list val) (l : list jtok) {struct n}
  : option (tres * list val * list jtok) :=
  match n with
  | O => None
  | S n' =>
      match rd d l with
      | None => None
      | Some (TErr c m, _, l1) => Some (TErr c m, acc, l1)
      | Some (TBad, _, l1) => Some (TBad, acc, l1)
      | Some (r, x, l1) =>
          let acc1 := match r with TOk => acc ++ [x] | _ => acc end in
          match l1 with
          | KComma :: l2 => tarr n' rd d acc1 l2
          | KRBrack :: l2 => Some (TOk, acc1, l2)
          | _ => Some (TErr PGERR_INVALID_ARRAY (b "invalid array"), acc1, l1)
          end
      end
  end.

Definition tarray (n : nat) (rd : trd val) (d : val) (acc : list val) (l : list jtok)
  : option (tres * list val * list jtok) :=
  match l with
  | KNull :: _ => Some (TNil, acc, l)
  | KLBrack :: KRBrack :: r => Some (TOk, acc, r)
  | KLBrack :: r => tarr n rd d acc r
  | _ => Some (TErr PGERR_INVALID_ARRAY (b "invalid array"), acc, l)
  end.

Definition tmember (g : gencode) (rds : list (trd val)) (name : bytes) : trd (list val) :=
  fun vs l =>
  match select_member g name with
  | None => Some (TNil, vs, l)
  | Some k =>
      match nth_error rds k, nth_error vs k with
      | Some rd, Some v =>
          match rd v l with
          | None => None
          | Some (r, v', l1) => Some (r, set_nth k v' vs, l1)
          end
      | _, _ => Some (TNil, vs, l)
      end
  end.

(** The value of a member: read, and skipped when the reader did not take it. *)
Definition tvalue (n : nat) (rf : bytes -> trd (list val)) (name : bytes) : trd (list val) :=
  fun vs l =>
  match rf name vs l with
  | Some (TNil, vs1, l1) =>
      match tign n l1 with
      | None => None
      | Some (r, _, l2) => Some (r, vs1, l2)
      end
  | x => x
  end.

Fixpoint tobj (n nf : nat) (rf : bytes -> trd (list val)) (vs : list val) (l : list jtok) {struct n}
  : option (tres * list val * list jtok) :=
  match n with
  | O => None
  | S n' =>
      match l with
      | KStr name :: KColon :: l1 =>
          match tvalue nf rf name vs l1 with
          | Some (TOk, vs1, l2) =>
              match l2 with
              | KComma :: l3 => tobj n' nf rf vs1 l3
              | KRBrace :: l3 => Some (TOk, vs1, l3)
              | _ => Some (TErr PGERR_INVALID_OBJECT (b "invalid JSON object"), vs1, l2)
              end
          | x => x
          end
      | KStr _ :: l1 =>
          Some (TErr PGERR_INVALID_SEPARATOR (b "field name and value must be separated by ':'"), vs, l1)
      | _ => Some (TErr PGERR_INVALID_NAME (b "object key must be string"), vs, l)
      end
  end.

Definition tobject (n : nat) (rf : bytes -> trd (list val)) (vs : list val) (l : list jtok)
  : option (tres * list val * list jtok) :=
  match l with
  | KNull :: _ => Some (TNil, vs, l)
  | KLBrace :: KRBrace :: r => Some (TOk, vs, r)
  | KLBrace :: r => tobj n n rf vs r
  | _ => Some (TErr PGERR_INVALID_OBJECT (b "objects must start with '{'"), vs, l)
  end.

Definition tmap {A B} (f : A -> B) (r : option (tres * A * list jtok)) : option (tres * B * list jtok) :=
  match r with
  | None => None
  | Some (s, v, l) => Some (s, f v, l)
  end.

(** Values not of the type are of no interest. *)
Fixpoint tread (whole : bool) (n : nat) (t : ty) {struct t} : trd val :=
  match t with
  | TPrim p => fun v l =>
      match v with VPrim x => tmap VPrim (Some (tprim p x l)) | _ => None end
  | TField p => fun v l =>
      match v with VField e x => Some (tfield p e x l) | _ => None end
  | TStr => fun v l =>
      match v with VStr _ _ => Some (tstr l) | _ => None end
  | TB64 => fun v l =>
      match v with VB64 s => Some (tb64 whole s l) | _ => None end
  | TRep t' => fun v l =>
      match v with
      | VList acc => tmap VList (tarray n (tread whole n t') (dflt t') acc l)
      | _ => None
      end
  | TMsg ms g => fun v l =>
      match v with
      | VMsg vs => tmap VMsg (tobject n (tmember g (map (tread whole n) ms)) vs l)
      | _ => None
      end
  end.

(** ** The grammar *)
Lemma takes_weaken w t v x v' : takes w t v x v' -> takes false t v x v'.
Proof.
  revert t v x v'.
  apply (takes_mut w
    (fun t v x v' _ => takes false t v x v')
    (fun t l x l' _ => takes_elems false t l x l')
    (fun ms g vs x vs' _ => takes_members false ms g vs x vs')
    (fun ms g vs name x vs' _ => takes_member false ms g vs name x vs'));
    intros; try (econstructor; eauto; fail).
  constructor. discriminate.
Qed.
Lemma takes_elems_weaken w t l x l' : takes_elems w t l x l' -> takes_elems false t l x l'.
Proof.
  induction 1; [constructor|econstructor]; eauto using takes_weaken.
Qed.
Lemma takes_member_weaken w ms g vs name x vs' :
  takes_member w ms g vs name x vs' -> takes_member false ms g vs name x vs'.
Proof. destruct 1; [constructor|eapply tf_null|eapply tf_value]; eauto using takes_weaken. Qed.
Lemma takes_members_weaken w ms g vs x vs' :
  takes_members w ms g vs x vs' -> takes_members false ms g vs x vs'.
Proof. induction 1; [constructor|econstructor]; eauto using takes_member_weaken. Qed.

Lemma takes_prim_shape p k x : takes_prim p k x -> pshape p x = true.
Proof. destruct 1; try reflexivity. now apply string_to_prim_shape. Qed.

Lemma field_of_some ms g name k t : field_of ms g name = Some (k, t) ->
  member_named (g_write g) name = Some k /\ nth_error ms k = Some t.
Proof.
  unfold field_of. destruct (member_named (g_write g) name) as [j|]; [|discriminate].
  destruct (nth_error ms j) eqn:E; [|discriminate]. intros H. injection H as <- <-. auto.
Qed.

Lemma nulled_shape t v : shape t v = true -> shape t (nulled v) = true.
Proof. destruct t, v; simpl; auto. Qed.

Lemma takes_shape w t v x v' : takes w t v x v' -> shape t v = true -> shape t v' = true.
Proof.
  revert t v x v'.
  apply (takes_mut w
    (fun t v x v' _ => shape t v = true -> shape t v' = true)
    (fun t l x l' _ => forallb (shape t) l = true -> forallb (shape t) l' = true)
    (fun ms g vs x vs' _ => shapes ms vs -> shapes ms vs')
    (fun ms g vs name x vs' _ => shapes ms vs -> shapes ms vs')); auto.
  - intros p x0 k x H _. simpl. eapply takes_prim_shape; eauto.
  - intros p e x0 k x H _. simpl. eapply takes_prim_shape; eauto.
  - intros ms g vs x vs' H IH S. apply shape_msg. apply IH. now apply shape_msg in S.
  - intros t l x v H IH S. rewrite forallb_app, S. simpl. rewrite IH; [reflexivity|apply dflt_shape].
  - intros t l x v y l' H IH H2 IH2 S. apply IH2. rewrite forallb_app, S. simpl.
    rewrite IH; [reflexivity|apply dflt_shape].
  - intros ms g vs name k t v F V S. apply field_of_some in F as [_ M].
    eapply Forall2_set_nth; eauto. apply nulled_shape.
    destruct (Forall2_nth_error _ _ _ _ _ S M) as (y & Ey & Sy). rewrite V in Ey. now injection Ey as <-.
  - intros ms g vs name k t v x v' F V H IH S. apply field_of_some in F as [_ M].
    eapply Forall2_set_nth; eauto. apply IH.
    destruct (Forall2_nth_error _ _ _ _ _ S M) as (y & Ey & Sy). rewrite V in Ey. now injection Ey as <-.
Qed.

Lemma takes_member_shape w ms g vs name x vs' : takes_member w ms g vs name x vs' ->
  shapes ms vs -> shapes ms vs'.
Proof.
  intros H S. assert (T : takes w (TMsg ms g) (VMsg vs) (KLBrace :: KStr name :: KColon :: x ++ [KRBrace]) (VMsg vs')).
  { constructor. now constructor. }
  apply takes_shape in T; [|now apply shape_msg]. now apply shape_msg in T.
Qed.

(** Every type accepts something. *)
Lemma takes_some w t v : shape t v = true -> exists k more v', takes w t v (k :: more) v'.
Proof.
  destruct t, v; simpl; try discriminate; intros S.
  - destruct p as [sg bits| | |]; eexists _, [], _; constructor;
      first [apply tp_true|apply (tp_num _ []); discriminate].
  - destruct p as [sg bits| | |]; eexists _, [], _; constructor;
      first [apply tp_true|apply (tp_num _ []); discriminate].
  - eexists (KStr []), [], _. constructor.
  - eexists (KStr []), [], _. constructor. reflexivity.
  - eexists _, [_], _. apply tk_arr0.
  - eexists _, [_], _. apply tk_obj0.
Qed.
