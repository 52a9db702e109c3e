(** The JSON value of an object, and the notions used by the statements about
    serialization.  Uses the types and values of the model ([Types.v]) and the texts
    of numbers and of Base64 ([prim_text], [b64_encode]; C14-C16). *)
From Verif Require Import Bytes Num Dbl Types Write SpecJson SpecNum SpecStr SpecDbl.

Definition prim_json (v : pval) : jval :=
  match v with VBool x => JBool x | _ => JNum (prim_text v) end.

(** Members of the JSON object of a message: the written fields in order, without
    the empty ones unless [sn] (serialize_null) is set. *)
Definition obj_items (sn : bool) (fs : list (val -> jval)) (vs : list val)
           (items : list (nat * bytes)) : list (bytes * jval) :=
  flat_map (fun it => match nth_error fs (fst it), nth_error vs (fst it) with
                      | Some f, Some v => if sn || negb (vempty v) then [(snd it, f v)] else []
                      | _, _ => []
                      end) items.

Fixpoint tojson (sn : bool) (t : ty) {struct t} : val -> jval :=
  match t with
  | TPrim _ => fun v => match v with VPrim x => prim_json x | _ => JNull end
  | TField _ => fun v => match v with VField false x => prim_json x | _ => JNull end
  | TStr => fun v => match v with VStr _ s => if vempty v then JNull else JStr s | _ => JNull end
  | TB64 => fun v => match v with VB64 s => JStr (b64_encode s) | _ => JNull end
  | TRep t' => fun v => match v with VList l => JArr (map (tojson sn t') l) | _ => JNull end
  | TMsg ms g => fun v =>
      match v with
      | VMsg vs => JObj (obj_items sn (map (tojson sn) ms) vs (g_write g))
      | _ => JNull
      end
  end.

(** Numbers that have a JSON text: everything except NaN and the infinities. *)
Definition prim_finite (v : pval) : Prop :=
  match v with VDbl (DInf _) | VDbl (DNan _) => False | _ => True end.

(** The object can be written as JSON: strings are UTF-8 if [ea] (ensure_ascii) is
    set, contain only allowed characters ([okc]: no NUL; if [strict], no control
    characters without a short escape), and numbers are finite.  Only written
    fields count. *)
Inductive jsonable (ea strict : bool) : ty -> val -> Prop :=
  | js_prim p x : pval_ok p x = true -> prim_finite x -> jsonable ea strict (TPrim p) (VPrim x)
  | js_unset p x : jsonable ea strict (TField p) (VField true x)
  | js_field p x : pval_ok p x = true -> prim_finite x -> jsonable ea strict (TField p) (VField false x)
  | js_null n s : vempty (VStr n s) = true -> jsonable ea strict TStr (VStr n s)
  | js_str n s : writable ea s -> Forall (okc strict) s -> jsonable ea strict TStr (VStr n s)
  | js_b64 s : jsonable ea strict TB64 (VB64 s)
  | js_rep t l : (forall x, In x l -> jsonable ea strict t x) -> jsonable ea strict (TRep t) (VList l)
  | js_msg ms g vs :
      (forall k label t x, In (k, label) (g_write g) -> nth_error ms k = Some t ->
                           nth_error vs k = Some x -> jsonable ea strict t x) ->
      jsonable ea strict (TMsg ms g) (VMsg vs).

(** A label that is a JSON string as it stands. *)
Definition clean (strict : bool) (label : bytes) : Prop := Forall (raw_char strict) label.

(** Every message in the type writes each field at most once, under distinct clean
    names; members are not bare arithmetic values. *)
Fixpoint tables_ok (strict : bool) (t : ty) : Prop :=
  match t with
  | TRep t' => tables_ok strict t'
  | TMsg ms g =>
      (NoDup (map fst (g_write g)) /\ NoDup (map snd (g_write g)) /\
       (forall k label, In (k, label) (g_write g) -> clean strict label /\ (k < length ms)%nat) /\
       (forall p, ~ In (TPrim p) ms)) /\
      (fix all (l : list ty) : Prop :=
         match l with [] => True | t' :: r => tables_ok strict t' /\ all r end) ms
  | _ => True
  end.

(** Values that survive the JSON text: integers, booleans, doubles with six decimals,
    set strings, any bytes.  A member may be fresh (default constructed) unless it
    is a string and [sn] makes it appear as null (C08). *)
Definition prim_exact (p : prim) (v : pval) : Prop :=
  match p, v with
  | PInt _ bits, _ => int_width bits
  | _, VDbl d => six d
  | _, _ => True
  end.

Inductive faithful (sn : bool) : ty -> val -> Prop :=
  | fa_prim p x : pval_ok p x = true -> prim_exact p x -> faithful sn (TPrim p) (VPrim x)
  | fa_field p x : pval_ok p x = true -> prim_exact p x -> faithful sn (TField p) (VField false x)
  | fa_str s : faithful sn TStr (VStr false s)
  | fa_b64 s : faithful sn TB64 (VB64 s)
  | fa_rep t l : (forall x, In x l -> faithful sn t x) -> faithful sn (TRep t) (VList l)
  | fa_msg ms g vs : length vs = length ms ->
      (forall k label t x, In (k, label) (g_write g) -> nth_error ms k = Some t ->
         nth_error vs k = Some x ->
         faithful sn t x \/ (x = dflt t /\ (sn = true -> exists p, t = TField p))) ->
      faithful sn (TMsg ms g) (VMsg vs).

(** The object with every field that is not written (transient) set to its default. *)
Definition written (g : gencode) (k : nat) : bool := existsb (fun it => Nat.eqb (fst it) k) (g_write g).

Fixpoint persist_members (g : gencode) (k : nat) (fs : list (val -> val)) (ds : list val) (vs : list val)
  : list val :=
  match fs, ds, vs with
  | f :: fs', d :: ds', v :: vs' =>
      (if written g k then f v else d) :: persist_members g (S k) fs' ds' vs'
  | _, _, _ => []
  end.

Fixpoint persist (t : ty) {struct t} : val -> val :=
  match t with
  | TRep t' => fun v => match v with VList l => VList (map (persist t') l) | _ => v end
  | TMsg ms g => fun v =>
      match v with VMsg vs => VMsg (persist_members g 0 (map persist ms) (map dflt ms) vs) | _ => v end
  | _ => fun v => v
  end.

(** No transient fields, at any depth. *)
Fixpoint all_written (t : ty) : Prop :=
  match t with
  | TRep t' => all_written t'
  | TMsg ms g =>
      (forall k, (k < length ms)%nat -> In k (map fst (g_write g))) /\
      (fix all (l : list ty) : Prop := match l with [] => True | t' :: r => all_written t' /\ all r end) ms
  | _ => True
  end.

(** The options in force for a [Parameters*] argument. *)
Definition po_ea (po : option params) : bool := match po with Some p => ensure_ascii p | None => false end.
Definition po_sn (po : option params) : bool := match po with Some p => serialize_null p | None => false end.
