(** Meaning of a JSON document for a message type: a structural interpretation of
    the abstract value [jval] against a type, updating a previous value.

    It knows nothing of tokens, streams, white space or fuel.  From the model it
    uses the types and values ([Types.v]), the conversion of a numeral to a
    number ([string_to_prim], characterised by C15 and C16) and the Base64
    decoder on a string ([b64_decode], characterised by C14). *)
From Verif Require Import Bytes Num Dbl Types Read SpecJson.

(** [RGood]: the value was taken.  [RNull]: the document has null here.
    [RFail]: the document does not fit the type. *)
Inductive ires := RGood | RNull | RFail.

(** The JSON name of a member is the label under which it is written. *)
Fixpoint member_named (l : list (nat * bytes)) (name : bytes) : option nat :=
  match l with
  | [] => None
  | (k, n) :: r => if bytes_eqb n name then Some k else member_named r name
  end.

Definition interp_prim (p : prim) (v : pval) (j : jval) : ires * pval :=
  match p, j with
  | _, JNull => (RNull, v)
  | PBool, JBool x => (RGood, VBool x)
  | PBool, _ => (RFail, v)
  | _, JNum s => (RGood, string_to_prim p s)
  | _, _ => (RFail, v)
  end.

(** Elements are interpreted from scratch and appended; a null element does not fit. *)
Fixpoint interp_elems (f : jval -> ires * val) (l : list jval) (acc : list val) : ires * list val :=
  match l with
  | [] => (RGood, acc)
  | j :: r =>
      match f j with
      | (RGood, x) => interp_elems f r (acc ++ [x])
      | _ => (RFail, acc)
      end
  end.

(** Members are processed in document order; unknown names are skipped. *)
Fixpoint interp_members (names : list (nat * bytes)) (fs : list (val -> jval -> ires * val))
         (l : list (bytes * jval)) (vs : list val) : ires * list val :=
  match l with
  | [] => (RGood, vs)
  | (name, j) :: r =>
      match member_named names name with
      | None => interp_members names fs r vs
      | Some k =>
          match nth_error fs k, nth_error vs k with
          | Some f, Some v =>
              match f v j with
              | (RFail, v') => (RFail, set_nth k v' vs)
              | (_, v') => interp_members names fs r (set_nth k v' vs)
              end
          | _, _ => interp_members names fs r vs
          end
      end
  end.

Fixpoint interp (t : ty) {struct t} : val -> jval -> ires * val :=
  match t with
  | TPrim p => fun v j =>
      match v with
      | VPrim x => let (r, x') := interp_prim p x j in (r, VPrim x')
      | _ => (RFail, v)
      end
  | TField p => fun v j =>
      match interp_prim p (pzero p) j with
      | (RNull, _) => (RNull, v)
      | (r, x) => (r, VField false x)
      end
  | TStr => fun v j =>
      match j with
      | JStr s => (RGood, VStr false s)
      | JNull => (RNull, VStr false [])       (* sic: becomes present and empty *)
      | _ => (RFail, VStr false [])
      end
  | TB64 => fun v j =>
      match v, j with
      | _, JNull => (RNull, v)
      | VB64 s, JStr x => (RGood, VB64 (s ++ fst (b64_decode x)))
      | _, _ => (RFail, v)
      end
  | TRep t' => fun v j =>
      match v, j with
      | _, JNull => (RNull, v)
      | VList l, JArr js => let (r, l') := interp_elems (interp t' (dflt t')) js l in (r, VList l')
      | _, _ => (RFail, v)
      end
  | TMsg ms g => fun v j =>
      match v, j with
      | _, JNull => (RNull, v)
      | VMsg vs, JObj kvs =>
          let (r, vs') := interp_members (g_write g) (map interp ms) kvs vs in (r, VMsg vs')
      | _, _ => (RFail, v)
      end
  end.

(** The value has the constructors of the type (numeric ranges aside). *)
Definition pshape (p : prim) (v : pval) : bool :=
  match p, v with
  | PInt _ _, VInt _ | PDouble, VDbl _ | PFloat, VDbl _ | PBool, VBool _ => true
  | _, _ => false
  end.

Fixpoint shape (t : ty) (v : val) {struct t} : bool :=
  match t, v with
  | TPrim p, VPrim x => pshape p x
  | TField p, VField _ x => pshape p x
  | TStr, VStr _ _ => true
  | TB64, VB64 _ => true
  | TRep t', VList l => forallb (shape t') l
  | TMsg ms _, VMsg l =>
      (fix go (ms : list ty) (l : list val) {struct ms} : bool :=
         match ms, l with
         | [], [] => true
         | t' :: ms', v' :: l' => shape t' v' && go ms' l'
         | _, _ => false
         end) ms l
  | _, _ => false
  end.

(** The generated lookup of every message in the type selects the member that is
    written under that name (property C32 of the compiler). *)
Fixpoint lookup_ok (t : ty) : Prop :=
  match t with
  | TRep t' => lookup_ok t'
  | TMsg ms g =>
      (forall name, select_member g name = member_named (g_write g) name) /\
      (fix all (l : list ty) : Prop :=
         match l with [] => True | t' :: r => lookup_ok t' /\ all r end) ms
  | _ => True
  end.
