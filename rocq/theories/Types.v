(** Field types and values of generated messages, and the value operations
    [empty], [clear], [equal], [swap], assignment. *)
From Verif Require Import Bytes Num Dbl.

(** Arithmetic C++ types used by generated code (cppgen.cc:57-75):
    [PInt signed bits] is int32_t, int64_t, uint32_t, uint64_t or uint8_t. *)
Inductive prim :=
  | PInt (sg : bool) (bits : Z)
  | PDouble
  | PFloat
  | PBool.

(** The tables of the generated serializer of one message
    (cppgen.cc:262-424, code.txt).

    - [g_write]: the items of [write], in order: member number and the label that
      [*ctx.os << label] prints (code.txt:105);
    - [g_obf]: whether [index] applies [reveal] to the name (code.txt:221/228);
    - [g_index]: the entries of the [FIELDS] map of [index] (code.txt:233), in order;
    - [g_cases]: the cases of [read_field]: index and member number (code.txt:78).

    Messages without persistent fields use the EMPTY variants of the templates,
    which behave like empty tables (write "{}", [index] returns -1,
    [read_field] returns PGR_NIL). *)
Record gencode := GC {
  g_write : list (nat * bytes);
  g_obf : bool;
  g_index : list (bytes * Z);
  g_cases : list (Z * nat)
}.

(** C++ types of members and container elements (cppgen.cc:122-167).  Circular
    references are rejected by the compiler (cppgen.cc:509-525), so the type of a
    message is a finite tree. *)
Inductive ty :=
  | TPrim (p : prim)                       (* T, element of a container *)
  | TField (p : prim)                      (* field<T> *)
  | TStr                                   (* string_field *)
  | TB64                                   (* std::vector<uint8_t> with the Base64 serializer *)
  | TRep (t : ty)                          (* std::vector<T> or std::list<T> *)
  | TMsg (ms : list ty) (g : gencode).     (* message: its members and tables *)

Inductive pval :=
  | VInt (z : Z)
  | VDbl (d : dbl)                         (* double and float *)
  | VBool (x : bool).

Inductive val :=
  | VPrim (p : pval)
  | VField (e : bool) (p : pval)           (* field<T>: empty_, value_ *)
  | VStr (null : bool) (s : bytes)         (* string_field: null_, value_ *)
  | VB64 (s : bytes)
  | VList (l : list val)
  | VMsg (l : list val).

(** [(T) 0], json-number.hh:12, 161, 185. *)
Definition pzero (p : prim) : pval :=
  match p with
  | PInt _ _ => VInt 0
  | PDouble | PFloat => VDbl (DZero false)
  | PBool => VBool false
  end.

(** Default constructed value (json-number.hh:12-13, json-string.hh:11-12). *)
Fixpoint dflt (t : ty) : val :=
  match t with
  | TPrim p => VPrim (pzero p)
  | TField p => VField true (pzero p)
  | TStr => VStr true []
  | TB64 => VB64 []
  | TRep _ => VList []
  | TMsg ms _ => VMsg (map dflt ms)
  end.

(** ** Typing *)

Definition pval_ok (p : prim) (v : pval) : bool :=
  match p, v with
  | PInt sg bits, VInt z => in_range sg bits z
  | PDouble, VDbl d => dbl_valid binary64 d
  | PFloat, VDbl d => dbl_valid binary32 d
  | PBool, VBool _ => true
  | _, _ => false
  end.

Fixpoint has_ty (t : ty) (v : val) {struct t} : bool :=
  match t, v with
  | TPrim p, VPrim x => pval_ok p x
  | TField p, VField _ x => pval_ok p x
  | TStr, VStr _ _ => true
  | TB64, VB64 _ => true
  | TRep t', VList l => forallb (has_ty t') l
  | TMsg ms _, VMsg l =>
      (fix go (ms : list ty) (l : list val) {struct ms} : bool :=
         match ms, l with
         | [], [] => true
         | t' :: ms', v' :: l' => has_ty t' v' && go ms' l'
         | _, _ => false
         end) ms l
  | _, _ => false
  end.

(** ** [json<T>::empty] *)

(** json-number.hh:160, 184, on plain values.  No operation of a message asks it: elements
    of a repeated field are written and compared without.  For floating point numbers the
    exact condition is [Close.empty_number] (C59), which calls two more numbers empty. *)
Definition pval_is_zero (p : pval) : bool :=
  match p with
  | VInt z => z =? 0
  | VDbl (DZero _) => true
  | VDbl _ => false
  | VBool x => negb x
  end.

(** json-number.hh:136 ([field<T>]), json-string.hh:22 and 175 ([string_field]),
    json-base64.hh:102, json-array.hh:74, code.txt:119-132 (messages: conjunction
    over all members, transient ones included, cppgen.cc:316-334).  For a bare
    arithmetic value (json-number.hh:160, 184) the neighbouring denormals that
    [equal_number] also accepts are ignored; generated code never asks. *)
Fixpoint vempty (v : val) : bool :=
  match v with
  | VPrim p => pval_is_zero p
  | VField e _ => e
  | VStr null s => null && match s with [] => true | _ => false end
  | VB64 s => match s with [] => true | _ => false end
  | VList l => match l with [] => true | _ => false end
  | VMsg l => forallb vempty l
  end.

(** ** [json<T>::clear] (json-number.hh:22, 161, 185; json-string.hh:24;
    json-base64.hh:103; json-array.hh:75; code.txt:139-150, cppgen.cc:336-354) *)
Definition pval_clear (p : pval) : pval :=
  match p with VInt _ => VInt 0 | VDbl _ => VDbl (DZero false) | VBool _ => VBool false end.

Fixpoint vclear (v : val) : val :=
  match v with
  | VPrim p => VPrim (pval_clear p)
  | VField _ p => VField true (pval_clear p)
  | VStr _ _ => VStr true []
  | VB64 _ => VB64 []
  | VList _ => VList []
  | VMsg l => VMsg (map vclear l)
  end.

(** ** [json<T>::equal] and [operator==] (json-number.hh:27, 138; json-string.hh:32,
    177; json-base64.hh:104; json-array.hh:76; code.txt:157-170;
    protogen.hh:702-704).  Elements of containers are compared with [==], which
    for messages is [equal]. *)
Definition pval_eqb (x y : pval) : bool :=
  match x, y with
  | VInt u, VInt v => u =? v
  | VDbl u, VDbl v => dbl_eqb u v
  | VBool u, VBool v => Bool.eqb u v
  | _, _ => false
  end.

Fixpoint vequal (x y : val) {struct x} : bool :=
  let fix all2 (l m : list val) {struct l} : bool :=
    match l, m with
    | [], [] => true
    | u :: l', v :: m' => vequal u v && all2 l' m'
    | _, _ => false
    end in
  match x, y with
  | VPrim p, VPrim q => pval_eqb p q
  | VField e p, VField e' q => Bool.eqb e e' && pval_eqb p q
  | VStr n s, VStr n' s' => Bool.eqb n n' && bytes_eqb s s'
  | VB64 s, VB64 s' => bytes_eqb s s'
  | VList l, VList l' => all2 l l'
  | VMsg l, VMsg l' => all2 l l'
  | _, _ => false
  end.

(** ** [json<T>::swap] (json-number.hh:19, 139; json-string.hh:20, 178;
    json-base64.hh:105; json-array.hh:77; code.txt:177-188): the pair of values
    of the two objects after the call. *)
Fixpoint vswap (x y : val) {struct x} : val * val :=
  match x, y with
  | VMsg l, VMsg m =>
      let '(l', m') :=
        (fix go (l m : list val) {struct l} : list val * list val :=
           match l, m with
           | u :: l', v :: m' =>
               let '(u', v') := vswap u v in
               let '(l2, m2) := go l' m' in (u' :: l2, v' :: m2)
           | _, _ => (l, m)
           end) l m in
      (VMsg l', VMsg m')
  | _, _ => (y, x)
  end.

(** ** Copy assignment [a = b] (json-number.hh:23; json-string.hh:25; the
    defaulted [operator=] of the structures, json.hh:71): the new value of [a].

    Assigning a container either replaces the elements by copies or assigns to
    the existing elements first, at the discretion of the standard library:
    [reuse old new] says which. *)
Section Assign.
  Variable reuse : list val -> list val -> bool.

  Fixpoint vassign (x y : val) {struct x} : val :=
    match x, y with
    | VField e p, VField e' p' => VField e' (if e' then p else p')
    | VStr n s, VStr n' s' => VStr n' (if n' then s else s')
    | VList l, VList m =>
        if reuse l m then
          VList ((fix go (l m : list val) {struct l} : list val :=
                    match l, m with
                    | u :: l', v :: m' => vassign u v :: go l' m'
                    | [], _ => m
                    | _, [] => []
                    end) l m)
        else VList m
    | VMsg l, VMsg m =>
        VMsg ((fix go (l m : list val) {struct l} : list val :=
                 match l, m with
                 | u :: l', v :: m' => vassign u v :: go l' m'
                 | _, _ => m
                 end) l m)
    | _, _ => y
    end.
End Assign.
