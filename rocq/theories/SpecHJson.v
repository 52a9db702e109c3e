(** Calls of json<T>::read and json<T>::write as the text of the headers has them. *)
From Verif Require Import Bytes Types Stream Tokenizer Read HdrText CExec HParse HExec HTok SpecHTok HJson.

(** The texts of the runtime's headers. *)
Definition runtime : htext := texts_of protogen_hh json_hh json_array_hh json_base64_hh json_number_hh json_string_hh.

(** With enough room for loops and open calls: json<T>::read( ctx, x ) for a variable x that holds [v] returns [r], leaves [v'] in x and the
    tokenizer as [t'], and nothing else changes. *)
Definition text_reads (ty0 : ty) (t : tokenizer) (v : val) (r : pgr) (v' : val) (t' : tokenizer) : Prop :=
  exists N0 D0, forall N d ea sn vars x out, (N0 <= N)%nat -> (D0 <= d)%nat -> assoc vars x = Some (VarVal (HM v)) ->
    json_text N d ea sn runtime ty0 (b "read") [HV HCtx; HL (RVar x) []] (mem vars t out)
    = Some (HV (HI IInt (pgr_z r)), mem (update vars x (VarVal (HM v'))) t' out).

(** The length of the longest string, sequence of bytes or list of a value. *)
Fixpoint longest (v : val) : nat :=
  match v with
  | VPrim _ | VField _ _ => 0
  | VStr _ s | VB64 s => length s
  | VList l => Nat.max (length l) (fold_right Nat.max 0 (map longest l))
  | VMsg l => fold_right Nat.max 0 (map longest l)
  end%nat.

(** The same for json<T>::write( ctx, x ), for any x whose value is [v], with ensure_ascii and serialize_null as given: it returns [r], gives
    [o] to the output, and changes the error of the parameters from [e] to [e'] and nothing else. *)
Definition text_writes (ea sn : bool) (ty0 : ty) (v : val) (e : errinfo) (r : pgr) (o : bytes) (e' : errinfo) : Prop :=
  exists N0 D0, forall N d vars x cur inp out, (N0 <= N)%nat -> (D0 <= d)%nat -> load (mem vars (TK cur inp e) out) x = Some (HM v) ->
    json_text N d ea sn runtime ty0 (b "write") [HV HCtx; x] (mem vars (TK cur inp e) out)
    = Some (HV (HI IInt (pgr_z r)), mem vars (TK cur inp e') (out ++ o)).
