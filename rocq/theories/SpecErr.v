(** Error reports of [deserialize], stated on the bytes of the document. *)
From Verif Require Import Bytes Types Tokenizer Write SpecJson.

Definition letter (c : ascii) : bool :=
  ((65 <=? code c) && (code c <=? 90)) || ((97 <=? code c) && (code c <=? 122)).

(** The bytes of a text without its line feeds (the tokenizer drops line feeds,
    even inside tokens). *)
Definition drop_lf (l : bytes) : bytes := filter (fun c => negb (code c =? 10)) l.

(** The first token of the document is the literal null. *)
Definition starts_null (inp : bytes) : Prop :=
  exists w rest, drop_lf inp = w ++ b "null" ++ rest /\ ws w /\
    match rest with c :: _ => letter c = false | [] => True end.

(** A cleared error record: code OK, no message, position 0:0. *)
Definition no_error (e : errinfo) : Prop :=
  e_code e = PGERR_OK /\ e_msg e = [] /\ e_line e = 0 /\ e_col e = 0.

(** Messages and containers: the types of top-level documents. *)
Definition toplevel (t : ty) : Prop := match t with TRep _ | TMsg _ _ => True | _ => False end.
