(** Calls of the functions of field<T>, string_field and json<T> as the text of the headers has them. *)
From Verif Require Import Bytes Types Unit HdrText HText HParse HApi HIter HField.

Definition fields : ftext := ftext_of json_number_hh json_string_hh json_base64_hh json_array_hh.

(** The values as objects; a container is one with its elements. *)
Definition as_obj (v : val) : fobj :=
  match v with
  | VPrim (VBool x) => OVal (FB x)
  | VPrim p => OVal (FP p)
  | VField e p => OCls [(b "value_", FP p); (b "empty_", FB e)]
  | VStr n s => OCls [(b "value_", FS s); (b "null_", FB n)]
  | _ => OVal (FV v)
  end.
Definition the_obj (n : nat) : fres := GP (n, None).

(** Types whose functions are not generated (those are in C67), without floating-point numbers outside of field<T> (C59). *)
Definition basic (t : ty) : Prop :=
  match t with TMsg _ _ | TPrim PDouble | TPrim PFloat => False | _ => True end.
(** T (0) for a type of numbers. *)
Definition zero_of (t : ty) : pval := match t with TPrim p | TField p => pzero p | _ => VInt 0 end.

(** json<T>::f( … ) for the two objects [x] and [y]. *)
Definition statics (t : ty) : list ofun :=
  match t with
  | TPrim PBool => q_jbool fields | TPrim _ => q_jnum fields | TField _ => q_jfield fields | TStr => q_jstring fields
  | TB64 => q_jb64 fields | _ => q_jarr fields
  end.
Definition class_of (t : ty) : fclass := match t with TStr => q_string fields | _ => q_field fields end.
Definition text_static (t : ty) (f : string) (args : list nat) (s : list fobj) : option (fres * list fobj) :=
  f_static (q_free fields) (class_of t) (statics t) (zero_of t) (b f) (map the_obj args) s.

(** x.f( args ) for a field<T> or a string_field. *)
Definition text_member (t : ty) (f : string) (args : list fres) (s : list fobj) : option (fres * list fobj) :=
  f_call (q_free fields) (class_of t) (zero_of t) 3 (Some 0%nat) (b f) args s.

(** A std::string with these characters or a pointer to them. *)
Definition a_text (x : fval) (t : bytes) : Prop := x = FS t \/ x = FC t.
