(** The classes iterator_istream and tokenizer of protogen.hh, from its text. *)
From Verif Require Import Bytes Template Cpp CLex CParse CExec Unit HdrText HText HParse HExec.

(** The header after preprocessing; __USE_GNU is what glibc defines for g++. *)
Definition header (text : bytes) : list tree :=
  match preprocessed [b "__USE_GNU"] text with Some (l, _) => l | None => [] end.
Definition ns : string := "namespace protogen_X_Y_Z".

Definition stream_path : list string := [ns; "template<typename I> class iterator_istream : public istream"]%string.
Definition tok_path : list string := [ns; "namespace internal"; "class tokenizer"]%string.

Definition enum_consts (scoped : bool) (t : ity) (name : string) (l : list tree) : list (list bytes * hval) :=
  match enum_of l with
  | Some es => flat_map (fun e => ([b name; b "::"; fst e], HI t (snd e)) :: (if scoped then [] else [([fst e], HI t (snd e))])) es
  | None => []
  end.

Definition consts_of (l : list tree) : list (list bytes * hval) :=
  enum_consts false IErr "error_code" (inner_block l [ns; "enum error_code"]%string) ++
  enum_consts false IPgr "parse_error" (inner_block l [ns; "enum parse_error"]%string) ++
  enum_consts true ITid "token_id" (inner_block l [ns; "namespace internal"; "enum class token_id"]%string).
Definition stream_funs := Eval vm_compute in hfunctions (inner_block (header protogen_hh) stream_path).
Definition tok_funs := Eval vm_compute in hfunctions (inner_block (header protogen_hh) tok_path).
Definition consts := Eval vm_compute in consts_of (header protogen_hh).
