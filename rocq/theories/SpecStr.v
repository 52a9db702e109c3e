(** Which strings can be written. *)
From Verif Require Import Bytes SpecJson.

(** Characters that survive: not NUL; if [strict], also no control character without
    a short escape. *)
Definition okc (strict : bool) (c : ascii) : Prop :=
  if strict then 32 <= code c \/ code c = 8 \/ code c = 9 \/ code c = 10 \/ code c = 12 \/ code c = 13
  else code c <> 0.

(** With ensure_ascii ([ea]) the string must be UTF-8. *)
Definition writable (ea : bool) (s : bytes) : Prop := ea = true -> utf8 s.
