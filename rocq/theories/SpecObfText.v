(** Calls of obfuscate of the text of cppgen.cc. *)
From Verif Require Import Bytes HParse HExec HNum ObfText.

Definition source_obfuscate (text : bytes) (loops : nat) (value : bytes) : option bytes := call_obfuscate (obf_funs text) loops value.
