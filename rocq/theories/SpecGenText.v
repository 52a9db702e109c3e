(** Calls of the functions of the text of cppgen.cc. *)
From Verif Require Import Bytes Types Read ProtoLex ProtoParse Cpp HParse HExec Gen CgRead GenExec.

(** The functions call each other three deep at most. *)
Definition source_gen (text : bytes) (cfg : build) (msgs : list message) (loops : nat) (f : string) (vs : list gval) : gout gval :=
  call_gen (gen_text text) cfg msgs loops 3 (b f) vs.
(** The outcome of a function of Gen.v that prints nothing, with what it returns as a value of the interpreter. *)
Definition same_as {A} (r : G A) (v : A -> gval) (o : gout gval) : Prop :=
  fst r = [] /\ o = match snd r with GOk a => GOk (v a) | GThrow e l c => GThrow e l c | GUndef => GUndef | GFuel => GFuel end.
