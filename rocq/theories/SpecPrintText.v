(** Calls of the functions print of the text of printer.cc. *)
From Verif Require Import Bytes Printer HParse HExec LexExec PrintText.

(** [vs]: the arguments, [o]: what the stream already got; the function calls itself once at most. *)
Definition source_print (text : bytes) (loops : nat) (vs : list pval) (o : bytes) : out bytes := call_print (print_funs text) loops 2 vs o.
(** What Printer.v says, for the interpreter: [None] is undefined behaviour. *)
Definition printed (r : option bytes) (o : bytes) : out bytes := match r with Some w => Out (o ++ w) | None => Bad end.
