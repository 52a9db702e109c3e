(** Floating point notions used by the statements. *)
From Verif Require Import Bytes Dbl Types.

(** The C++ types float ([single]) and double, and their formats. *)
Definition fprim (single : bool) : prim := if single then PFloat else PDouble.
Definition fformat (single : bool) : fmt := if single then binary32 else binary64.

(** The value is finite and a whole number of millionths (every finite integer is). *)
Definition six (d : dbl) : Prop :=
  match d with
  | DZero _ => True
  | DFin _ m e => 0 <= e \/ (2 ^ (- e) | Zpos m * 10 ^ 6)
  | _ => False
  end.
