(** When no other number of the format lies between two numbers. *)
From Verif Require Import Bytes Dbl SpecRound.

(** The finite numbers of a format, and their values in units of 2^emin. *)
Definition number (f : fmt) (d : dbl) : Prop := dbl_valid f d = true /\ finite d.
Definition sval (f : fmt) (d : dbl) : Z := if dsign d then - units f d else units f d.

(** [y] is [x] or one of its two neighbours. *)
Definition neighbours (f : fmt) (x y : dbl) : Prop :=
  forall z, number f z -> ~ (sval f x < sval f z < sval f y) /\ ~ (sval f y < sval f z < sval f x).

(** The number of greatest magnitude with the sign [s]. *)
Definition extreme (f : fmt) (s : bool) (d : dbl) : Prop :=
  number f d /\ dsign d = s /\ forall z, number f z -> units f z <= units f d.

Definition close (f : fmt) (x y : dbl) : Prop :=
  match x with
  | DNan _ => False
  | DInf s => extreme f s y
  | _ => finite y /\ neighbours f x y
  end.
