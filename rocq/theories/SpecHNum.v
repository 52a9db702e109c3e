(** Calls of the functions for numbers and names as the text of the headers has them. *)
From Verif Require Import Bytes Num Dbl Close Types HdrText HText HParse HExec HNum.

(** The types of numbers of generated classes, and what holds a number of such a type. *)
Definition a_number (p : prim) : Prop :=
  match p with
  | PInt sg bits => In (sg, bits) [(true, 32); (true, 64); (false, 8); (false, 32); (false, 64)]
  | PDouble | PFloat => True
  | PBool => False
  end.
Definition is_floating (p : prim) : bool := match p with PDouble | PFloat => true | _ => false end.
Definition is_single (p : prim) : bool := match p with PFloat => true | _ => false end.
Definition held_in (p : prim) : ity :=
  match p with PInt true 32 => IInt | PInt true _ => ILong | PInt false 8 => IU8 | PInt false 32 => IUInt | _ => ISize end.
Definition as_num (p : prim) (v : pval) : nval :=
  match v with VInt z => NI (held_in p) z | VDbl d => ND (is_single p) d | VBool x => NB x end.

(** f(args), where newlocale and uselocale succeed or not, in a thread with the locale [l]: the result and the locale afterwards. *)
Definition text_number (p : prim) (f : string) (has_c may_use : bool) (l : locale) (args : list nval) : option (nval * locale) :=
  ncall (number_funs p json_number_hh) 1 0 (is_single p) has_c may_use l (b f) args.
Definition text_name (loops : nat) (f : string) (args : list nval) : option (nval * locale) :=
  ncall (name_funs protogen_hh) 2 loops false true true LOwn (b f) args.
