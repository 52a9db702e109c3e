(** The text printer of the generator (source/printer.cc, source/printer.hh). *)
From Verif Require Import Bytes Num.

(** [strtol(ptr + 1, &last, 10)] on the text [a] between two '$' (printer.cc:49-51).
    '$' is no digit, sign or space, so [last] is at most [end].  [last] is [end] when
    the digits end there; without digits [last] is [ptr + 1], which is [end] only for "$$".
    Result: whether [last == end]. *)
Definition arg_closed (a : bytes) : bool :=
  let '(_, ds, rest) := strto_split a in
  match ds with
  | [] => match a with [] => true | _ => false end
  | _ => match rest with [] => true | _ => false end
  end.

(** [(int) strtol(...)], printer.cc:50. *)
Definition arg_number (a : bytes) : Z := cast_int true 32 (strtol a).

(** [Printer::print], printer.cc:39-66.  [None]: undefined behaviour, the overflow of
    [(int) ... - 1].  The pointer [ptr] is the list [fmt]; between a '$' and the next one
    found by [strchr] (line 46) the characters are collected in [acc], reversed.  The end of
    the list in that state is the [return] of line 47. *)
Fixpoint print_go (vars : list bytes) (acc : option bytes) (fmt : bytes) {struct fmt} : option bytes :=
  match fmt with
  | [] => Some []
  | c :: r =>
      match acc with
      | None =>
          if Ascii.eqb c "$" then print_go vars (Some []) r
          else if Ascii.eqb c "009" then option_map (app (b "    ")) (print_go vars None r)
          else if Ascii.eqb c "008" then print_go vars None r
          else option_map (cons c) (print_go vars None r)
      | Some a =>
          if Ascii.eqb c "$" then
            let w := rev a in
            if arg_number w =? - 2 ^ 31 then None
            else if arg_closed w then
              let index := arg_number w - 1 in
              if (index <? 0) || (Z.of_nat (length vars) <=? index) then print_go vars None r
              else option_map (app (nth (Z.to_nat index) vars [])) (print_go vars None r)
            else Some []
          else print_go vars (Some (c :: a)) r
      end
  end.

(** [format] is a C string. *)
Definition print (fmt : bytes) (vars : list bytes) : option bytes := print_go vars None (cstr fmt).
