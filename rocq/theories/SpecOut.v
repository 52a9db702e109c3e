(** What a [std::ostream] shows of a text given character by character. *)
From Verif Require Import Bytes StdOut.

(** Only the first character is padded. *)
Definition shown (s : std_out) (text : bytes) : bytes :=
  match text with
  | [] => []
  | c :: r =>
      let pad := repeat (so_fill s) (Z.to_nat (so_width s - 1)) in
      if so_left s then c :: pad ++ r else pad ++ c :: r
  end.

(** [taken accepts x l p]: a buffer that has received [x] and is offered [l] receives [p],
    the characters before the first refused one. *)
Inductive taken (accepts : bytes -> ascii -> bool) : bytes -> bytes -> bytes -> Prop :=
  | tk_end x : taken accepts x [] []
  | tk_refused x c l : accepts x c = false -> taken accepts x (c :: l) []
  | tk_one x c l p : accepts x c = true -> taken accepts (x ++ [c]) l p -> taken accepts x (c :: l) (c :: p).
