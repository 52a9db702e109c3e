(** What an arbitrary text means when it is read as Base64 by a lenient decoder:
    independent of the model. *)
From Verif Require Import Bytes SpecB64.

(** The place of a character in the alphabet of RFC 4648; characters outside the alphabet,
    '=' among them, count as the first one. *)
Definition place (c : ascii) : Z :=
  match find (fun i => Ascii.eqb (b64_char i) c) (map Z.of_nat (seq 0 64)) with Some i => i | None => 0 end.

(** The number written by four characters, 24 bits. *)
Definition written (c0 c1 c2 c3 : ascii) : Z :=
  place c0 * 2 ^ 18 + place c1 * 2 ^ 12 + place c2 * 2 ^ 6 + place c3.

(** How many of its three bytes count: '=' in the third place leaves one (whatever the
    fourth is), '=' in the fourth place leaves two. *)
Definition counted (c2 c3 : ascii) : nat :=
  if Ascii.eqb c2 "=" then 1 else if Ascii.eqb c3 "=" then 2 else 3.

(** Groups of four characters one after the other; '=' does not end the text, and up to
    three characters left at the end are dropped. *)
Fixpoint lenient (text : bytes) : bytes :=
  match text with
  | c0 :: c1 :: c2 :: c3 :: r =>
      let n := written c0 c1 c2 c3 in
      firstn (counted c2 c3) [chr (n / 2 ^ 16); chr (n / 2 ^ 8 mod 2 ^ 8); chr (n mod 2 ^ 8)] ++ lenient r
  | _ => []
  end.
