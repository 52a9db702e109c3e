(** Bytes, characters and decimal numerals.

    A C++ [char] is an [ascii] (a byte); [std::string], [std::vector<char>],
    [std::vector<uint8_t>] and character ranges are [bytes] = [list ascii]. *)
From Coq Require Export Ascii String ZArith Bool List.
Export ListNotations.
Open Scope Z_scope.

Definition bytes : Type := list ascii.

(** String literals as byte lists. *)
Definition b (s : string) : bytes := list_ascii_of_string s.

(** Value of a byte as [uint8_t]. *)
Definition code (c : ascii) : Z := Z.of_N (N_of_ascii c).

(** Conversion [(char) z] / [(uint8_t) z] of an integer: modulo 256. *)
Definition chr (z : Z) : ascii := ascii_of_N (Z.to_N (z mod 256)).

(** Value of a byte as a (signed) [char] promoted to [int]; this is what
    [iterator_istream::peek] returns (protogen.hh:166-170). *)
Definition schar (c : ascii) : Z :=
  if code c <? 128 then code c else code c - 256.

Definition NUL : ascii := "000"%char.
Definition LF  : ascii := "010"%char.

Definition bytes_eqb (x y : bytes) : bool :=
  if list_eq_dec ascii_dec x y then true else false.

(** Contents of a C string: everything before the first NUL. *)
Fixpoint cstr (s : bytes) : bytes :=
  match s with
  | [] => []
  | c :: r => if Ascii.eqb c NUL then [] else c :: cstr r
  end.

(** ** Decimal numerals: [std::to_string] on integers *)

Definition digit (d : Z) : ascii := chr (48 + d).

Fixpoint dec_loop (fuel : nat) (n : Z) (acc : bytes) : bytes :=
  match fuel with
  | O => acc
  | S f =>
      let acc' := digit (n mod 10) :: acc in
      if n / 10 =? 0 then acc' else dec_loop f (n / 10) acc'
  end.

(** Numeral of a non-negative integer, without leading zeros.  The fuel is the
    bit length, an upper bound of the number of digits. *)
Definition dec_nat (n : Z) : bytes := dec_loop (S (Z.to_nat (Z.log2 n))) n [].

Definition dec (z : Z) : bytes :=
  if z <? 0 then "-"%char :: dec_nat (- z) else dec_nat z.

Definition is_digit (c : ascii) : bool := (48 <=? code c) && (code c <=? 57).

(** Value of a sequence of decimal digits. *)
Definition digits_val (ds : bytes) : Z :=
  fold_left (fun a c => 10 * a + (code c - 48)) ds 0.

(** ** Generic list helpers *)

Fixpoint set_nth {A} (k : nat) (x : A) (l : list A) : list A :=
  match l, k with
  | [], _ => []
  | _ :: r, O => x :: r
  | y :: r, S k' => y :: set_nth k' x r
  end.

(** Longest prefix satisfying [p], and the remainder. *)
Fixpoint span {A} (p : A -> bool) (l : list A) : list A * list A :=
  match l with
  | [] => ([], [])
  | x :: r => if p x then let (u, v) := span p r in (x :: u, v) else ([], l)
  end.
