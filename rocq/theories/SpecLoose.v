(** The text the library writes for an arbitrary string of bytes: independent of the model. *)
From Verif Require Import Bytes SpecJson.

(** Continuation bytes of UTF-8. *)
Definition cont (c : ascii) : Prop := 128 <= code c < 192.

(** The shapes of the multi-byte sequences of UTF-8, and the UTF-16 code units of the
    number they hold.  Unlike UTF-8 proper, the number may be one that a shorter sequence
    holds, a surrogate, or above U+10FFFF. *)
Inductive seq_units : bytes -> list Z -> Prop :=
  | su_2 c1 c2 : 192 <= code c1 <= 223 -> cont c2 ->
      seq_units [c1; c2] [(code c1 - 192) * 64 + (code c2 - 128)]
  | su_3 c1 c2 c3 : 224 <= code c1 <= 239 -> cont c2 -> cont c3 ->
      seq_units [c1; c2; c3] [(code c1 - 224) * 4096 + (code c2 - 128) * 64 + (code c3 - 128)]
  | su_4 c1 c2 c3 c4 cp : 240 <= code c1 <= 244 -> cont c2 -> cont c3 -> cont c4 ->
      cp = (code c1 - 240) * 262144 + (code c2 - 128) * 4096 + (code c3 - 128) * 64 + (code c4 - 128) ->
      seq_units [c1; c2; c3; c4] [55296 + cp / 1024 - 64; 56320 + cp mod 1024].

(** [\u] and four digits. *)
Definition hex_low (d : Z) : ascii := nth (Z.to_nat d) (b "0123456789abcdef") NUL.
Definition u_text (z : Z) : bytes :=
  b "\u" ++ [hex_low (z / 4096); hex_low (z / 256 mod 16); hex_low (z / 16 mod 16); hex_low (z mod 16)].

(** [written_as ea s t]: between the quotes, [t] is written for [s]. *)
Inductive written_as (ea : bool) : bytes -> bytes -> Prop :=
  | wa_nil : written_as ea [] []
  | wa_short e c s t : short e c -> written_as ea s t -> written_as ea (c :: s) (chr 92 :: e :: t)
  | wa_plain c s t : code c < 128 -> (forall e, ~ short e c) -> written_as ea s t -> written_as ea (c :: s) (c :: t)
  | wa_high c s t : ea = false -> 128 <= code c -> written_as ea s t -> written_as ea (c :: s) (c :: t)
  | wa_seq q us s t : ea = true -> seq_units q us -> written_as ea s t ->
      written_as ea (q ++ s) (flat_map u_text us ++ t).

(** No way to go on: a byte above 127 that begins no sequence. *)
Definition stuck (r : bytes) : Prop :=
  exists c x, r = c :: x /\ 128 <= code c /\ forall q us y, seq_units q us -> r <> q ++ y.
