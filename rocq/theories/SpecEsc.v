(** The text a string value is written as, code point by code point. *)
From Verif Require Import Bytes SpecJson.

(** One byte: the two-character escape of RFC 8259 section 7 if there is one, else the byte. *)
Inductive byte_text : ascii -> bytes -> Prop :=
  | bt_short e c : short e c -> byte_text c [chr 92; e]
  | bt_raw c : (forall e, ~ short e c) -> byte_text c [c].

(** No upper-case letter. *)
Definition lower (h : bytes) : Prop := Forall (fun c => ~ (65 <= code c <= 90)) h.

(** One code point in ASCII: [\uxxxx] up to U+FFFF, beyond it the surrogate pair of
    RFC 2781 section 2.1. *)
Inductive cp_text : Z -> bytes -> Prop :=
  | ct_ascii cp t : cp < 128 -> byte_text (chr cp) t -> cp_text cp t
  | ct_u cp h : 128 <= cp < 65536 -> hex4 h cp -> lower h -> cp_text cp (b "\u" ++ h)
  | ct_pair cp h1 h2 : 65536 <= cp ->
      hex4 h1 (55296 + (cp - 65536) / 1024) -> hex4 h2 (56320 + (cp - 65536) mod 1024) ->
      lower h1 -> lower h2 -> cp_text cp (b "\u" ++ h1 ++ b "\u" ++ h2).

(** Between two quotation marks. *)
Definition quoted (t : bytes) : bytes := [chr 34] ++ t ++ [chr 34].
