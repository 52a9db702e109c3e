(** C02: ensure_ascii output is ASCII and round-trips UTF-8. *)
From Verif Require Import Bytes Types Stream Tokenizer Write Read SpecJson SpecEsc ApiProofs EscProofs.

(** [utf8] (SpecJson.v): concatenations of the RFC 3629 encodings of scalar values. *)
Theorem C02_ensure_ascii_round_trip : forall (s rest : bytes) (e : errinfo), utf8 s -> ~ In NUL s ->
  exists lit, write_string true s e = (PGR_OK, lit, e) /\ Forall (fun c => code c < 128) lit /\
    forall n, (2 * length (lit ++ rest) + 3 <= n)%nat ->
    exists t t', tk_make n (mk_istream (lit ++ rest)) e = Some t /\
                 read_string n t [] = Some (PGR_OK, s, t').
Proof. exact C02_lemma. Qed.
Print Assumptions C02_ensure_ascii_round_trip.

(** The text itself: the escapes of [cp_text] (SpecEsc.v), one per code point, in order;
    a surrogate pair for each code point beyond U+FFFF. *)
Theorem C02_text : forall (cps : list Z) (e : errinfo), Forall scalar cps ->
  exists ts, Forall2 cp_text cps ts /\
    write_string true (concat (map utf8_encode cps)) e = (PGR_OK, quoted (concat ts), e).
Proof. exact text_ascii_lemma. Qed.
Print Assumptions C02_text.

(** Without ensure_ascii: any bytes, one at a time; only the short escapes. *)
Theorem C02_raw_text : forall (s : bytes) (e : errinfo),
  exists ts, Forall2 byte_text s ts /\ write_string false s e = (PGR_OK, quoted (concat ts), e).
Proof. exact text_raw_lemma. Qed.
Print Assumptions C02_raw_text.

(** One code point of each encoded length: U+0041, U+00E9, U+20AC, U+1F600. *)
Definition c02_string : bytes :=
  utf8_encode 65 ++ utf8_encode 233 ++ utf8_encode 8364 ++ utf8_encode 128512 ++ [].
Example C02_example : utf8 c02_string /\ ~ In NUL c02_string /\
  write_string true c02_string err_clear = (PGR_OK, b """A\u00e9\u20ac\ud83d\ude00""", err_clear).
Proof.
  split.
  - unfold c02_string. repeat (apply utf8_cons; [unfold scalar; split; [split; discriminate|intros [? ?]; auto]|]).
    constructor.
  - split; [vm_compute; intuition discriminate|]. vm_compute. reflexivity.
Qed.
Example C02_text_example : Forall scalar [65; 233; 8364; 128512] /\
  write_string false (chr 34 :: chr 233 :: [chr 10]) err_clear =
    (PGR_OK, quoted (b "\""" ++ [chr 233] ++ b "\n"), err_clear).
Proof.
  split; [|vm_compute; reflexivity].
  repeat (apply Forall_cons; [unfold scalar; split; [split; discriminate|intros [? ?]; auto]|]).
  apply Forall_nil.
Qed.
