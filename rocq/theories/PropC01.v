(** C01: string literals round-trip byte for byte. *)
From Verif Require Import Bytes Types Stream Tokenizer Write Read ApiProofs Samples.

(** Every NUL-free byte string is written as a literal which, whatever follows it in
    the input, is read back as the same bytes.  The tokenizer is created on the
    literal plus the continuation, with any sufficient fuel. *)
Theorem C01_string_round_trip : forall (s rest : bytes) (e : errinfo), ~ In NUL s ->
  exists lit, write_string false s e = (PGR_OK, lit, e) /\
    forall n, (2 * length (lit ++ rest) + 3 <= n)%nat ->
    exists t t', tk_make n (mk_istream (lit ++ rest)) e = Some t /\
                 read_string n t [] = Some (PGR_OK, s, t').
Proof. exact C01_lemma. Qed.
Print Assumptions C01_string_round_trip.

(** The restriction is necessary: a string with a NUL byte is written without error
    but reading it back fails, whatever follows. *)
Theorem C01_nul_never_read_back : forall (s : bytes) (e : errinfo), In NUL s ->
  exists lit, write_string false s e = (PGR_OK, lit, e) /\
    forall rest n, (2 * length (lit ++ rest) + 3 <= n)%nat ->
    exists t t', tk_make n (mk_istream (lit ++ rest)) e = Some t /\
                 read_string n t [] = Some (PGR_ERROR, [], t').
Proof. exact C01_nul_lemma. Qed.
Print Assumptions C01_nul_never_read_back.

(** All the escapes, a control character and bytes over 127. *)
Definition c01_string : bytes := b "a""\/b" ++ [chr 8; chr 12; chr 10; chr 13; chr 9; chr 1; chr 200; chr 255].
(** Writes [s], reads it back in front of [rest]. *)
Definition c01_trip (s rest : bytes) : option (pgr * bytes) :=
  match write_string false s err_clear with
  | (PGR_OK, lit, _) =>
      match tk_make 100 (mk_istream (lit ++ rest)) err_clear with
      | Some t => match read_string 100 t [] with Some (r, s', _) => Some (r, s') | None => None end
      | None => None
      end
  | _ => None
  end.
Example C01_example : ~ In NUL c01_string /\ c01_trip c01_string (b "rest") = Some (PGR_OK, c01_string).
Proof.
  split; [|vm_compute; reflexivity].
  intros H. apply (in_map code) in H. vm_compute in H. intuition discriminate.
Qed.

Example C01_nul_example : In NUL [chr 65; NUL] /\ c01_trip [chr 65; NUL] [] = Some (PGR_ERROR, []).
Proof. split; [vm_compute; tauto|vm_compute; reflexivity]. Qed.
