(** C36: the include guard. *)
From Verif Require Import Bytes SpecProto SpecFile SpecOpts Gen BackMore.

(** An identifier for every file name.  It begins with "GUARD_", so it is no keyword. *)
Theorem C36_identifier : forall file, ident (make_guard file) /\ exists r, make_guard file = b "GUARD_" ++ r.
Proof. exact (fun file => conj (guard_ident file) (ex_intro _ _ eq_refl)). Qed.
Print Assumptions C36_identifier.

(** Two names have the same guard exactly when they differ only in characters other than
    letters and digits. *)
Theorem C36_same : forall f g, make_guard f = make_guard g <-> alike f g.
Proof. exact guard_alike. Qed.
Print Assumptions C36_same.

(** The guard of an absolute path contains two underscores in a row, which C++ reserves
    ([lex.name]). *)
Example C36_reserved : make_guard (b "/repo/tests/test1.proto") = b "GUARD__repo_tests_test1_proto".
Proof. vm_compute. reflexivity. Qed.

Example C36_same_applies : make_guard (b "a-b.proto") = make_guard (b "a_b/proto") /\ alike (b "a-b.proto") (b "a_b/proto") /\
  make_guard (b "a.proto") <> make_guard (b "b.proto").
Proof.
  assert (E : make_guard (b "a-b.proto") = make_guard (b "a_b/proto")) by (vm_compute; reflexivity).
  split; [exact E|]. split; [now apply C36_same|]. vm_compute. discriminate.
Qed.
