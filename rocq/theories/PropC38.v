(** C38: the printer. *)
From Coq Require Import Lia.
From Verif Require Import Bytes Printer SpecPrint PrinterProofs.

(** A format made of text and of references [$k$] prints the text, with tabs replaced by four
    spaces and without backspaces, and the arguments verbatim.  Nothing is asked of the
    arguments: a '$' or a tab in one is printed as it is. *)
Theorem C38 : forall (vars : list bytes) (l : list piece),
  Z.of_nat (length vars) < 2 ^ 31 -> Forall (piece_ok (length vars)) l ->
  print (format_text l) vars = Some (format_out vars l).
Proof. exact print_pieces. Qed.
Print Assumptions C38.

(** Every format: what is printed is given by the rules of [prints], those for the odd uses
    of '$' included.  The one format left out overflows an [int]. *)
Theorem C38_exact : forall vars fmt out, ~ In NUL fmt -> ~ overflows fmt ->
  (print fmt vars = Some out <-> prints vars fmt out).
Proof. exact print_exact. Qed.
Print Assumptions C38_exact.

(** The format ends at a NUL. *)
Theorem C38_nul : forall vars u v, ~ In NUL u -> print (u ++ NUL :: v) vars = print u vars.
Proof. exact print_nul. Qed.
Print Assumptions C38_nul.

(** "Copies everything else" fails for a '$' that is not part of a reference: the text from
    there on is lost. *)
Theorem C38_dollar_refuted : forall vars s r,
  ~ In NUL s -> ~ In "$"%char s -> ~ In NUL r -> ~ In "$"%char r ->
  print (s ++ b "$" ++ r) vars = print s vars.
Proof. exact print_lone. Qed.
Print Assumptions C38_dollar_refuted.

Definition ex_format : list piece :=
  [PText (b "struct "); PArg 1; PText (["009"]%char ++ b ": public "); PArg 2; PText ["008"%char]; PArg 1].
Definition ex_vars : list bytes := [b "A$2$"; ["009"]%char ++ b "$"].

Example C38_applies : Z.of_nat (length ex_vars) < 2 ^ 31 /\ Forall (piece_ok (length ex_vars)) ex_format.
Proof.
  split; [reflexivity|]. unfold ex_format, ex_vars.
  repeat first [apply Forall_cons | apply Forall_nil]; cbn [piece_ok length]; try lia;
  (split; intros H; vm_compute in H; repeat (destruct H as [H|H]; [discriminate H|]); exact H).
Qed.

Example C38_value : print (b "struct $1$" ++ ["009"]%char ++ b ": public $2$" ++ ["008"]%char ++ b "$1$") ex_vars =
  Some (b "struct A$2$    : public " ++ ["009"]%char ++ b "$A$2$").
Proof. vm_compute. reflexivity. Qed.

(** A format that [C38] does not cover: empty reference, index without argument, no number. *)
Example C38_exact_applies : let fmt := b "a$$b$ +7$c$x$d" in
  ~ In NUL fmt /\ ~ overflows fmt /\ print fmt [b "one"] = Some (b "abc").
Proof.
  cbn zeta. split; [intros H; vm_compute in H; repeat (destruct H as [H|H]; [discriminate H|]); exact H|].
  split; [|vm_compute; reflexivity]. apply overflow_free_ok. vm_compute. reflexivity.
Qed.

(** The format left out exists. *)
Example C38_overflow : print (b "$-2147483648$") [] = None.
Proof. vm_compute. reflexivity. Qed.

Example C38_nul_applies : print (b "ab" ++ NUL :: b "cd") [] = Some (b "ab").
Proof. vm_compute. reflexivity. Qed.

Example C38_dollar_applies : print (b "cost: $5") [] = Some (b "cost: ") /\ ~ In "$"%char (b "cost: ") /\ ~ In "$"%char (b "5").
Proof.
  split; [vm_compute; reflexivity|].
  split; intros H; vm_compute in H; repeat (destruct H as [H|H]; [discriminate H|]); exact H.
Qed.
