(** C77: what the text of the functions print of the generator's printer (printer.cc:29-66) does, read and executed as C++. *)
From Verif Require Import Bytes Num Printer HParse HExec LexExec SpecHTok PrintText SpecPrintText PrintTextProofs.

(** print(out, format, vars): [print] of Printer.v; undefined exactly where it says so.  A loop takes an iteration for a character at most. *)
Theorem C77_print : forall fmt vars o loops, (length fmt < loops)%nat -> Z.of_nat (length vars) < 2 ^ 31 ->
  source_print printer_cc loops [PO; PP (cstr fmt); PV vars] o = printed (print fmt vars) o.
Proof. exact print_three. Qed.
Print Assumptions C77_print.

(** print(format, vars): the same, into the stream of the printer. *)
Theorem C77_own : forall fmt vars o loops, (length fmt < loops)%nat -> Z.of_nat (length vars) < 2 ^ 31 ->
  source_print printer_cc loops [PP (cstr fmt); PV vars] o = printed (print fmt vars) o.
Proof. exact print_two. Qed.
Print Assumptions C77_own.

(** print(format): the characters as they are. *)
Theorem C77_plain : forall fmt o loops, source_print printer_cc loops [PP (cstr fmt)] o = Out (o ++ cstr fmt).
Proof. exact print_one. Qed.
Print Assumptions C77_plain.

(** ** Examples *)
Example C77_applies : (length (b "$1$") < 4)%nat /\ Z.of_nat (length [b "x"]) < 2 ^ 31.
Proof. split; [repeat constructor|reflexivity]. Qed.
Example C77_text : print_funs printer_cc = the_prints.
Proof. exact the_prints_are. Qed.

Definition tab : bytes := [chr 9].
Definition back : bytes := [chr 8].
Definition writes (fs : list hfun) (fmt : bytes) : out bytes := call_print fs 40 2 [PP fmt; PV [b "X"; b "YZ"]] (b ">").
(** References, also with a sign or blanks; one out of range is left out; a tab, a backspace; what is no reference ends the output; the
    overflow of an int; too few iterations. *)
Example C77_executed :
  writes the_prints (b "a$2$b$1$c" ++ tab ++ b "d" ++ back ++ b "$9$e$0$") = Out (b ">aYZbXc    de") /\
  writes the_prints (b "$ +1$|$$|$-3$|") = Out (b ">X|||") /\
  writes the_prints (b "a$1x$b") = Out (b ">a") /\ writes the_prints (b "a$1") = Out (b ">a") /\ writes the_prints (b "a$ $b") = Out (b ">a") /\
  writes the_prints (b "$4294967297$") = Out (b ">X") /\
  writes the_prints (b "a$-2147483648$b") = Bad /\ writes the_prints (b "a$2147483648$b") = Bad /\
  call_print the_prints 2 2 [PP (b "abc"); PV []] [] = More.
Proof. vm_compute. repeat split. Qed.

(** Other texts do other things. *)
Definition writes_of (old new : string) (fmt : bytes) : out bytes := writes (print_funs (instead (length (b old)) (b old) (b new) printer_cc)) fmt.
Example C77_tells :
  writes_of "10) - 1;" "10);" (b "$1$") = Out (b ">YZ") /\
  writes_of "if (last != end) return;" "" (b "a$1x$b") = Out (b ">aXb") /\
  writes_of "if (last != end) return;" "if (last != end) continue;" (b "a$1x$b") = More /\
  writes_of "index < 0 || index >= (int) vars.size()" "index < 0" (b "$3$") = Bad /\
  writes_of "index < 0 || " "" (b "$0$") = Bad /\
  writes_of "ptr = end + 1;" "ptr = end;" (b "$1$") = Out (b ">X") /\
  writes_of "ptr = end + 1;" "ptr = end;" (b "$1$a$2$") <> writes the_prints (b "$1$a$2$") /\
  writes_of "'\t'" "'\n'" tab = Out (b ">" ++ tab) /\
  writes_of "out << ""    "";" "out << ""  "";" tab = Out (b ">  ") /\
  writes_of "++ptr;" "" (b "a") = More /\
  writes_of "while (*ptr != 0)" "while (ptr != 0)" (b "a") = Bad /\
  writes_of "print(out_, format, vars);" "print(out_, format, format);" (b "a") = Bad.
Proof. vm_compute. repeat split; discriminate. Qed.

(** The library: strchr finds the null too; strtol stops at the first character that is no digit, and where it began without digits. *)
Example C77_library :
  strchr 98 (b "abc") = Some (b "bc") /\ strchr 0 (b "abc") = Some [] /\ strchr 122 (b "abc") = None /\
  strtol_end (b " -12ab") = b "ab" /\ strtol_end (b " -ab") = b " -ab" /\
  ptr_eq PNull PNull = Some true /\ ptr_eq (PP []) PNull = Some false /\ ptr_eq PNull (PP []) = Some false /\ ptr_eq (PP (b "a")) (PP []) = Some false.
Proof. vm_compute. repeat split. Qed.
