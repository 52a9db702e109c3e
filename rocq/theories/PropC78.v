(** C78: what the text of rol and obfuscate of the generator (cppgen.cc:207-224) does, read and executed as C++. *)
From Verif Require Import Bytes Num Types Read HParse HExec HNum SpecHNum SpecHTok Cpp Gen SpecGen SpecProgram ObfText SpecObfText ObfTextProofs.

(** obfuscate(value): "\x" and the masked byte in hexadecimal, for every byte.  A loop takes an iteration for a character. *)
Theorem C78_obfuscate : forall l loops, Z.of_nat (length l) < 2 ^ 64 -> (length l < loops)%nat -> source_obfuscate obfuscate_cc loops l = Some (masked l).
Proof. exact obf_masked. Qed.
Print Assumptions C78_obfuscate.

(** The function of the model of the generator. *)
Theorem C78_model : forall l loops, Z.of_nat (length l) < 2 ^ 64 -> (length l < loops)%nat -> source_obfuscate obfuscate_cc loops l = Some (obfuscate l).
Proof. exact obf_text. Qed.
Print Assumptions C78_model.

(** The two ends: what the text of reveal (protogen.hh) makes of the string literal that the text of obfuscate writes.  It is [l] if and only
    if no byte of [l] is the mask (C33_name). *)
Theorem C78_both : forall l loops, Z.of_nat (length l) < 2 ^ 64 -> (length l < loops)%nat ->
  exists t v, source_obfuscate obfuscate_cc loops l = Some t /\ lit_string t = Some v /\ text_name loops "reveal" [NS v] = Some (NS (effective true l), LOwn).
Proof. exact both_texts. Qed.
Print Assumptions C78_both.

(** ** Examples *)
Example C78_applies : Z.of_nat (length (b "order")) < 2 ^ 64 /\ (length (b "order") < 6)%nat.
Proof. split; [reflexivity|repeat constructor]. Qed.
Example C78_text : obf_funs obfuscate_cc = the_obfs.
Proof. exact the_obfs_are. Qed.

Definition veils (l : bytes) : option bytes := call_obfuscate the_obfs 20 l.
(** A byte below 16 has one digit; the byte equal to the mask; bytes from 128 on; too few iterations. *)
Example C78_executed :
  veils [] = Some [] /\ veils (b "name") = Some (b "\x57\x58\x54\x5c") /\ veils (b "order") = Some (b "\x1d\x0\x16\x17\x0") /\
  veils [chr 255; chr 128; chr 0] = Some (b "\x63\x1c\x9c") /\ veils (b "abcdefgh") = Some (b "\xf2\xf1\xf0\xf7\xf6\xf5\xf4\xfb") /\
  call_obfuscate the_obfs 4 (b "name") = None.
Proof. vm_compute. repeat split. Qed.

(** Other texts do other things. *)
Definition veils_of (old new : string) (l : bytes) : option bytes := call_obfuscate (obf_funs (instead (length (b old)) (b old) (b new) obfuscate_cc)) 20 l.
Example C78_tells :
  veils_of "0x93U" "0x92U" (b "name") <> veils (b "name") /\
  veils_of "% 8" "% 7" (b "abcdefgh") <> veils (b "abcdefgh") /\
  veils_of "<< std::hex " "" (b "name") = Some (b "\x87\x88\x84\x92") /\
  veils_of "(uint8_t) value[i]" "value[i]" [chr 255] = Some (b "\xffffffd8") /\
  veils_of "++i" "i" (b "name") = None /\
  veils_of "i < t" "i <= t" (b "ab") = Some (b "\x2f\x2c\x4e") /\
  veils_of "i = 0" "i = 1" (b "ab") = Some (b "\x2c") /\
  veils_of "value << count" "value >> count" (b "ab") <> veils (b "ab") /\
  veils_of "-count" "count" (b "a") <> veils (b "a") /\
  veils_of "(int)sizeof(T) * 8" "(int)sizeof(T) * 4" (b "a") <> veils (b "a") /\
  veils_of "return result.str();" "return value;" (b "a") = None.
Proof. vm_compute. repeat split; discriminate. Qed.

(** The library: integers in hexadecimal, and in decimal; a negative int as the unsigned int. *)
Example C78_library : hex_text 0 = b "0" /\ hex_text 255 = b "ff" /\ hex_text (-1) = b "ffffffff" /\ hex_text 74565 = b "12345" /\
  inserted false (NI IInt 160) = Some (b "160") /\ inserted true (NI IInt 160) = Some (b "a0") /\ inserted true (NP (b "ab")) = Some (b "ab") /\
  inserted true (NI IU8 65) = None.
Proof. vm_compute. repeat split. Qed.
