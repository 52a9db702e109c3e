(** C74: what the text of string_to_number, number_to_string, equal_number (json-number.hh) and reveal, rol (protogen.hh) does, read and executed as C++. *)
From Verif Require Import Bytes Num Dbl Close Types Read Write HdrText HText HParse HExec SpecHTok HNum SpecHNum HNumProofs HNameText.

(** The number of a text: [string_to_prim] of Read.v; the locale of the thread stays. *)
Theorem C74_read : forall p s has_c may_use l, a_number p -> (is_floating p = true -> has_c = true) ->
  text_number p "string_to_number" has_c may_use l [NS s] = Some (as_num p (string_to_prim p s), l).
Proof. exact to_number. Qed.
Print Assumptions C74_read.

(** Without the locale "C": zero. *)
Theorem C74_read_zero : forall p s may_use l, is_floating p = true ->
  text_number p "string_to_number" false may_use l [NS s] = Some (as_num p (pzero p), l).
Proof. exact to_number_fails. Qed.
Print Assumptions C74_read_zero.

(** The text of a number: [prim_text] of Write.v; the locale of the thread is what it was. *)
Theorem C74_write : forall p v l, a_number p -> pval_ok p v = true -> l <> LNull -> text_number p "number_to_string" true true l [as_num p v] = Some (NS (prim_text v), l).
Proof. exact to_text. Qed.
Print Assumptions C74_write.

(** Without the locale "C", or if it cannot be used: "0". *)
Theorem C74_write_zero : forall p v has_c l, is_floating p = true -> pval_ok p v = true -> text_number p "number_to_string" has_c false l [as_num p v] = Some (NS (b "0"), l) /\
  (l <> LNull -> text_number p "number_to_string" false true l [as_num p v] = Some (NS (b "0"), l)).
Proof. exact to_text_fails. Qed.
Print Assumptions C74_write_zero.

(** Equality: [equal_number] of Close.v (C59) for floating-point numbers. *)
Theorem C74_equal : forall p x y has_c may_use l, a_number p -> pval_ok p x = true -> pval_ok p y = true ->
  text_number p "equal_number" has_c may_use l [as_num p x; as_num p y]
    = Some (NI IInt (if match x, y with
                        | VDbl u, VDbl v => equal_number (if is_single p then binary32 else binary64) u v
                        | _, _ => pval_eqb x y
                        end then 1 else 0), l).
Proof. exact equal_text. Qed.
Print Assumptions C74_equal.

(** Names: [reveal] of Read.v, for all names that fit into memory. *)
Theorem C74_reveal : forall s loops, Z.of_nat (length s) < 2 ^ 64 -> (length s < loops)%nat -> text_name loops "reveal" [NS s] = Some (NS (reveal s), LOwn).
Proof. exact reveal_text. Qed.
Print Assumptions C74_reveal.

(** ** Examples *)
Example C74_applies : a_number (PInt false 64) /\ a_number PFloat /\ pval_ok (PInt false 64) (VInt 18446744073709551615) = true /\
  pval_ok PDouble (VDbl (strtod (b "-0.1"))) = true /\ is_floating PDouble = true /\ LOwn <> LNull /\
  (Z.of_nat (length (b "name")) < 2 ^ 64) /\ (length (b "name") < 5)%nat.
Proof. cbn; repeat split; auto 8; discriminate. Qed.
Example C74_texts : number_funs PDouble json_number_hh = the_double /\ number_funs (PInt true 32) json_number_hh = the_i32 /\ name_funs protogen_hh = the_names.
Proof. exact (conj funs_double (conj funs_i32 funs_names)). Qed.
Definition called_in (fs : list hfun) (f : string) (args : list nval) := ncall fs 2 9 false true true LOwn (b f) args.
Example C74_executed :
  called_in the_u8 "string_to_number" [NS (b "300")] = Some (NI IU8 44, LOwn) /\
  called_in the_i64 "string_to_number" [NS (b " -12abc")] = Some (NI ILong (-12), LOwn) /\
  called_in the_double "number_to_string" [ND false (strtod (b "1.5e3"))] = Some (NS (b "1500.000000"), LOwn) /\
  called_in the_u64 "number_to_string" [NI ISize 18446744073709551615] = Some (NS (b "18446744073709551615"), LOwn) /\
  called_in the_names "reveal" [NS (b "id")] = Some (NS (reveal (b "id")), LOwn).
Proof. vm_compute. repeat split. Qed.

(** Other texts do other things: a locale that stays, a shorter buffer, another overload, another mask. *)
Definition numbers_of (p : prim) (old new : string) : list hfun := number_funs p (instead (length (b old)) (b old) (b new) json_number_hh).
Definition names_of (old new : string) : list hfun := name_funs (instead (length (b old)) (b old) (b new) protogen_hh).
Example C74_tells :
  called_in (numbers_of PDouble "value);
    uselocale(old);" "value);") "number_to_string" [ND false (strtod (b "1.5"))] = Some (NS (b "1.500000"), LC) /\
  called_in (numbers_of PDouble "char tmp[320]" "char tmp[5]") "number_to_string" [ND false (strtod (b "1.5"))] = Some (NS (b "1.5"), LOwn) /\
  called_in (numbers_of PDouble "snprintf(tmp, sizeof(tmp) - 1," "snprintf(tmp, sizeof(tmp),") "number_to_string" [ND false (strtod (b "1.5"))] = Some (NS (b "1.500000"), LOwn) /\
  called_in (numbers_of PDouble "snprintf(tmp, sizeof(tmp) - 1," "snprintf(tmp, sizeof(tmp) + 1,") "number_to_string" [ND false (strtod (b "1.5"))] = None /\
  map size_of [IChar; IU8; IInt; IUInt; ILong; ISize] = map Some [1; 1; 4; 4; 8; 8] /\
  called_in (numbers_of (PInt false 32) "std::is_integral<T>::value && !std::is_signed<T>::value" "std::is_integral<T>::value") "string_to_number" [NS (b "7")] = Some (NI IUInt 7, LOwn) /\
  called_in (numbers_of (PInt true 32) "std::is_integral<T>::value && !std::is_signed<T>::value" "std::is_integral<T>::value") "string_to_number" [NS (b "7")] = None /\
  called_in (names_of "(value << count)" "(value >> count)") "reveal" [NS (b "id")] <> Some (NS (reveal (b "id")), LOwn) /\
  called_in (names_of "++i)
		result +=" "++i)
		value[i]; result +=") "reveal" [NS (b "id")] = None.
Proof. vm_compute. repeat split; discriminate. Qed.
