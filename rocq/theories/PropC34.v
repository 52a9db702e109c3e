(** C34: number_names. *)
From Coq Require Import Permutation Sorted.
From Verif Require Import Bytes Num Types Read Write SpecJson SpecInterp SpecWrite ProtoLex ProtoParse SpecProto SpecSchema Cpp Gen MainC SpecGen SpecCpp SpecFile SpecOpts GenText GenFile BackProofs BackMore BackSamples
  SpecProgram SpecOrder SpecEnd ProgramProofs NameProofs OrderProofs CheckProofs EndProofs EndSamples.

(** With number_names and without obfuscation the JSON name of every field is the numeral of
    its number; the names of a message are distinct, need no escape in JSON, and are their own
    literal in C++. *)
Theorem C34_names : forall text path p, parse text path = POk p ->
  flag (pr_options p) (b "number_names") = true -> flag (pr_options p) (b "obfuscate_strings") = false ->
  wire_fine true p /\
  (forall m f, In m (pr_messages p) -> In f (m_fields m) -> wire p f = dec (f_index f) /\ literal_fine (json_label true f)).
Proof. exact number_names. Qed.
Print Assumptions C34_names.

(** With obfuscation too, exactly the numbers of four digits with a 9 get another name. *)
Theorem C34_obfuscated : forall n, 0 < n < 2 ^ 29 -> (effective true (dec n) = dec n <-> ~ (1000 <= n <= 9999 /\ In "9"%char (dec n))).
Proof. exact number_obfuscated. Qed.
Print Assumptions C34_obfuscated.

(** So the property is false with obfuscation: 9001 and 9002 are both called "". *)
Theorem C34_obfuscated_refuted : compiles bare (fun l => l) nine_text (b "f") [([], b "M", nine_ty)] /\
  serialize nine_ty (VMsg [VField false (VInt 5); VField false (VInt 6)]) None = (true, b "{"""":5,"""":6}", None) /\
  deserialize nine_ty (dflt nine_ty) (b "{""9002"":6}") None = Some (true, dflt nine_ty, None) /\
  deserialize nine_ty (dflt nine_ty) (b "{"""":5,"""":6}") None = Some (true, VMsg [VField false (VInt 6); VField true (VInt 0)], None).
Proof. exact nine_wrong. Qed.
Print Assumptions C34_obfuscated_refuted.

Example C34_applies : exists p, parse (b "option number_names=true;message M{int32 a=9001[name=""it's""];string s=3;}") (b "f") = POk p /\
  flag (pr_options p) (b "number_names") = true /\ flag (pr_options p) (b "obfuscate_strings") = false /\
  map (map (wire p)) (map m_fields (pr_messages p)) = [[b "9001"; b "3"]].
Proof. eexists. split; [vm_compute; reflexivity|]. repeat split; vm_compute; reflexivity. Qed.
Example C34_obfuscated_applies : 0 < 9876 < 2 ^ 29 /\ 1000 <= 9876 <= 9999 /\ In "9"%char (dec 9876) /\ effective true (dec 12345) = b "12345".
Proof. vm_compute. intuition discriminate. Qed.
