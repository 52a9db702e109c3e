(** C37: namespaces are balanced. *)
From Verif Require Import Bytes SpecProto SpecTemplate SpecOpts ProtoLex ProtoParse Gen BackMore.

(** One namespace for each component of the package: [ps] are the texts between the dots. *)
Theorem C37_text : forall m ps, package_parts (m_package m) ps ->
  gen_namespace m true = (concat (map (fun c => b "namespace " ++ c ++ b " {" ++ [LF]) ps), GOk tt) /\
  gen_namespace m false = (concat (map (fun c => b "} // namespace " ++ c ++ [LF]) ps), GOk tt).
Proof. exact namespaces_balanced. Qed.
Print Assumptions C37_text.

(** Every package has components, and only one sequence of them. *)
Theorem C37_parts : forall pkg, exists ps, package_parts pkg ps /\ forall qs, package_parts pkg qs -> qs = ps.
Proof. exact (fun pkg => ex_intro _ _ (conj (parts_ok pkg) (fun qs H => package_parts_unique _ _ _ H (parts_ok pkg)))). Qed.
Print Assumptions C37_parts.

(** As many braces closed as opened. *)
Theorem C37_braces : forall m ps, package_parts (m_package m) ps -> ~ In "{"%char (m_package m) -> ~ In "}"%char (m_package m) ->
  count "{" (fst (gen_namespace m true)) = length ps /\ count "}" (fst (gen_namespace m true)) = 0%nat /\
  count "}" (fst (gen_namespace m false)) = length ps /\ count "{" (fst (gen_namespace m false)) = 0%nat.
Proof. exact namespaces_count. Qed.
Print Assumptions C37_braces.

(** The components of a package that the parser takes are identifiers. *)
Theorem C37_names : forall pkg, dotted pkg -> exists ps, package_parts pkg ps /\ Forall ident ps.
Proof. exact package_part_idents. Qed.
Print Assumptions C37_names.

Definition ex_message : message := Msg [] (b "M") (b "com.example.v1") [].

Example C37_applies : package_parts (m_package ex_message) [b "com"; b "example"; b "v1"] /\
  ~ In "{"%char (m_package ex_message) /\ ~ In "}"%char (m_package ex_message).
Proof.
  split.
  - right. split; [discriminate|]. split; [discriminate|]. split; [vm_compute; reflexivity|].
    repeat constructor; intros H; vm_compute in H; repeat (destruct H as [H|H]; [discriminate H|]); exact H.
  - split; intros H; vm_compute in H; repeat (destruct H as [H|H]; [discriminate H|]); exact H.
Qed.

Example C37_names_applies : dotted (b "com.example.v1").
Proof.
  apply (dot_more (b "com") (b "example.v1")); [|apply (dot_more (b "example") (b "v1")); [|apply dot_one]];
    (split; [unfold pletter; vm_compute; intuition discriminate|repeat constructor; unfold pletter, pdigit; vm_compute; intuition discriminate]).
Qed.
