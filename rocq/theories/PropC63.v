(** C63: several generated headers in one translation unit. *)
From Coq Require Import Lia.
From Verif Require Import Bytes Num Types Read Write ProtoLex ProtoParse SpecProto Cpp Gen MainC SpecGen SpecCpp SpecFile SpecOpts BackSamples RealBuild RealFine SpecProgram SpecEnd
  Unit SpecUnit UnitProofs PreAll PreReal UnitSamples.

(** One header alone is the program of its classes, *)
Theorem C63_one : forall g h cs, unit_ty [GH g h cs] = program_ty h cs.
Proof. exact unit_one. Qed.
Print Assumptions C63_one.
(** and a header that has been included adds nothing. *)
Theorem C63_again : forall l g env, In g l -> unit_ty l = Some env -> unit_ty (l ++ [g]) = Some env.
Proof. exact unit_again. Qed.
Print Assumptions C63_again.
Example C63_again_applies : exists g h, bare_header item = Some g /\ bare_header order = Some h /\ In (snd g) [snd g; snd h] /\ exists env, unit_ty [snd g; snd h] = Some env /\ env <> [].
Proof.
  destruct (bare_header item) as [g|] eqn:E; [|vm_compute in E; discriminate E]. destruct (bare_header order) as [h|] eqn:F; [|vm_compute in F; discriminate F]. exists g, h. repeat split; [now left|].
  assert (X : match bare_header item, bare_header order with Some g, Some h => match unit_ty [snd g; snd h] with Some (_ :: _) => true | _ => false end | _, _ => false end = true) by (vm_compute; reflexivity).
  rewrite E, F in X. destruct (unit_ty [snd g; snd h]) as [[|e r]|]; try discriminate X. exists (e :: r). split; [reflexivity|discriminate].
Qed.

(** The headers of several schemas compile together, in any order, and every class has the type
    that it has in its own header, if no structure is declared twice, no two paths differ only
    in special characters, and repeated bytes occur in all schemas with bytes or in none. *)
Theorem C63_together : forall cfg srt ss, build_fine cfg -> permutes srt ->
  Forall source_fine ss -> paths_apart (map so_path ss) -> names_together (map so_tree ss) -> bytes_together (map so_tree ss) ->
  exists l, Forall2 (gives cfg srt) ss l /\ unit_ty (map (fun x => snd (fst x)) l) = Some (concat (map snd l)).
Proof. exact (fun cfg srt ss B S => unit_sources cfg srt B S ss). Qed.
Print Assumptions C63_together.
Example C63_together_applies : build_fine bare /\ permutes (fun l => l) /\ Forall source_fine [item; order] /\
  paths_apart (map so_path [item; order]) /\ names_together (map so_tree [item; order]) /\ bytes_together (map so_tree [item; order]).
Proof.
  split; [exact bare_fine|]. split; [exact id_permutes|]. split; [constructor; [exact item_fine|constructor; [exact order_fine|constructor]]|].
  exact (conj shop_apart (conj shop_names shop_bytes)).
Qed.

(** The text.  What the preprocessor leaves of a header: nothing but its runtime headers if its
    guard is defined, otherwise also the standard headers and the classes, and the guard is
    defined. *)
Theorem C63_text : forall ev cfg srt names gs, build_fine cfg -> permutes srt -> runtime_guards ev cfg names gs -> version_fine cfg ->
  forall s x m, headed cfg srt s x -> exists rt m' body,
    preprocess ev m (headers_text cfg (gh_headers (snd x))) = Some (rt, m') /\ (forall n, preprocess ev n (classes_text cfg (snd x)) = Some (body, n)) /\
    (In (gh_guard (snd x)) m -> preprocess ev m (fst x) = Some (rt, m')) /\
    (~ In (gh_guard (snd x)) m -> preprocess ev m (fst x) = Some (rt ++ standard_includes ++ body, gh_guard (snd x) :: m')).
Proof. exact text_one. Qed.
Print Assumptions C63_text.
Example C63_text_applies : build_fine small /\ permutes (fun l => l) /\ runtime_guards no_conditions small small_names small_guards /\ version_fine small /\
  headed small (fun l => l) small_source (small_out, small_header) /\
  exists body, preprocess no_conditions [] small_out =
    Some ([b "class runtime;"; b "class y;"] ++ standard_includes ++ body, [b "GUARD__m_proto"; b "E"; b "J"; b "R"]) /\ In (b "    struct M_type") body.
Proof.
  split; [exact small_fine|]. split; [exact id_permutes|]. split; [exact (small_guarded _)|]. split; [exact small_version|].
  split; [split; [exact small_source_fine|split; [vm_compute; intuition discriminate|exact small_header_ok]]|exact small_lines].
Qed.

(** Several headers, one after the other: each gives its classes once, *)
Theorem C63_all : forall ev cfg srt names gs, build_fine cfg -> permutes srt -> runtime_guards ev cfg names gs -> version_fine cfg ->
  forall ss l m, Forall2 (headed cfg srt) ss l -> paths_apart (map so_path ss) -> (forall s, In s ss -> ~ In (guard_of (so_path s)) m) ->
  exists parts m', preprocess ev m (concat (map fst l)) = Some (concat parts, m') /\
    Forall2 (fun x part => exists rt body, part = rt ++ standard_includes ++ body /\ forall n, preprocess ev n (classes_text cfg (snd x)) = Some (body, n)) l parts.
Proof. exact text_each. Qed.
Print Assumptions C63_all.
(** and a header that has been included gives not one line, and changes no macro. *)
Theorem C63_twice : forall ev cfg srt names gs, build_fine cfg -> permutes srt -> runtime_guards ev cfg names gs -> version_fine cfg ->
  forall ss l x m, Forall2 (headed cfg srt) ss l -> In x l -> exists out m',
  preprocess ev m (concat (map fst l)) = Some (out, m') /\ preprocess ev m (concat (map fst l) ++ fst x) = Some (out, m').
Proof. exact text_twice. Qed.
Print Assumptions C63_twice.
Example C63_all_applies : build_fine real_build /\ permutes (fun l => l) /\ version_fine real_build /\ paths_apart (map so_path [item; order]) /\
  exists l, Forall2 (headed real_build (fun l => l)) [item; order] l.
Proof. exact (conj real_build_fine (conj id_permutes (conj real_version_fine (conj shop_apart (shop_headed _ real_build_fine))))). Qed.

(** The runtime headers of the project meet the condition, whatever the conditions of #if give. *)
Theorem C63_runtime : forall ev, runtime_guards ev real_build real_names real_guards /\ version_fine real_build.
Proof. exact (fun ev => conj (real_runtime_guards ev) real_version_fine). Qed.
Print Assumptions C63_runtime.

(** The conditions of [C63_together] are needed.  A schema with bytes but no repeated bytes,
    together with one that has repeated bytes: in one order the unit does not compile, in the other
    the first schema's objects have another JSON form than in its own header, which its own header
    refuses to read. *)
Theorem C63_order_refuted : exists s1 s2 out1 g1 out2 g2 q t t',
  source_fine s1 /\ source_fine s2 /\ paths_apart [so_path s1; so_path s2] /\ names_together [so_tree s1; so_tree s2] /\
  header_of bare (fun l => l) s1 out1 g1 /\ header_of bare (fun l => l) s2 out2 g2 /\
  unit_ty [g1] = Some [([], b "P", t)] /\ unit_ty [g1; g2] = None /\ unit_ty [g2; g1] = Some [([], b "Q", q); ([], b "P", t')] /\
  serialize t (VMsg [VList []; VList [VPrim (VInt 120)]]) None = (true, b "{""raw"":[120]}", None) /\
  serialize t' (VMsg [VList []; VB64 (b "x")]) None = (true, b "{""raw"":""eA==""}", None) /\
  exists u, deserialize t (dflt t) (b "{""raw"":""eA==""}") None = Some (false, u, None).
Proof. exact order_matters. Qed.
Print Assumptions C63_order_refuted.

(** Two paths that differ in special characters only have one guard: the classes of the second
    schema vanish without a message, from the unit and from the text. *)
Theorem C63_dropped_refuted : exists s1 s2 out1 g1 out2 g2 t u,
  source_fine s1 /\ source_fine s2 /\ so_path s1 <> so_path s2 /\ names_together [so_tree s1; so_tree s2] /\
  header_of bare (fun l => l) s1 out1 g1 /\ header_of bare (fun l => l) s2 out2 g2 /\
  unit_ty [g1] = Some [([], b "M", t)] /\ unit_ty [g2] = Some [([], b "N", u)] /\ unit_ty [g1; g2] = Some [([], b "M", t)] /\
  preprocess no_conditions [] (out1 ++ out2) = preprocess no_conditions [] out1.
Proof. exact classes_vanish. Qed.
Print Assumptions C63_dropped_refuted.

(** There is no import, and a message that is repeated in two schemas, even identically, keeps
    their headers from being included together. *)
Theorem C63_shared_refuted : exists s1 s2 out1 g1 out2 g2 e1 e2,
  source_fine s1 /\ source_fine s2 /\ paths_apart [so_path s1; so_path s2] /\
  header_of bare (fun l => l) s1 out1 g1 /\ header_of bare (fun l => l) s2 out2 g2 /\
  unit_ty [g1] = Some e1 /\ unit_ty [g2] = Some e2 /\ unit_ty [g1; g2] = None /\
  (exists t, In ([], b "Common", t) e1 /\ In ([], b "Common", t) e2).
Proof. exact no_sharing. Qed.
Print Assumptions C63_shared_refuted.

(** A line feed in the path of the source ends the comment with the path: the rest of the path is
    code. *)
Theorem C63_path_refuted : exists s out g lines m,
  source_fine s /\ header_of bare (fun l => l) s out g /\ preprocess no_conditions [] out = Some (b "y.proto" :: lines, m).
Proof. exact path_leaks. Qed.
Print Assumptions C63_path_refuted.
