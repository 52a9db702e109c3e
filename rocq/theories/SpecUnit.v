(** Schemas whose headers are included together, and texts that only comment. *)
From Verif Require Import Bytes Num Types ProtoLex ProtoParse SpecProto SpecTemplate SpecPrint Cpp Gen MainC SpecGen SpecCpp SpecFile SpecOpts SpecProgram Unit.

(** ** Schemas *)

(** No structure is declared twice, or is a namespace of another schema. *)
Definition names_together (ps : list proto) : Prop :=
  NoDup (concat (map (fun p => concat (map structs (pr_messages p))) ps)) /\
  forall p p' m m' ns, In p ps -> In p' ps -> In m (pr_messages p) -> In m' (pr_messages p') -> encloses ns (m_package m) -> ~ In ns (structs m').

(** All of those that have bytes have repeated bytes, or none has. *)
Definition bytes_together (ps : list proto) : Prop :=
  forall p p', In p ps -> In p' ps -> uses (pr_messages p) (fun f => f_type f = FBytes) ->
    uses (pr_messages p') (fun f => f_repeated f = true /\ f_type f = FBytes) ->
    uses (pr_messages p) (fun f => f_repeated f = true /\ f_type f = FBytes).

(** A source file and its syntax tree. *)
Record source := Source { so_text : bytes; so_path : bytes; so_tree : proto }.
Definition source_fine (s : source) : Prop :=
  parse (so_text s) (so_path s) = POk (so_tree s) /\ proto_fine (so_tree s) /\
  forall h, wanted (pr_messages (so_tree s)) h -> cpp_fine (so_tree s) h.

(** No two paths that differ only in characters other than letters and digits. *)
Fixpoint paths_apart (l : list bytes) : Prop :=
  match l with [] => True | x :: r => (forall y, In y r -> ~ alike x y) /\ paths_apart r end.

(** The header that the compiler prints for a source: its text, and what it is for C++. *)
Definition header_of (cfg : build) (srt : list field -> list field) (s : source) (out : bytes) (g : gheader) : Prop :=
  run_text cfg srt (so_text s) (so_path s) = CExit 0 [] out (Some (gh_headers g, gh_classes g)) /\ gh_guard g = guard_of (so_path s).

(** The same with the type of every class. *)
Definition gives (cfg : build) (srt : list field -> list field) (s : source) (x : bytes * gheader * cenv) : Prop :=
  let '(out, g, env) := x in header_of cfg srt s out g /\ program_ty (gh_headers g) (gh_classes g) = Some env.

(** ** Texts *)

(** The text ends with a line feed that ends a line. *)
Definition whole_lines (t : bytes) : Prop := exists u c, t = u ++ [c; LF] /\ c <> "\"%char /\ c <> "/"%char.

(** Nothing if [g] is defined.  Otherwise [g] is defined after it; of the other macros only
    [names] may change. *)
Definition guarded (ev : list bytes -> bytes -> bool) (names : list bytes) (g t : bytes) : Prop :=
  whole_lines t /\
  (forall m, In g m -> preprocess ev m t = Some ([], m)) /\
  (forall m, ~ In g m -> exists out m', preprocess ev m t = Some (out, m') /\ In g m' /\
     forall w, w <> g -> ~ In w names -> (In w m' <-> In w m)).

(** The runtime headers as they are printed. *)
Definition runtime_texts (cfg : build) : list bytes :=
  map detab [b_protogen cfg; b_json cfg; b_array cfg; b_base64 cfg; b_number cfg; b_string cfg].
Definition runtime_guards (ev : list bytes -> bytes -> bool) (cfg : build) (names gs : list bytes) : Prop :=
  Forall2 (guarded ev names) gs (runtime_texts cfg) /\
  (forall g, In g gs -> ~ In g names) /\ forall w, In w (names ++ gs) -> ~ starts (b "GUARD_") w.

(** A version as CMakeLists.txt makes it. *)
Definition version_fine (cfg : build) : Prop :=
  ~ In LF (b_version cfg) /\ ~ In "?"%char (b_version cfg) /\ Forall (fun c => word_char c = true) (b_naming cfg).

(** code.txt:36-45. *)
Definition standard_includes : list bytes :=
  map (fun h => b "#include <" ++ h ++ b ">")
    [b "string"; b "stdint.h"; b "iterator"; b "sstream"; b "iostream"; b "vector"; b "list"; b "utility"; b "stdexcept"; b "forward_list"].
Definition classes_text (cfg : build) (g : gheader) : bytes := concat (map (class_text (b_naming cfg)) (gh_classes g)).

(** A source and the header that is printed for it. *)
Definition headed (cfg : build) (srt : list field -> list field) (s : source) (x : bytes * gheader) : Prop :=
  source_fine s /\ ~ In LF (so_path s) /\ header_of cfg srt s (fst x) (snd x).
