(** The generated file, and the reasons for which there is none. *)
From Coq Require Import Permutation.
From Verif Require Import Bytes Num Types ProtoLex ProtoParse SpecPrint Cpp Gen MainC SpecGen SpecCpp.

(** ** The configuration: runtime headers without dollar sign and NUL *)
Definition plain_text (s : bytes) : Prop := ~ In "$"%char s /\ ~ In NUL s.
Definition build_fine (cfg : build) : Prop :=
  Forall plain_text [b_protogen cfg; b_json cfg; b_array cfg; b_base64 cfg; b_number cfg; b_string cfg].

(** ** The headers included *)
Definition uses (msgs : list message) (P : field -> Prop) : Prop :=
  exists m f, In m msgs /\ In f (m_fields m) /\ P f.
Definition numeric (f : field) : Prop := f_type f <> FString /\ f_type f <> FBytes /\ f_type f <> FMessage.
Definition wanted (msgs : list message) (h : headers) : Prop :=
  (h_array h = true <-> uses msgs (fun f => f_repeated f = true)) /\
  (h_base64 h = true <-> uses msgs (fun f => f_repeated f = true /\ f_type f = FBytes)) /\
  (h_number h = true <-> uses msgs numeric) /\
  (h_string h = true <-> uses msgs (fun f => f_type f = FString)).
Definition headers_text (cfg : build) (h : headers) : bytes :=
  detab (b_protogen cfg) ++ detab (b_json cfg) ++
  (if h_array h then detab (b_array cfg) else []) ++ (if h_base64 h then detab (b_base64 cfg) else []) ++
  (if h_number h then detab (b_number cfg) else []) ++ (if h_string h then detab (b_string cfg) else []).

(** ** The file *)
Definition word_char (c : ascii) : bool :=
  let z := code c in
  (65 <=? z) && (z <=? 90) || (97 <=? z) && (z <=? 122) || (48 <=? z) && (z <=? 57) || (z =? 95).
Definition guard_of (file : bytes) : bytes := b "GUARD_" ++ map (fun c => if word_char c then c else "_"%char) file.

(** The classes of the messages at the positions [order]. *)
Definition classes_of (p : proto) (order : list nat) : list cls :=
  let o := pr_options p in
  concat (map (fun k => match nth_error (pr_messages p) k with
                        | Some m => [class_of (pr_messages p) (flag o (b "obfuscate_strings"))
                                       (flag o (b "cpp_use_lists")) (flag o (b "number_names")) m]
                        | None => [] end) order).
Definition output_text (cfg : build) (file : bytes) (h : headers) (cs : list cls) : bytes :=
  headers_text cfg h ++ head_text (b_version cfg) file (guard_of file) ++
  concat (map (class_text (b_naming cfg)) cs) ++
  ln (b "#endif // " ++ guard_of file).

(** ** Failures: message, line and column *)
Definition field_failure (f : field) (e : bytes) (line col : Z) : Prop :=
  (exists o, o_find (b "transient") (f_options f) = Some o /\ o_type o <> OBoolean /\
     e = b "The value for 'transient' must be a boolean" /\ line = o_line o /\ col = 1) \/
  (transient f = false /\ exists o, o_find (b "name") (f_options f) = Some o /\ o_type o <> OString /\
     e = b "The value for 'name' must be a string" /\ line = o_line o /\ col = 1) \/
  (transient f = false /\ (In "'"%char (given_name f) \/ In """"%char (given_name f)) /\
     e = b "option 'name' in the field '" ++ f_name f ++ b "' must not contain quotes" /\ line = 1 /\ col = 1).
Definition message_failure (m : message) (e : bytes) (line col : Z) : Prop :=
  ((64 < length (m_fields m))%nat /\ e = b "more than 64 fields in message '" ++ m_name m ++ b "'" /\ line = 0 /\ col = 0) \/
  exists f, In f (m_fields m) /\ field_failure f e line col.
Definition failure (p : proto) (e : bytes) (line col : Z) : Prop :=
  (exists n o, In n file_flags /\ o_find n (pr_options p) = Some o /\ o_type o <> OBoolean /\
     e = b "The value for '" ++ n ++ b "' must be a boolean" /\ line = o_line o /\ col = 1) \/
  (circular (pr_messages p) e /\ line = 0 /\ col = 0) \/
  (exists m, In m (pr_messages p) /\ message_failure m e line col).

(** A message type resolved. *)
Definition ref_fine (msgs : list message) (f : field) : Prop :=
  f_type f = FMessage -> exists k m, f_ref f = Some k /\ nth_error msgs k = Some m.

(** ** The program *)

(** A sorting routine only reorders. *)
Definition permutes (srt : list field -> list field) : Prop := forall l, Permutation (srt l) l.

(** What the compiler does with the syntax tree [p] of the file: prints the header of the
    sorted tree, or reports one of the failures after having printed something. *)
Definition compiles (cfg : build) (srt : list field -> list field) (path : bytes) (p : proto) (r : crun) : Prop :=
  (proto_fine p /\ exists h order, wanted (pr_messages p) h /\ well_ordered (pr_messages p) order /\
     let cs := classes_of (sort_fields srt p) order in
     r = CExit 0 [] (output_text cfg path h cs) (Some (h, cs))) \/
  (~ proto_fine p /\ exists t e l c, failure p e l c /\ r = CExit 1 (report path e l c) t None).
