(** C39: the template tool. *)
From Verif Require Import Bytes SpecProto SpecTemplate Template Cpp TemplateProofs TemplateReal CodeTxt HdrText Codes Gen RealBuild.

(** The header made of [ls] becomes one macro whose value, as a C++ string literal, is the
    text of the lines after the replacement of the version, and one more line feed.  The
    text after the last line feed, [final], is lost. *)
Theorem C39_header : forall naming n ls final name,
  version_naming naming -> Forall (fun l => (length l < n)%nat) ls ->
  Forall line_ok ls -> line_ok final -> Forall no_trigraph ls -> macro_name name ->
  exists out value, copy n naming (file_text ls final) name = Some out /\
    embedded naming ls value /\ defines out = [(name, Some (value ++ [LF]))].
Proof. exact copy_exact. Qed.
Print Assumptions C39_header.

(** The replacement is a function of the line. *)
Theorem C39_version : forall naming line x y,
  version_naming naming -> versioned naming line x -> versioned naming line y -> x = y.
Proof. exact versioned_unique. Qed.
Print Assumptions C39_version.

(** The sections of a template file become macros with the text of their lines. *)
Theorem C39_sections : forall ls final secs guard,
  sections ls secs -> Forall line_ok ls -> line_ok final -> Forall no_trigraph ls ->
  Forall (fun s => macro_name (fst s)) secs -> macro_name guard ->
  defines (process (file_text ls final) guard) =
  (guard, Some []) :: map (fun s => (fst s, Some (concat (map (fun l => l ++ [LF]) (snd s))))) secs.
Proof. exact process_exact. Qed.
Print Assumptions C39_sections.

(** The templates used by the generator. *)
Theorem C39_templates : incl
    [(b "CODE_HEADER", Some CODE_HEADER);
     (b "CODE_JSON_MODEL__HEADER", Some CODE_JSON_MODEL__HEADER);
     (b "CODE_JSON_MODEL__FOOTER", Some CODE_JSON_MODEL__FOOTER);
     (b "CODE_JSON__READ_FIELD__EMPTY", Some CODE_JSON__READ_FIELD__EMPTY);
     (b "CODE_JSON__READ_FIELD__HEADER", Some CODE_JSON__READ_FIELD__HEADER);
     (b "CODE_JSON__READ_FIELD__ITEM", Some CODE_JSON__READ_FIELD__ITEM);
     (b "CODE_JSON__READ_FIELD__FOOTER", Some CODE_JSON__READ_FIELD__FOOTER);
     (b "CODE_JSON__WRITE__EMPTY", Some CODE_JSON__WRITE__EMPTY);
     (b "CODE_JSON__WRITE__HEADER", Some CODE_JSON__WRITE__HEADER);
     (b "CODE_JSON__WRITE__ITEM", Some CODE_JSON__WRITE__ITEM);
     (b "CODE_JSON__WRITE__FOOTER", Some CODE_JSON__WRITE__FOOTER);
     (b "CODE_JSON__EMPTY__EMPTY", Some CODE_JSON__EMPTY__EMPTY);
     (b "CODE_JSON__EMPTY__HEADER", Some CODE_JSON__EMPTY__HEADER);
     (b "CODE_JSON__EMPTY__ITEM", Some CODE_JSON__EMPTY__ITEM);
     (b "CODE_JSON__EMPTY__FOOTER", Some CODE_JSON__EMPTY__FOOTER);
     (b "CODE_JSON__CLEAR__EMPTY", Some CODE_JSON__CLEAR__EMPTY);
     (b "CODE_JSON__CLEAR__HEADER", Some CODE_JSON__CLEAR__HEADER);
     (b "CODE_JSON__CLEAR__ITEM", Some CODE_JSON__CLEAR__ITEM);
     (b "CODE_JSON__CLEAR__FOOTER", Some CODE_JSON__CLEAR__FOOTER);
     (b "CODE_JSON__EQUAL__EMPTY", Some CODE_JSON__EQUAL__EMPTY);
     (b "CODE_JSON__EQUAL__HEADER", Some CODE_JSON__EQUAL__HEADER);
     (b "CODE_JSON__EQUAL__ITEM", Some CODE_JSON__EQUAL__ITEM);
     (b "CODE_JSON__EQUAL__FOOTER", Some CODE_JSON__EQUAL__FOOTER);
     (b "CODE_JSON__SWAP__EMPTY", Some CODE_JSON__SWAP__EMPTY);
     (b "CODE_JSON__SWAP__HEADER", Some CODE_JSON__SWAP__HEADER);
     (b "CODE_JSON__SWAP__ITEM", Some CODE_JSON__SWAP__ITEM);
     (b "CODE_JSON__SWAP__FOOTER", Some CODE_JSON__SWAP__FOOTER);
     (b "CODE_JSON__INDEX__EMPTY", Some CODE_JSON__INDEX__EMPTY);
     (b "CODE_JSON__INDEX__HEADER", Some CODE_JSON__INDEX__HEADER);
     (b "CODE_JSON__INDEX__HEADER_OBF", Some CODE_JSON__INDEX__HEADER_OBF);
     (b "CODE_JSON__INDEX__ITEM", Some CODE_JSON__INDEX__ITEM);
     (b "CODE_JSON__INDEX__FOOTER", Some CODE_JSON__INDEX__FOOTER);
     (b "CODE_ENTITY", Some CODE_ENTITY);
     (b "CODE_ENTITY_JSON", Some CODE_ENTITY_JSON)]
    code_macros.
Proof. exact code_macros_templates. Qed.
Print Assumptions C39_templates.

(** The runtime headers of the project become the macros that cppgen.cc:566-575 uses, with
    their text as value ([runtime_header]). *)
Theorem C39_runtime_headers :
  runtime_header (b "/repo/source/cpp/protogen.hh") protogen_hh (b "GENERATED__protogen_hh") (b_protogen real_build) /\
  runtime_header (b "/repo/source/cpp/json.hh") json_hh (b "GENERATED__json_hh") (b_json real_build) /\
  runtime_header (b "/repo/source/cpp/json-array.hh") json_array_hh (b "GENERATED__json_array_hh") (b_array real_build) /\
  runtime_header (b "/repo/source/cpp/json-base64.hh") json_base64_hh (b "GENERATED__json_base___hh") (b_base64 real_build) /\
  runtime_header (b "/repo/source/cpp/json-number.hh") json_number_hh (b "GENERATED__json_number_hh") (b_number real_build) /\
  runtime_header (b "/repo/source/cpp/json-string.hh") json_string_hh (b "GENERATED__json_string_hh") (b_string real_build).
Proof. exact header_macros_real. Qed.
Print Assumptions C39_runtime_headers.

(** "For all lines" fails for a line with a trigraph, which C++11 replaces in the literal. *)
Theorem C39_trigraph_refuted : exists line out,
  copy 10 (b "_3_0_0") (line ++ [LF]) (b "M") = Some out /\ versioned (b "_3_0_0") line line /\
  defines out = [(b "M", Some (b "// what|" ++ [LF; LF]))] /\ line = b "// what??!".
Proof. exact trigraph_witness. Qed.
Print Assumptions C39_trigraph_refuted.

(** All trigraphs, and all escapes, in the evaluation of literals. *)
Example C39_literal : cpp_lit (b "??=??'??(??)??!??<??>??-??/n??""") = None /\
  cpp_lit (b "??=??'??(??)??!??<??>??-??/n???-?") = Some (b "#^[]|{}~" ++ [LF] ++ b "?~?") /\
  cpp_lit (b "\'\""\?\\\a\b\f\n\r\t\v\18\1234\x41g\xFf") =
  Some (b "'""?\" ++ map chr [7; 8; 12; 10; 13; 9; 11; 1; 56; 83; 52; 65; 103; 255]) /\
  cpp_lit (b "\x100") = None /\ cpp_lit (b "\400") = None /\ cpp_lit (b "\q") = None.
Proof. repeat split; vm_compute; reflexivity. Qed.

Definition ex_lines : list bytes :=
  [b "#include ""x.hh"" // AUTO-REMOVE"; b "namespace protogen_X_Y_Z { char c = '\n'; }"; []; b "// _X_Y_Z_X_Y_Z"].

Example C39_header_applies :
  version_naming (b "_3_0_0") /\ Forall (fun l => (length l < 50)%nat) ex_lines /\
  Forall line_ok ex_lines /\ line_ok (b "lost") /\ Forall no_trigraph ex_lines /\ macro_name (b "GENERATED__x_hh").
Proof.
  split; [exists 3, 0, 0; repeat split; try discriminate; vm_compute; reflexivity|].
  split; [unfold ex_lines; repeat constructor|]. split; [unfold ex_lines, line_ok; repeat constructor; not_in|].
  split; [unfold line_ok; not_in|]. split; [unfold ex_lines; repeat constructor; apply no_quest; not_in|].
  apply macro_name_check. vm_compute. reflexivity.
Qed.

Example C39_header_value :
  option_map defines (copy 50 (b "_3_0_0") (file_text ex_lines (b "lost")) (b "GENERATED__x_hh")) =
  Some [(b "GENERATED__x_hh", Some (text_of [b "namespace protogen_3_0_0 { char c = '\n'; }"; []; b "// _3_0_0_3_0_0"; []]))].
Proof. vm_compute. reflexivity. Qed.

Example C39_version_applies : versioned (b "_3_0_0") (b "a_X_Y_Zb_X_Y_Z") (b "a_3_0_0b_3_0_0").
Proof.
  exists [b "a"; b "b"; []]. split; [discriminate|]. split; [|split; vm_compute; reflexivity].
  repeat constructor; (apply find_split_none; vm_compute; reflexivity).
Qed.

Definition ex_sections : list bytes := [b "junk"; b "--- A"; b "x ""$1$"""; b "--- not a section"; b "------"; []; b "--- B"; b "-------- end"].

Example C39_sections_applies :
  sections ex_sections [(b "A", [b "x ""$1$"""; b "--- not a section"]); (b "B", [])] /\
  Forall line_ok ex_sections /\ Forall no_trigraph ex_sections.
Proof.
  split.
  - unfold ex_sections. apply sc_other; [intros (r & H); discriminate H|].
    apply (sc_section (b "A") [b "x ""$1$"""; b "--- not a section"] (b "------")); [repeat constructor; intros (r & H); discriminate H|now exists []|].
    apply sc_other; [intros (r & H); discriminate H|].
    apply (sc_section (b "B") [] (b "-------- end")); [constructor|now exists (b "-- end")|constructor].
  - split; unfold ex_sections, line_ok; repeat constructor; (apply no_quest; not_in) || not_in.
Qed.

(** A section without end swallows the closing line of the file. *)
Example C39_unclosed : defines (process (file_text [b "--- A"; b "x"] []) (b "G")) = [(b "G", Some []); (b "A", None)].
Proof. vm_compute. reflexivity. Qed.

