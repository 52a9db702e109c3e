(** Concrete facts about the files of the project (C39). *)
From Verif Require Import Bytes BaseProofs SpecProto SpecTemplate Template Cpp TemplateProofs CodeTxt HdrText Codes Gen RealBuild.

Definition opt_eqb (x y : option bytes) : bool :=
  match x, y with Some u, Some v => bytes_eqb u v | None, None => true | _, _ => false end.
Definition macro_in (l : list (bytes * option bytes)) (d : bytes * option bytes) : bool :=
  existsb (fun e => bytes_eqb (fst e) (fst d) && opt_eqb (snd e) (snd d)) l.

Lemma macro_in_ok l d : macro_in l d = true -> In d l.
Proof.
  intros H. apply existsb_exists in H as ([n v] & I & E). destruct d as [m w]. cbn [fst snd] in E. apply andb_true_iff in E as [E1 E2].
  apply bytes_eqb_true in E1. subst. destruct v, w; cbn [opt_eqb] in E2; try discriminate; [apply bytes_eqb_true in E2; subst|]; exact I.
Qed.

Lemma incl_check l d : forallb (macro_in l) d = true -> incl d l.
Proof. intros H x X. rewrite forallb_forall in H. now apply macro_in_ok, H. Qed.

(** Every text is a file. *)
Lemma text_file text : forall acc, ~ In LF acc -> exists ls final, rev acc ++ text = file_text ls final /\ getlines acc text = ls /\ Forall line_ok ls /\ line_ok final.
Proof.
  induction text as [|c text IH]; intros acc A.
  - exists [], (rev acc). split; [now rewrite app_nil_r|]. split; [reflexivity|]. split; [constructor|]. intros X. apply in_rev in X. auto.
  - cbn [getlines]. destruct (Ascii.eqb_spec c LF) as [-> |N].
    + destruct (IH []) as (ls & final & E & G & L & F); [intros []|]. exists (rev acc :: ls), final. cbn [rev app] in E. split; [|split; [now rewrite G|split; [|exact F]]].
      * unfold file_text in *. cbn [map concat]. rewrite E. rewrite <- !app_assoc. reflexivity.
      * constructor; [|exact L]. intros X. apply in_rev in X. auto.
    + destruct (IH (c :: acc)) as (ls & final & E & G & L & F); [intros [X|X]; auto|]. exists ls, final. cbn [rev] in E. rewrite <- app_assoc in E. auto.
Qed.

Lemma line_in_text ls final l : In l ls -> exists u v, file_text ls final = u ++ l ++ v.
Proof.
  unfold file_text. induction ls as [|x ls IH]; [intros []|]. intros [-> |H]; cbn [map concat].
  - exists [], ([LF] ++ concat (map (fun l => l ++ [LF]) ls) ++ final). cbn [app]. now rewrite <- !app_assoc.
  - destruct (IH H) as (u & v & E). exists (x ++ [LF] ++ u), v. rewrite <- !app_assoc. now rewrite E.
Qed.

(** The conditions of [copy_exact], as a check. *)
Definition text_fine (n : nat) (text : bytes) : bool :=
  match find_split (b "??") text with Some _ => false | None => true end && forallb (fun l => (length l <? n)%nat) (getlines [] text).

Lemma text_fine_ok n text : text_fine n text = true -> exists ls final, text = file_text ls final /\ getlines [] text = ls /\
  Forall line_ok ls /\ line_ok final /\ Forall (fun l => (length l < n)%nat) ls /\ Forall no_trigraph ls.
Proof.
  intros H. apply andb_true_iff in H as [H1 H2]. destruct (text_file text []) as (ls & final & E & G & L & F); [intros []|]. cbn [rev app] in E.
  exists ls, final. rewrite G in H2. repeat (split; [assumption|]). split.
  - apply Forall_forall. intros l I. rewrite forallb_forall in H2. now apply Nat.ltb_lt, H2.
  - apply Forall_forall. intros l I u c v EL _. destruct (line_in_text ls final l I) as (x & y & EX).
    destruct (find_split (b "??") text) eqn:Q; [discriminate H1|]. apply find_split_none in Q. apply Q. exists (x ++ u), (c :: v ++ y).
    rewrite E, EX, EL. rewrite <- !app_assoc. reflexivity.
Qed.

Lemma real_version_naming : version_naming real_naming.
Proof. exists 3, 0, 0. repeat split; try discriminate. Qed.

(** The macro of a runtime header. *)
Lemma header_exact path text name : is_hh path = true -> template_guard path = name ->
  forallb (fun c => Ascii.eqb c "_" || is_alpha c) name = true -> text_fine 1000 text = true ->
  exists value, embedded real_naming (getlines [] text) value /\ header_macro path text = Some (name, Some (value ++ [LF])).
Proof.
  intros P N M F. apply macro_name_check in M. destruct (text_fine_ok _ _ F) as (ls & final & E & G & L & LF' & LN & T).
  destruct (copy_exact real_naming 1000 ls final name real_version_naming LN L LF' T M) as (out & value & C & EM & D).
  exists value. rewrite G. split; [exact EM|]. unfold header_macro, template. rewrite P, N, E, C, D. reflexivity.
Qed.

(** Sections, computed. *)
Fixpoint split_sections (cur : option (bytes * list bytes)) (ls : list bytes) : option (list (bytes * list bytes)) :=
  match ls with
  | [] => match cur with None => Some [] | Some _ => None end
  | l :: r =>
      match cur with
      | None => if prefixb (b "--- ") l then split_sections (Some (skipn 4 l, [])) r else split_sections None r
      | Some (n, body) => if prefixb (b "------") l then option_map (cons (n, rev body)) (split_sections None r)
                          else split_sections (Some (n, l :: body)) r
      end
  end.

Lemma split_sections_ok ls : forall secs,
  (split_sections None ls = Some secs -> sections ls secs) /\
  (forall n body, Forall (fun l => ~ starts (b "------") l) body -> split_sections (Some (n, body)) ls = Some secs ->
     sections ((b "--- " ++ n) :: rev body ++ ls) secs).
Proof.
  induction ls as [|l ls IH]; intros secs; cbn [split_sections].
  - split; [intros H; injection H as <-; constructor|discriminate].
  - split.
    + destruct (prefixb (b "--- ") l) eqn:E.
      * apply prefixb_spec in E as (r & ->). change (skipn 4 (b "--- " ++ r)) with r. intros H. exact (proj2 (IH secs) r [] (Forall_nil _) H).
      * intros H. apply sc_other; [|now apply IH]. intros X. apply prefixb_spec in X. congruence.
    + intros n body B. destruct (prefixb (b "------") l) eqn:E.
      * destruct (split_sections None ls) as [s|] eqn:Q; [|discriminate]. intros H. injection H as <-. apply sc_section; [now apply Forall_rev|now apply prefixb_spec in E|now apply IH].
      * intros H. pose proof (proj2 (IH secs) n (l :: body)) as X. cbn [rev] in X. rewrite <- app_assoc in X. apply X; [|exact H].
        constructor; [|exact B]. intros Y. apply prefixb_spec in Y. congruence.
Qed.

Lemma code_macros_exact : exists secs, split_sections None (getlines [] code_txt) = Some secs /\
  code_macros = (b "GENERATED__code_txt", Some []) :: map (fun s => (fst s, Some (concat (map (fun l => l ++ [LF]) (snd s))))) secs.
Proof.
  destruct (text_fine_ok 1000 code_txt) as (ls & final & E & G & L & LF' & _ & T); [vm_cast_no_check (eq_refl true)|].
  destruct (split_sections None (getlines [] code_txt)) as [secs|] eqn:Q.
  - exists secs. split; [reflexivity|]. unfold code_macros, template. change (is_hh (b "/repo/source/cpp/code.txt")) with false. cbv iota.
    change (template_guard (b "/repo/source/cpp/code.txt")) with (b "GENERATED__code_txt").
    assert (M : forallb (fun s => forallb (fun c => Ascii.eqb c "_" || is_alpha c) (fst s)) secs = true).
    { assert (X : match split_sections None (getlines [] code_txt) with Some secs => forallb (fun s => forallb (fun c => Ascii.eqb c "_" || is_alpha c) (fst s)) secs | None => true end = true) by (vm_cast_no_check (eq_refl true)).
      rewrite Q in X. exact X. }
    rewrite G in Q. rewrite E at 1. apply process_exact; auto.
    + now apply split_sections_ok.
    + apply Forall_forall. intros s I. rewrite forallb_forall in M. apply macro_name_check. auto.
    + apply macro_name_check. reflexivity.
  - exfalso. assert (X : match split_sections None (getlines [] code_txt) with Some _ => true | None => false end = true) by (vm_cast_no_check (eq_refl true)).
    rewrite Q in X. discriminate X.
Qed.

Lemma code_macros_templates : incl
    [(b "CODE_HEADER", Some CODE_HEADER);
     (b "CODE_JSON_MODEL__HEADER", Some CODE_JSON_MODEL__HEADER);
     (b "CODE_JSON_MODEL__FOOTER", Some CODE_JSON_MODEL__FOOTER);
     (b "CODE_JSON__READ_FIELD__EMPTY", Some CODE_JSON__READ_FIELD__EMPTY);
     (b "CODE_JSON__READ_FIELD__HEADER", Some CODE_JSON__READ_FIELD__HEADER);
     (b "CODE_JSON__READ_FIELD__ITEM", Some CODE_JSON__READ_FIELD__ITEM);
     (b "CODE_JSON__READ_FIELD__FOOTER", Some CODE_JSON__READ_FIELD__FOOTER);
     (b "CODE_JSON__WRITE__EMPTY", Some CODE_JSON__WRITE__EMPTY);
     (b "CODE_JSON__WRITE__HEADER", Some CODE_JSON__WRITE__HEADER);
     (b "CODE_JSON__WRITE__ITEM", Some CODE_JSON__WRITE__ITEM);
     (b "CODE_JSON__WRITE__FOOTER", Some CODE_JSON__WRITE__FOOTER);
     (b "CODE_JSON__EMPTY__EMPTY", Some CODE_JSON__EMPTY__EMPTY);
     (b "CODE_JSON__EMPTY__HEADER", Some CODE_JSON__EMPTY__HEADER);
     (b "CODE_JSON__EMPTY__ITEM", Some CODE_JSON__EMPTY__ITEM);
     (b "CODE_JSON__EMPTY__FOOTER", Some CODE_JSON__EMPTY__FOOTER);
     (b "CODE_JSON__CLEAR__EMPTY", Some CODE_JSON__CLEAR__EMPTY);
     (b "CODE_JSON__CLEAR__HEADER", Some CODE_JSON__CLEAR__HEADER);
     (b "CODE_JSON__CLEAR__ITEM", Some CODE_JSON__CLEAR__ITEM);
     (b "CODE_JSON__CLEAR__FOOTER", Some CODE_JSON__CLEAR__FOOTER);
     (b "CODE_JSON__EQUAL__EMPTY", Some CODE_JSON__EQUAL__EMPTY);
     (b "CODE_JSON__EQUAL__HEADER", Some CODE_JSON__EQUAL__HEADER);
     (b "CODE_JSON__EQUAL__ITEM", Some CODE_JSON__EQUAL__ITEM);
     (b "CODE_JSON__EQUAL__FOOTER", Some CODE_JSON__EQUAL__FOOTER);
     (b "CODE_JSON__SWAP__EMPTY", Some CODE_JSON__SWAP__EMPTY);
     (b "CODE_JSON__SWAP__HEADER", Some CODE_JSON__SWAP__HEADER);
     (b "CODE_JSON__SWAP__ITEM", Some CODE_JSON__SWAP__ITEM);
     (b "CODE_JSON__SWAP__FOOTER", Some CODE_JSON__SWAP__FOOTER);
     (b "CODE_JSON__INDEX__EMPTY", Some CODE_JSON__INDEX__EMPTY);
     (b "CODE_JSON__INDEX__HEADER", Some CODE_JSON__INDEX__HEADER);
     (b "CODE_JSON__INDEX__HEADER_OBF", Some CODE_JSON__INDEX__HEADER_OBF);
     (b "CODE_JSON__INDEX__ITEM", Some CODE_JSON__INDEX__ITEM);
     (b "CODE_JSON__INDEX__FOOTER", Some CODE_JSON__INDEX__FOOTER);
     (b "CODE_ENTITY", Some CODE_ENTITY);
     (b "CODE_ENTITY_JSON", Some CODE_ENTITY_JSON)]
    code_macros.
Proof.
  destruct code_macros_exact as (secs & Q & ->). apply incl_check.
  match goal with |- forallb (macro_in _) ?d = true =>
    assert (X : match split_sections None (getlines [] code_txt) with
                | Some secs => forallb (macro_in ((b "GENERATED__code_txt", Some []) :: map (fun s => (fst s, Some (concat (map (fun l => l ++ [LF]) (snd s))))) secs)) d
                | None => false end = true) by (vm_cast_no_check (eq_refl true)) end.
  rewrite Q in X. exact X.
Qed.

Definition runtime_header (path text name value : bytes) : Prop :=
  exists v, embedded real_naming (getlines [] text) v /\ value = v ++ [LF] /\ header_macro path text = Some (name, Some value).

Lemma header_value_exact path text name : is_hh path = true -> template_guard path = name ->
  forallb (fun c => Ascii.eqb c "_" || is_alpha c) name = true -> text_fine 1000 text = true ->
  runtime_header path text name (header_value path text).
Proof.
  intros P N M F. destruct (header_exact path text name P N M F) as (v & E & H). exists v. split; [exact E|]. unfold header_value. rewrite H. auto.
Qed.

Lemma header_macros_real :
  runtime_header (b "/repo/source/cpp/protogen.hh") protogen_hh (b "GENERATED__protogen_hh") (b_protogen real_build) /\
  runtime_header (b "/repo/source/cpp/json.hh") json_hh (b "GENERATED__json_hh") (b_json real_build) /\
  runtime_header (b "/repo/source/cpp/json-array.hh") json_array_hh (b "GENERATED__json_array_hh") (b_array real_build) /\
  runtime_header (b "/repo/source/cpp/json-base64.hh") json_base64_hh (b "GENERATED__json_base___hh") (b_base64 real_build) /\
  runtime_header (b "/repo/source/cpp/json-number.hh") json_number_hh (b "GENERATED__json_number_hh") (b_number real_build) /\
  runtime_header (b "/repo/source/cpp/json-string.hh") json_string_hh (b "GENERATED__json_string_hh") (b_string real_build).
Proof.
  cbv [real_build b_protogen b_json b_array b_base64 b_number b_string].
  refine (conj _ (conj _ (conj _ (conj _ (conj _ _)))));
    (apply header_value_exact; [vm_cast_no_check (eq_refl true)| vm_compute; reflexivity |vm_cast_no_check (eq_refl true)|vm_cast_no_check (eq_refl true)]).
Qed.

Lemma trigraph_witness : exists line out,
  copy 10 (b "_3_0_0") (line ++ [LF]) (b "M") = Some out /\ versioned (b "_3_0_0") line line /\
  defines out = [(b "M", Some (b "// what|" ++ [LF; LF]))] /\ line = b "// what??!".
Proof.
  exists (b "// what??!"). eexists. split; [vm_compute; reflexivity|]. split; [|split; vm_compute; reflexivity].
  exists [b "// what??!"]. split; [discriminate|]. split; [|split; reflexivity]. repeat constructor. apply find_split_none. vm_compute. reflexivity.
Qed.
