(** From the schema to the behaviour of the generated classes. *)
From Coq Require Import Lia Permutation.
From Verif Require Import Bytes BaseProofs Num Types Read Write SpecJson SpecInterp SpecWrite WriteProofs InterpProofs ProtoLex ProtoParse SpecProto SpecTemplate Cpp Gen MainC SpecGen SpecCpp SpecFile SpecOpts
  SortProofs PRunProofs PTermProofs PAcceptProofs GenText GenFile BackProofs BackMore SpecProgram ProgramProofs NameProofs CheckProofs SpecEnd.

(** ** Names of fields *)
Lemma parsed_names text file p m f : parse text file = POk p -> In m (pr_messages p) -> In f (m_fields m) -> ident (f_name f).
Proof.
  intros E I J. pose proof (parse_no_runtime (length text + 3) text file) as W. fold (parse text file) in W. rewrite E in W.
  destruct W as [[W _] _]. rewrite Forall_forall in W. destruct (W m I) as [_ A]. rewrite Forall_forall in A.
  destruct (A f J) as [(_ & _ & N & _) _].
  assert (X : forall w, (match w with [] => false | c :: r => (let z := code c in (65 <=? z) && (z <=? 90) || (97 <=? z) && (z <=? 122) || (z =? 95)) &&
                         forallb (fun c => let z := code c in (65 <=? z) && (z <=? 90) || (97 <=? z) && (z <=? 122) || (z =? 95) || (48 <=? z) && (z <=? 57)) r end) = true -> ident w).
  { intros [|c r]; [discriminate|]. cbv zeta. rewrite andb_true_iff, forallb_forall. intros (P & Q). cbn [ident]. split; [unfold pletter; lia|]. apply Forall_forall. intros d D. specialize (Q d D).
    unfold pletter, pdigit. lia. }
  destruct N as [[N _]|[N|N]]; [exact N| |]; rewrite N; apply X; vm_compute; reflexivity.
Qed.

Lemma ident_clean w : ident w -> clean true w /\ literal_fine w.
Proof.
  intros H. assert (X : Forall (fun c => pletter c \/ pdigit c) w) by (destruct w as [|c r]; [destruct H|]; destruct H; constructor; auto).
  rewrite Forall_forall in X. split.
  - apply Forall_forall. intros c C. specialize (X c C). unfold pletter, pdigit in X. unfold raw_char. lia.
  - assert (Y : forall c, (code c < 48 \/ 57 < code c < 65 \/ 90 < code c < 95) -> ~ In c w) by (intros c C I; specialize (X c I); unfold pletter, pdigit in X; lia).
    unfold literal_fine. refine (conj _ (conj _ (conj _ (conj _ _)))).
    + apply Y. left. vm_compute. reflexivity.
    + apply Y. right. right. vm_compute. auto.
    + apply Y. left. vm_compute. reflexivity.
    + apply Y. left. vm_compute. reflexivity.
    + apply no_quest_tri, Y. right. left. vm_compute. auto.
Qed.

Lemma NoDup_map_filter {A B} (g : A -> B) t l : NoDup (map g l) -> NoDup (map g (filter t l)).
Proof.
  induction l as [|x l IH]; [constructor|]. cbn [map filter]. intros N. inversion_clear N as [|? ? N1 N2]. destruct (t x); [|now apply IH].
  cbn [map]. constructor; [|now apply IH]. intros I. apply N1. apply in_map_iff in I as (y & <- & Y). apply filter_In in Y as (Y & _). now apply in_map.
Qed.

(** Without obfuscation, numbers and options [name]: the names of the fields. *)
Lemma plain_wire text path p : parse text path = POk p ->
  flag (pr_options p) (b "number_names") = false -> flag (pr_options p) (b "obfuscate_strings") = false ->
  (forall m, In m (pr_messages p) -> NoDup (map f_name (m_fields m))) ->
  (forall m f, In m (pr_messages p) -> In f (m_fields m) -> transient f = false -> given_name f = f_name f) ->
  wire_fine true p /\ forall m f, In m (pr_messages p) -> In f (written m) -> wire p f = f_name f /\ literal_fine (json_label false f).
Proof.
  intros P N O D G.
  assert (W : forall m f, In m (pr_messages p) -> In f (written m) -> wire p f = f_name f /\ ident (f_name f)).
  { intros m f M F. unfold written in F. apply filter_In in F as (F & T). apply negb_true_iff in T. unfold wire. rewrite N, O. cbn [effective json_label].
    split; [exact (G m f M F T)|]. exact (parsed_names text path p m f P M F). }
  split.
  - intros m M. split.
    + rewrite (map_ext_in _ f_name) by (intros f F; exact (proj1 (W m f M F))). unfold written. now apply NoDup_map_filter, D.
    + intros f F. destruct (W m f M F) as (-> & I). now apply ident_clean.
  - intros m f M F. destruct (W m f M F) as (X & I). split; [exact X|]. cbn [json_label]. unfold written in F. apply filter_In in F as (F & T). apply negb_true_iff in T.
    rewrite (G m f M F T). now apply ident_clean.
Qed.

(** ** Types of the program *)
Lemma means_map p order T env : means p order T env ->
  map fst env = concat (map (fun k => match nth_error (pr_messages p) k with Some m => [(m_package m, m_name m)] | None => [] end) order).
Proof. induction 1 as [|k e order env (m & M & ->) _ IH]; [reflexivity|]. cbn [map concat fst]. now rewrite M, IH. Qed.

Lemma order_seq msgs order : well_ordered msgs order -> Permutation order (seq 0 (length msgs)).
Proof.
  intros (A & B & _). apply NoDup_Permutation; [exact B|apply seq_NoDup|]. intros k. rewrite A, in_seq. lia.
Qed.

Lemma seq_nth {A B} (g : A -> B) (l : list A) : concat (map (fun k => match nth_error l k with Some m => [g m] | None => [] end) (seq 0 (length l))) = map g l.
Proof.
  induction l as [|x l IH]; [reflexivity|]. cbn [length seq map concat nth_error app]. f_equal. rewrite <- IH, <- seq_shift, map_map. reflexivity.
Qed.

Lemma env_perm p order T env : well_ordered (pr_messages p) order -> means p order T env ->
  Permutation (map fst env) (map (fun m => (m_package m, m_name m)) (pr_messages p)).
Proof.
  intros O M. rewrite (means_map _ _ _ _ M), <- (seq_nth (fun m => (m_package m, m_name m))).
  apply order_seq in O. rewrite <- !flat_map_concat_map. now apply Permutation_flat_map.
Qed.

Lemma sorted_names srt p : map (fun m => (m_package m, m_name m)) (pr_messages (sort_fields srt p)) = map (fun m => (m_package m, m_name m)) (pr_messages p).
Proof. cbn [sort_fields pr_messages]. rewrite map_map. reflexivity. Qed.

Lemma end_types cfg srt text path p : build_fine cfg -> permutes srt -> parse text path = POk p -> proto_fine p ->
  (forall h, wanted (pr_messages p) h -> cpp_fine p h) ->
  exists out h cs env, run_text cfg srt text path = CExit 0 [] out (Some (h, cs)) /\ program_ty h cs = Some env /\
    Permutation (map fst env) (map (fun m => (m_package m, m_name m)) (pr_messages p)) /\
    forall pkg name t, In (pkg, name, t) env -> lookup_ok t /\ (forall strict, wire_fine strict p -> tables_ok strict t).
Proof.
  intros B S P F C. destruct (compiled_program cfg srt text path p B S P F C) as (h & order & T & env & E & W & O & A1 & A2 & A3).
  assert (O' : well_ordered (pr_messages (sort_fields srt p)) order) by now apply sorted_ordered.
  eexists _, h, _, env. split; [exact E|]. split; [exact A1|]. split.
  - rewrite <- (sorted_names srt p). exact (env_perm _ _ _ _ O' A2).
  - intros pkg name t I. destruct (means_in _ _ _ _ A2 _ _ _ I) as (k & m & M & _ & _ & ->).
    assert (K : (k < length (pr_messages (sort_fields srt p)))%nat) by (apply nth_error_Some; congruence). split.
    + exact (solves_lookup _ _ _ _ O' A3 k K).
    + intros strict X. refine (solves_tables strict _ h T order _ O' A3 _ k K); [|now apply sorted_wire_fine].
      apply sorted_refs; [exact S|]. exact (parsed_refs text path p P).
Qed.

(** ** The runtime theorems for generated classes *)
Lemma end_env cfg srt text path p env : build_fine cfg -> permutes srt -> parse text path = POk p -> proto_fine p ->
  (forall h, wanted (pr_messages p) h -> cpp_fine p h) -> compiles cfg srt text path env ->
  forall pkg name t, In (pkg, name, t) env -> lookup_ok t /\ (forall strict, wire_fine strict p -> tables_ok strict t).
Proof.
  intros B S P F C (out & h & cs & R & E). destruct (end_types cfg srt text path p B S P F C) as (out' & h' & cs' & env' & R' & E' & _ & X).
  rewrite R in R'. injection R' as <- <- <-. rewrite E in E'. injection E' as <-. exact X.
Qed.

Lemma end_writes cfg srt text path p env strict : build_fine cfg -> permutes srt -> parse text path = POk p -> proto_fine p ->
  (forall h, wanted (pr_messages p) h -> cpp_fine p h) -> wire_fine strict p -> compiles cfg srt text path env ->
  forall pkg name t v po, In (pkg, name, t) env -> jsonable (po_ea po) strict t v ->
  exists out, serialize t v po = (true, out, clear_params po) /\ jtext strict (tojson (po_sn po) t v) out.
Proof.
  intros B S P F C W X pkg name t v po I J. destruct (end_env cfg srt text path p env B S P F C X pkg name t I) as (_ & T). exact (serialize_jtext strict t v po (T strict W) J).
Qed.

Lemma end_reads cfg srt text path p env strict : build_fine cfg -> permutes srt -> parse text path = POk p -> proto_fine p ->
  (forall h, wanted (pr_messages p) h -> cpp_fine p h) -> compiles cfg srt text path env ->
  forall pkg name t v j inp po, In (pkg, name, t) env -> jdoc strict j inp -> has_ty t v = true ->
  exists po', deserialize t v inp po = Some (match fst (interp t v j) with RGood => true | _ => false end, snd (interp t v j), po').
Proof.
  intros B S P F C X pkg name t v j inp po I J H. destruct (end_env cfg srt text path p env B S P F C X pkg name t I) as (L & _). exact (C06_gen strict t v j inp po J H L).
Qed.

Lemma end_round_trip cfg srt text path p env : build_fine cfg -> permutes srt -> parse text path = POk p -> proto_fine p ->
  (forall h, wanted (pr_messages p) h -> cpp_fine p h) -> wire_fine false p -> compiles cfg srt text path env ->
  forall pkg name t v po, In (pkg, name, t) env -> jsonable (po_ea po) false t v -> faithful (po_sn po) t v ->
  exists out, serialize t v po = (true, out, clear_params po) /\
    forall w1 w2 po2, ws w1 -> ws w2 -> exists po2', deserialize t (dflt t) (w1 ++ out ++ w2) po2 = Some (true, persist t v, po2').
Proof.
  intros B S P F C W X pkg name t v po I J K. destruct (end_env cfg srt text path p env B S P F C X pkg name t I) as (L & T). exact (round_trip_lemma t v po (T false W) L J K).
Qed.

(** ** Bytes (C40) *)
Lemma bytes_exact cfg srt text path p : build_fine cfg -> permutes srt -> parse text path = POk p -> proto_fine p -> names_cpp p ->
  exists out h cs, run_text cfg srt text path = CExit 0 [] out (Some (h, cs)) /\ wanted (pr_messages p) h /\
    ((exists env, program_ty h cs = Some env) <->
     (uses (pr_messages p) (fun f => f_type f = FBytes) ->
      uses (pr_messages p) (fun f => f_repeated f = true /\ f_type f = FBytes) \/
      uses (pr_messages p) (fun f => f_repeated f = true) /\ uses (pr_messages p) numeric)).
Proof.
  intros B S P F C. destruct (run_exact cfg srt text path p B S P) as [(_ & h & order & W & O & E)|(N & _)]; [|contradiction]. cbn zeta in E.
  eexists _, h, _. split; [exact E|]. split; [exact W|].
  assert (Y : bytes_cpp p h <-> (uses (pr_messages p) (fun f => f_type f = FBytes) ->
      uses (pr_messages p) (fun f => f_repeated f = true /\ f_type f = FBytes) \/
      uses (pr_messages p) (fun f => f_repeated f = true) /\ uses (pr_messages p) numeric)).
  { destruct W as (W1 & W2 & W3 & _). unfold bytes_cpp. rewrite W1, W2, W3. reflexivity. }
  rewrite <- Y. split.
  - intros (env & X). assert (Z : bytes_cpp (sort_fields srt p) h).
    { refine (bytes_needed (sort_fields srt p) h order env _ X). now apply sorted_ordered. }
    unfold bytes_cpp in *. rewrite sorted_uses in Z by exact S. exact Z.
  - intros X. destruct (program_means (sort_fields srt p) h order) as (T & env & _ & A & _); [| | | |exists env; exact A].
    + apply sorted_refs; [exact S|]. exact (parsed_refs text path p P).
    + now apply sorted_wanted.
    + now apply sorted_ordered.
    + apply sorted_cpp; [exact S|]. now split.
Qed.

Lemma Forall2_map_right {A B} (R : A -> B -> Prop) (g : A -> B) l : (forall x, In x l -> R x (g x)) -> Forall2 R l (map g l).
Proof. induction l as [|x l IH]; intros H; constructor; [apply H; now left|apply IH; intros y Y; apply H; now right]. Qed.

Lemma member_types cfg srt text path p : build_fine cfg -> permutes srt -> parse text path = POk p -> proto_fine p ->
  (forall h, wanted (pr_messages p) h -> cpp_fine p h) ->
  exists out h cs env, run_text cfg srt text path = CExit 0 [] out (Some (h, cs)) /\ wanted (pr_messages p) h /\ program_ty h cs = Some env /\
    forall pkg name t, In (pkg, name, t) env -> exists m ms g, In m (pr_messages p) /\ m_package m = pkg /\ m_name m = name /\ t = TMsg ms g /\
      Forall2 (base_ty h) (srt (m_fields m)) ms.
Proof.
  intros B S P F C. destruct (compiled_program cfg srt text path p B S P F C) as (h & order & T & env & E & W & O & A1 & A2 & A3).
  eexists _, h, _, env. split; [exact E|]. split; [exact W|]. split; [exact A1|]. intros pkg name t I. destruct (means_in _ _ _ _ A2 _ _ _ I) as (k & m & M & N1 & N2 & ->).
  destruct (A3 k m M) as (g & -> & _). pose proof (nth_error_In _ _ M) as I'. cbn [sort_fields pr_messages] in I'. apply in_map_iff in I' as (m0 & <- & I0).
  exists m0. eexists _, g. split; [exact I0|]. split; [exact N1|]. split; [exact N2|]. split; [reflexivity|]. cbn [m_fields].
  apply Forall2_map_right. intros f _. unfold base_ty, field_ty, numeric. destruct (f_type f); repeat split; try congruence; try (intros (X1 & X2 & X3); congruence); reflexivity.
Qed.

(** ** Obfuscation (C33) *)
Lemma wire_labels p l k : (forall f, In f l -> transient f = false -> wire p f = json_label (flag (pr_options p) (b "number_names")) f) ->
  wire_at p k l = labels_at (flag (pr_options p) (b "number_names")) k l.
Proof.
  revert k. induction l as [|f l IH]; intros k H; [reflexivity|]. cbn [wire_at labels_at]. rewrite IH by (intros g G; apply H; now right).
  destruct (transient f) eqn:T; [reflexivity|]. rewrite (H f (or_introl eq_refl) T). reflexivity.
Qed.

Lemma clear_labels p f : (flag (pr_options p) (b "obfuscate_strings") = true ->
    ~ In (chr (name_mask (length (json_label (flag (pr_options p) (b "number_names")) f)))) (json_label (flag (pr_options p) (b "number_names")) f)) ->
  wire p f = json_label (flag (pr_options p) (b "number_names")) f.
Proof.
  intros H. unfold wire. destruct (flag (pr_options p) (b "obfuscate_strings")); [|reflexivity]. now apply effective_same, H.
Qed.

Lemma transparent cfg srt text path p : build_fine cfg -> permutes srt -> parse text path = POk p -> proto_fine p ->
  (forall h, wanted (pr_messages p) h -> cpp_fine p h) ->
  let numbers := flag (pr_options p) (b "number_names") in
  (flag (pr_options p) (b "obfuscate_strings") = true -> forall m f, In m (pr_messages p) -> In f (m_fields m) -> transient f = false ->
     ~ In (chr (name_mask (length (json_label numbers f)))) (json_label numbers f)) ->
  exists out h cs env, run_text cfg srt text path = CExit 0 [] out (Some (h, cs)) /\ program_ty h cs = Some env /\
    Forall2 (fun c e => exists m g ms, In m (pr_messages p) /\ e = (m_package m, m_name m, TMsg ms g) /\ c_name c = m_name m /\
               g_write g = labels_at numbers 0 (srt (m_fields m)) /\ dispatches g) cs env.
Proof.
  intros B S P F C numbers H. destruct (compiled_dispatch cfg srt text path p B S P F C) as (out & h & cs & env & R & E & D).
  exists out, h, cs, env. split; [exact R|]. split; [exact E|]. eapply Forall2_impl; [|exact D]. cbv beta. intros c e (m & g & ms & M & X1 & X2 & X3 & X4).
  exists m, g, ms. split; [exact M|]. split; [exact X1|]. split; [exact X2|]. split; [|exact X4]. rewrite X3.
  rewrite wire_labels; [reflexivity|]. intros f I T. cbn [sort_fields pr_options].
  unfold wire. cbn [sort_fields pr_options]. fold numbers. fold (wire p f). apply clear_labels. intros O. apply (H O m f M); [|exact T]. eapply Permutation_in; [apply S|exact I].
Qed.
