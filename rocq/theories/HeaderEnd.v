(** Consequences for the runtime; lookup of names; samples. *)
From Coq Require Import Lia Permutation.
From Verif Require Import Bytes BaseProofs Num Types Read Write SpecJson SpecInterp SpecWrite WriteProofs InterpProofs ProtoLex ProtoParse SpecProto SpecTemplate Cpp Gen MainC SpecGen SpecCpp SpecFile SpecOpts
  GenText GenFile BackProofs BackMore BackSamples PAcceptProofs SpecProgram ProgramProofs NameProofs CheckProofs EndProofs SpecLiteral LiteralProofs SpecHeader HeaderProofs Scope SpecScope ScopeProofs SpecEnd EndSamples SampleProofs.

Lemma accept_reads cfg srt text path p env strict : build_fine cfg -> permutes srt -> parse text path = POk p -> compiles cfg srt text path env ->
  forall pkg name t v j inp po, In (pkg, name, t) env -> jdoc strict j inp -> has_ty t v = true ->
  exists po', deserialize t v inp po = Some (match fst (interp t v j) with RGood => true | _ => false end, snd (interp t v j), po').
Proof.
  intros B S P X pkg name t v j inp po I J H. destruct (accept_types cfg srt text path p env B S P X) as (_ & _ & A). destruct (A pkg name t I) as (_ & L & _).
  exact (C06_gen strict t v j inp po J H L).
Qed.

Lemma accept_writes cfg srt text path p env strict : build_fine cfg -> permutes srt -> parse text path = POk p -> compiles cfg srt text path env -> known_fine strict p ->
  forall pkg name t v po, In (pkg, name, t) env -> jsonable (po_ea po) strict t v ->
  exists out, serialize t v po = (true, out, clear_params po) /\ jtext strict (tojson (po_sn po) t v) out.
Proof.
  intros B S P X W pkg name t v po I J. destruct (accept_types cfg srt text path p env B S P X) as (_ & _ & A). destruct (A pkg name t I) as (_ & _ & T).
  exact (serialize_jtext strict t v po (T strict W) J).
Qed.

Lemma accept_round_trip cfg srt text path p env : build_fine cfg -> permutes srt -> parse text path = POk p -> compiles cfg srt text path env -> known_fine false p ->
  forall pkg name t v po, In (pkg, name, t) env -> jsonable (po_ea po) false t v -> faithful (po_sn po) t v ->
  exists out, serialize t v po = (true, out, clear_params po) /\
    forall w1 w2 po2, ws w1 -> ws w2 -> exists po2', deserialize t (dflt t) (w1 ++ out ++ w2) po2 = Some (true, persist t v, po2').
Proof.
  intros B S P X W pkg name t v po I J K. destruct (accept_types cfg srt text path p env B S P X) as (_ & _ & A). destruct (A pkg name t I) as (_ & L & T).
  exact (round_trip_lemma t v po (T false W) L J K).
Qed.

(** With the lookup of names (C55). *)
Lemma accept_header cfg srt text path p : build_fine cfg -> permutes srt -> parse text path = POk p -> proto_fine p ->
  exists out h cs ms, run_text cfg srt text path = CExit 0 [] out (Some (h, cs)) /\ Permutation ms (pr_messages p) /\
    map (fun c => (c_pkg c, c_name c)) cs = map (fun m => (m_package m, m_name m)) ms /\
    forall lib pl, (exists env, header_ty lib pl h cs = Some env) <-> accepted p /\ lookup_fine lib ms /\ outside_fine lib pl ms.
Proof.
  intros B S P F. destruct (accept_exact cfg srt text path p B S P F) as (out & h & cs & R & _ & I).
  destruct (scope_run cfg srt text path [] out h cs B S R) as (p' & ms & P' & M & O & L). rewrite P in P'. injection P' as <-.
  exists out, h, cs, ms. split; [exact R|]. split; [exact M|]. split; [exact O|]. intros lib pl. rewrite <- I, <- L. unfold header_ty.
  destruct (scopes_ok lib pl cs); split.
  - intros X. auto.
  - intros (X & _). exact X.
  - intros (env & X). discriminate.
  - intros (_ & X). discriminate.
Qed.

(** ** Control characters *)
Definition printable (c : ascii) : Prop := 32 <= code c \/ In (code c) [9; 10; 13].

Lemma ws_printable w : ws w -> Forall printable w.
Proof. unfold ws. rewrite forallb_forall. intros W. apply Forall_forall. intros c C. specialize (W c C). unfold printable, ws_char in *. cbn [In]. lia. Qed.

Lemma known_printable t : forallb (fun c => 32 <=? code c) t = true -> Forall printable t.
Proof. rewrite forallb_forall. intros W. apply Forall_forall. intros c C. specialize (W c C). left. lia. Qed.

Lemma digits_printable d : forallb digit_char d = true -> Forall printable d.
Proof. rewrite forallb_forall. intros W. apply Forall_forall. intros c C. specialize (W c C). unfold digit_char in W. left. lia. Qed.

Lemma number_printable s : json_number s -> Forall printable s.
Proof.
  intros (m & i & f & e & -> & M & I & F & E). apply Forall_app. split; [destruct M as [-> | ->]; [constructor|now apply known_printable]|]. apply Forall_app. split; [|apply Forall_app; split].
  - destruct I as [-> |(c & r & -> & C & _ & R)]; [now apply known_printable|]. constructor; [unfold digit_char in C; left; lia|now apply digits_printable].
  - destruct F as [-> |(d & -> & _ & D)]; [constructor|]. apply Forall_app. split; [now apply known_printable|now apply digits_printable].
  - destruct E as [-> |(c & x & d & -> & C & X & _ & D)]; [constructor|]. constructor; [destruct C as [-> | ->]; left; vm_compute; discriminate|].
    apply Forall_app. split; [destruct X as [-> |[-> | ->]]; [constructor|now apply known_printable|now apply known_printable]|now apply digits_printable].
Qed.

Lemma hex4_printable h cp : hex4 h cp -> Forall printable h.
Proof.
  assert (X : forall c d, hexdigit c d -> printable c) by (intros c d H; inversion H; left; lia).
  inversion_clear 1; repeat apply Forall_cons; try apply Forall_nil; eapply X; eassumption.
Qed.

Lemma chars_printable t s : jchars true t s -> Forall printable t.
Proof.
  induction 1 as [|c t s R H IH|e c t s S H IH|h cp t s X _ _ H IH|h1 h2 hi lo t s X1 X2 _ _ H IH].
  - constructor.
  - constructor; [|exact IH]. destruct R as (_ & _ & R). now left.
  - constructor; [left; vm_compute; discriminate|]. constructor; [|exact IH]. destruct S; left; vm_compute; discriminate.
  - apply Forall_app. split; [now apply known_printable|]. apply Forall_app. split; [exact (hex4_printable _ _ X)|exact IH].
  - apply Forall_app. split; [now apply known_printable|]. apply Forall_app. split; [exact (hex4_printable _ _ X1)|]. apply Forall_app. split; [now apply known_printable|].
    apply Forall_app. split; [exact (hex4_printable _ _ X2)|exact IH].
Qed.

Lemma string_printable t s : jstring true t s -> Forall printable t.
Proof. intros (x & -> & H). apply Forall_app. split; [now apply known_printable|]. apply Forall_app. split; [exact (chars_printable _ _ H)|now apply known_printable]. Qed.

Lemma text_printable : (forall j t, jtext true j t -> Forall printable t) /\ (forall l t, jelems true l t -> Forall printable t) /\ (forall l t, jmembers true l t -> Forall printable t).
Proof.
  apply jtext_jelems_jmembers_ind; intros; repeat (apply Forall_app; split); try (now apply known_printable); try (now apply ws_printable); try assumption.
  - now apply number_printable.
  - eapply string_printable; eassumption.
  - eapply string_printable; eassumption.
  - eapply string_printable; eassumption.
Qed.

Lemma doc_printable j text : jdoc true j text -> Forall printable text.
Proof. intros (w1 & w2 & t & -> & W1 & W2 & T). repeat (apply Forall_app; split); try now apply ws_printable. exact (proj1 text_printable j t T). Qed.

(** ** Samples *)
Definition escaped_text : bytes := b "message M{int32 a=1[name=""x\x2f\171""];string s=2[name=""caf\u00e9""];bool t=3[name=""??/x41t""];}".
Definition escaped_ty : ty := Eval vm_compute in match compiled escaped_text (b "f") with Some [(_, _, t)] => t | _ => TStr end.
Definition escaped : proto := Eval vm_compute in match parse escaped_text (b "f") with POk p => p | _ => Proto [] [] [] end.
Lemma escaped_compiles : compiles bare (fun l => l) escaped_text (b "f") [([], b "M", escaped_ty)].
Proof. apply compiled_ok. vm_compute. reflexivity. Qed.
Lemma escaped_parsed : parse escaped_text (b "f") = POk escaped.
Proof. vm_compute. reflexivity. Qed.
Lemma escaped_names : match escaped_ty with TMsg _ g => map snd (g_write g) = [b "x/y"; b "caf" ++ [chr 195; chr 169]; b "At"] | _ => False end.
Proof. vm_compute. reflexivity. Qed.

(** A name with a control character. *)
Definition control_text : bytes := b "message M{int32 a=1[name=""a\001""];}".
Definition control_ty : ty := Eval vm_compute in match compiled control_text (b "f") with Some [(_, _, t)] => t | _ => TStr end.
Lemma control_compiles : compiles bare (fun l => l) control_text (b "f") [([], b "M", control_ty)].
Proof. apply compiled_ok. vm_compute. reflexivity. Qed.
Definition control_out : bytes := b "{""a" ++ [chr 1] ++ b """:7}".
Lemma control_written : jsonable false true control_ty (VMsg [VField false (VInt 7)]) /\
  serialize control_ty (VMsg [VField false (VInt 7)]) None = (true, control_out, None) /\ forall j, ~ jdoc true j control_out.
Proof.
  split; [|split].
  - constructor. each_member. constructor; [reflexivity|exact I].
  - vm_compute. reflexivity.
  - intros j D. apply doc_printable in D. rewrite Forall_forall in D. destruct (D (chr 1)) as [X|X].
    + vm_compute. tauto.
    + vm_compute in X. contradiction.
    + vm_compute in X. intuition discriminate.
Qed.

Lemma escaped_known strict : known_fine strict escaped.
Proof.
  intros m [<-|[]]. exists [b "x/y"; b "caf" ++ [chr 195; chr 169]; b "At"]. split; [|split].
  - cbn [written filter m_fields transient negb]. vm_compute written.
    repeat apply Forall2_cons; try apply Forall2_nil.
    all: apply HeaderProofs.known_iff; [intros _; eexists; apply cpp_lit_iff; vm_compute; reflexivity|vm_compute; reflexivity].
  - repeat constructor; cbn [In]; intuition discriminate.
  - repeat apply Forall_cons; try apply Forall_nil; (split; [discriminate|split; [discriminate|destruct strict; [discriminate|split; discriminate]]]).
Qed.
Definition escaped_object : val := VMsg [VField false (VInt 7); VStr false (b "s"); VField false (VBool true)].
Lemma escaped_jsonable : jsonable false true escaped_ty escaped_object.
Proof.
  constructor. each_member.
  - constructor; [reflexivity|exact I].
  - apply js_str; [discriminate|]. repeat (constructor; [left; discriminate|]). constructor.
  - constructor; [reflexivity|exact I].
Qed.
Lemma escaped_faithful : faithful false escaped_ty escaped_object.
Proof.
  constructor; [reflexivity|]. each_member.
  - left. constructor; [reflexivity|]. right; left; reflexivity.
  - left. constructor.
  - left. constructor; [reflexivity|exact I].
Qed.
