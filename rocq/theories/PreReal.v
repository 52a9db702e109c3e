(** The runtime headers of the project are guarded. *)
From Coq Require Import Lia.
From Verif Require Import Bytes BaseProofs Num Types SpecProto SpecTemplate Template Cpp Gen TemplateProofs TemplateReal HdrText RealBuild SpecPrint SpecCpp SpecFile Unit SpecUnit PreProofs PreText PreUnit PreAll.

(** ** A check on the lines *)

(** Until the #endif of the conditional, [d] others being open. *)
Fixpoint walk (names : list bytes) (st : lex) (d : nat) (ls : list bytes) : option (lex * list bytes) :=
  match ls with
  | [] => None
  | l :: r =>
      match lex_line st l with
      | None => None
      | Some (code, lx) =>
          match (match st with XText => directive code | _ => None end) with
          | None => walk names lx d r
          | Some (w, rest) =>
              if bytes_eqb w (b "ifndef") || bytes_eqb w (b "ifdef") || bytes_eqb w (b "if") then walk names lx (S d) r
              else if bytes_eqb w (b "elif") then None
              else if bytes_eqb w (b "else") then match d with O => None | _ => walk names lx d r end
              else if bytes_eqb w (b "endif") then match d with O => Some (lx, r) | S d' => walk names lx d' r end
              else if bytes_eqb w (b "define") || bytes_eqb w (b "undef") then
                if is_defined names (operand rest) then walk names lx d r else None
              else walk names lx d r
          end
      end
  end.

Ltac cases w k := destruct (bytes_eqb w k) eqn:?.
Lemma walk_skip names ls : forall st d lx r, walk names st d ls = Some (lx, r) -> exists l1, ls = l1 ++ r /\
  forall ev m ds o, length ds = d -> pp_lines ev (PS st m (ds ++ false :: o)) l1 = Some ([], PS lx m o).
Proof.
  induction ls as [|l ls IH]; intros st d lx r H; [discriminate|]. cbn [walk] in H. destruct (lex_line st l) as [(c, l1)|] eqn:E; [|discriminate].
  assert (PF : forall ds o, forallb (fun x : bool => x) (ds ++ false :: o) = false) by (intros ds o; rewrite forallb_app; cbn [forallb]; apply andb_false_r).
  assert (NX : forall d' (X : walk names l1 d' ls = Some (lx, r)),
     (forall ev m ds o, length ds = d -> exists ds', length ds' = d' /\ pp_line ev (PS st m (ds ++ false :: o)) l = Some ([], PS l1 m (ds' ++ false :: o))) ->
     exists k, l :: ls = k ++ r /\ forall ev m ds o, length ds = d -> pp_lines ev (PS st m (ds ++ false :: o)) k = Some ([], PS lx m o)).
  { intros d' X L. destruct (IH _ _ _ _ X) as (k & K1 & K2). exists (l :: k). split; [now rewrite K1|]. intros ev m ds o D. destruct (L ev m ds o D) as (ds' & D' & Q).
    rewrite (pp_skip ev _ _ _ _ Q). now apply K2. }
  destruct (match st with XText => directive c | _ => None end) as [(w, rest)|] eqn:DR.
  2:{ apply (NX d H). intros ev m ds o D. exists ds. split; [exact D|]. unfold pp_line. cbn [p_lex p_macros p_open]. rewrite E, DR. unfold processing. cbn [p_open]. rewrite PF. reflexivity. }
  assert (PL : forall ev m ds o, pp_line ev (PS st m (ds ++ false :: o)) l =
     (let opened x := Some ([], PS l1 m (x :: ds ++ false :: o)) in
          if bytes_eqb w (b "ifndef") then opened (negb (is_defined m (operand rest)))
          else if bytes_eqb w (b "ifdef") then opened (is_defined m (operand rest))
          else if bytes_eqb w (b "if") then opened (ev m rest)
          else if bytes_eqb w (b "elif") then None
          else if bytes_eqb w (b "else") then match ds ++ false :: o with x :: r => Some ([], PS l1 m (negb x :: r)) | [] => None end
          else if bytes_eqb w (b "endif") then match ds ++ false :: o with _ :: r => Some ([], PS l1 m r) | [] => None end
          else Some ([], PS l1 m (ds ++ false :: o)))).
  { intros ev m ds o. unfold pp_line. cbn [p_lex p_macros p_open]. rewrite E, DR. unfold processing. cbn [p_open]. rewrite PF. cbn [andb]. cbv zeta.
    repeat (match goal with |- context [if bytes_eqb w ?k then _ else _] => destruct (bytes_eqb w k) end; try reflexivity). }
  cases w (b "ifndef"); cbn [orb] in H.
  { apply (NX (S d) H). intros ev m ds o D. exists (negb (is_defined m (operand rest)) :: ds). split; [cbn [length]; now rewrite D|]. rewrite PL. reflexivity. }
  cases w (b "ifdef"); cbn [orb] in H.
  { apply (NX (S d) H). intros ev m ds o D. exists (is_defined m (operand rest) :: ds). split; [cbn [length]; now rewrite D|]. rewrite PL. reflexivity. }
  cases w (b "if"); cbn [orb] in H.
  { apply (NX (S d) H). intros ev m ds o D. exists (ev m rest :: ds). split; [cbn [length]; now rewrite D|]. rewrite PL. reflexivity. }
  cases w (b "elif"); [discriminate H|]. cases w (b "else").
  { destruct d as [|d]; [discriminate H|]. apply (NX (S d) H). intros ev m ds o D. destruct ds as [|x ds]; [discriminate D|]. exists (negb x :: ds). split; [exact D|]. rewrite PL. reflexivity. }
  cases w (b "endif").
  { destruct d as [|d].
    - injection H as <- <-. exists [l]. split; [reflexivity|]. intros ev m ds o D. destruct ds; [|discriminate D]. cbn [app]. rewrite (pp_skip ev _ _ [] (PS l1 m o)); [reflexivity|]. specialize (PL ev m [] o). cbn [app] in PL. rewrite PL. reflexivity.
    - apply (NX d H). intros ev m ds o D. destruct ds as [|x ds]; [discriminate D|]. exists ds. split; [cbn [length] in D; lia|]. rewrite PL. reflexivity. }
  assert (H' : walk names l1 d ls = Some (lx, r)) by (cases w (b "define"); cases w (b "undef"); cbn [orb] in H; try exact H; destruct (is_defined names (operand rest)); try exact H; discriminate H).
  apply (NX d H'). intros ev m ds o D. exists ds. split; [exact D|]. rewrite PL. reflexivity.
Qed.

Definition kept_macros (names m m' : list bytes) : Prop := forall w, ~ In w names -> (In w m' <-> In w m).
Lemma kept_trans names m m' m'' : kept_macros names m m' -> kept_macros names m' m'' -> kept_macros names m m''.
Proof. intros A C w N. rewrite (C w N). now apply A. Qed.

Lemma walk_run names ls : forall st d lx r, walk names st d ls = Some (lx, r) -> exists l1, ls = l1 ++ r /\
  forall ev m ds x o, length ds = d -> exists out m', pp_lines ev (PS st m (ds ++ x :: o)) l1 = Some (out, PS lx m' o) /\ kept_macros names m m'.
Proof.
  induction ls as [|l ls IH]; intros st d lx r H; [discriminate|]. cbn [walk] in H. destruct (lex_line st l) as [(c, l1)|] eqn:E; [|discriminate].
  assert (KR : forall m, kept_macros names m m) by (intros m w _; reflexivity).
  assert (NX : forall d' (X : walk names l1 d' ls = Some (lx, r)),
     (forall ev m ds x o, length ds = d -> exists ds' o1 m1, length ds' = d' /\ pp_line ev (PS st m (ds ++ x :: o)) l = Some (o1, PS l1 m1 (ds' ++ x :: o)) /\ kept_macros names m m1) ->
     exists k, l :: ls = k ++ r /\ forall ev m ds x o, length ds = d -> exists out m', pp_lines ev (PS st m (ds ++ x :: o)) k = Some (out, PS lx m' o) /\ kept_macros names m m').
  { intros d' X L. destruct (IH _ _ _ _ X) as (k & K1 & K2). exists (l :: k). split; [now rewrite K1|]. intros ev m ds x o D. destruct (L ev m ds x o D) as (ds' & o1 & m1 & D' & Q & M1).
    destruct (K2 ev m1 ds' x o D') as (out & m' & P & M'). exists (o1 ++ out), m'. rewrite (pp_cons ev _ _ _ _ _ Q), P. split; [reflexivity|]. now apply kept_trans with m1. }
  destruct (match st with XText => directive c | _ => None end) as [(w, rest)|] eqn:DR.
  2:{ apply (NX d H). intros ev m ds x o D. unfold pp_line. cbn [p_lex p_macros p_open]. rewrite E, DR. eexists ds, _, m. split; [exact D|]. split; [reflexivity|apply KR]. }
  assert (PL : forall ev m ds (x : bool) o, exists keep, pp_line ev (PS st m (ds ++ x :: o)) l =
     (let s := PS st m (ds ++ x :: o) in let opened x' := Some ([], PS l1 m (x' :: ds ++ x :: o)) in
          if bytes_eqb w (b "ifndef") then opened (negb (is_defined m (operand rest)))
          else if bytes_eqb w (b "ifdef") then opened (is_defined m (operand rest))
          else if bytes_eqb w (b "if") then opened (ev m rest)
          else if bytes_eqb w (b "elif") then None
          else if bytes_eqb w (b "else") then match ds ++ x :: o with x :: r => Some ([], PS l1 m (negb x :: r)) | [] => None end
          else if bytes_eqb w (b "endif") then match ds ++ x :: o with _ :: r => Some ([], PS l1 m r) | [] => None end
          else if bytes_eqb w (b "define") then Some ([], PS l1 (if processing s then operand rest :: m else m) (ds ++ x :: o))
          else if bytes_eqb w (b "undef") then Some ([], PS l1 (if processing s then filter (fun w => negb (bytes_eqb w (operand rest))) m else m) (ds ++ x :: o))
          else Some (keep, PS l1 m (ds ++ x :: o)))).
  { intros ev m ds x o. eexists. unfold pp_line. cbn [p_lex p_macros p_open]. rewrite E, DR. reflexivity. }
  cases w (b "ifndef"); cbn [orb] in H.
  { apply (NX (S d) H). intros ev m ds x o D. exists (negb (is_defined m (operand rest)) :: ds), [], m. split; [cbn [length]; now rewrite D|]. destruct (PL ev m ds x o) as (k & ->). split; [reflexivity|apply KR]. }
  cases w (b "ifdef"); cbn [orb] in H.
  { apply (NX (S d) H). intros ev m ds x o D. exists (is_defined m (operand rest) :: ds), [], m. split; [cbn [length]; now rewrite D|]. destruct (PL ev m ds x o) as (k & ->). split; [reflexivity|apply KR]. }
  cases w (b "if"); cbn [orb] in H.
  { apply (NX (S d) H). intros ev m ds x o D. exists (ev m rest :: ds), [], m. split; [cbn [length]; now rewrite D|]. destruct (PL ev m ds x o) as (k & ->). split; [reflexivity|apply KR]. }
  cases w (b "elif"); [discriminate H|]. cases w (b "else").
  { destruct d as [|d]; [discriminate H|]. apply (NX (S d) H). intros ev m ds x o D. destruct ds as [|y ds]; [discriminate D|]. exists (negb y :: ds), [], m. split; [exact D|].
    destruct (PL ev m (y :: ds) x o) as (k & ->). split; [reflexivity|apply KR]. }
  cases w (b "endif").
  { destruct d as [|d].
    - injection H as <- <-. exists [l]. split; [reflexivity|]. intros ev m ds x o D. destruct ds; [|discriminate D]. exists [], m. split; [|apply KR]. cbn [app]. rewrite (pp_skip ev _ _ [] (PS l1 m o)); [reflexivity|].
      destruct (PL ev m [] x o) as (k & PL'). cbn [app] in PL'. rewrite PL'. reflexivity.
    - apply (NX d H). intros ev m ds x o D. destruct ds as [|y ds]; [discriminate D|]. exists ds, [], m. split; [cbn [length] in D; lia|]. destruct (PL ev m (y :: ds) x o) as (k & ->). split; [reflexivity|apply KR]. }
  cases w (b "define"); cbn [orb] in H.
  { destruct (is_defined names (operand rest)) eqn:DF; [|discriminate H]. apply defined_iff in DF. apply (NX d H). intros ev m ds x o D. eexists ds, [], _. split; [exact D|]. destruct (PL ev m ds x o) as (k & ->). split; [reflexivity|].
    destruct (processing _); [|apply KR]. intros v N. split; [intros [<-|I]; [contradiction|exact I]|now right]. }
  cases w (b "undef"); cbn [orb] in H.
  { destruct (is_defined names (operand rest)) eqn:DF; [|discriminate H]. apply defined_iff in DF. apply (NX d H). intros ev m ds x o D. eexists ds, [], _. split; [exact D|]. destruct (PL ev m ds x o) as (k & ->). split; [reflexivity|].
    destruct (processing _); [|apply KR]. intros v N. rewrite filter_In. split; [now intros [I _]|]. intros I. split; [exact I|]. apply negb_true_iff, not_true_iff_false. intros Q. apply bytes_eqb_true in Q. subst. contradiction. }
  apply (NX d H). intros ev m ds x o D. destruct (PL ev m ds x o) as (k & Q). exists ds, k, m. split; [exact D|]. rewrite Q. split; [reflexivity|apply KR].
Qed.

(** Lines of comments. *)
Fixpoint blanks (st : lex) (ls : list bytes) : lex * list bytes :=
  match ls with
  | [] => (st, [])
  | l :: r => match lex_line st l with
              | Some (code, lx) => if forallb blank code then blanks lx r else (st, ls)
              | None => (st, ls)
              end
  end.
Lemma blank_directive c : forallb blank c = true -> directive c = None.
Proof.
  intros H. apply no_hash. intros I. rewrite forallb_forall in H. specialize (H _ I). discriminate H.
Qed.
Lemma blanks_ok ls : forall st lx r, blanks st ls = (lx, r) -> exists l1, ls = l1 ++ r /\ forall ev m o, pp_lines ev (PS st m o) l1 = Some ([], PS lx m o).
Proof.
  induction ls as [|l ls IH]; intros st lx r H; cbn [blanks] in H; [injection H as <- <-; exists []; auto|].
  destruct (lex_line st l) as [(c, l1)|] eqn:E; [|injection H as <- <-; exists []; auto]. destruct (forallb blank c) eqn:B; [|injection H as <- <-; exists []; auto].
  destruct (IH _ _ _ H) as (k & K1 & K2). exists (l :: k). split; [now rewrite K1|]. intros ev m o. rewrite (pp_skip ev _ _ _ (PS l1 m o)); [apply K2|].
  unfold pp_line. cbn [p_lex p_macros p_open]. rewrite E. rewrite (blank_directive c B), B. cbn [negb]. rewrite andb_false_r. now destruct st.
Qed.

(** A guarded text: comments, #ifndef, #define, the rest, #endif, comments. *)
Definition guard_check (names : list bytes) (g : bytes) (ls : list bytes) : bool :=
  match blanks XText ls with
  | (XText, i :: d :: r) =>
      match lex_line XText i, lex_line XText d with
      | Some (ci, XText), Some (cd, XText) =>
          match directive ci, directive cd with
          | Some (wi, ri), Some (wd, rd) =>
              bytes_eqb wi (b "ifndef") && bytes_eqb (operand ri) g && bytes_eqb wd (b "define") && bytes_eqb (operand rd) g && negb (is_defined names g) &&
              match walk names XText 0 r with
              | Some (lx, r') => match blanks lx r' with (XText, []) => true | _ => false end
              | None => false
              end
          | _, _ => false
          end
      | _, _ => false
      end
  | _ => false
  end.

Lemma guard_check_ok names g t : whole_lines t -> guard_check names g (logical_lines t) = true -> forall ev, guarded ev names g t.
Proof.
  intros W H ev. split; [exact W|]. unfold guard_check in H. destruct (blanks XText (logical_lines t)) as (st, r0) eqn:B1. destruct st; try discriminate. destruct r0 as [|i [|d r]]; try discriminate.
  destruct (lex_line XText i) as [(ci, [])|] eqn:LI; try discriminate. destruct (lex_line XText d) as [(cd, [])|] eqn:LD; try discriminate.
  destruct (directive ci) as [(wi, ri)|] eqn:DI; [|discriminate]. destruct (directive cd) as [(wd, rd)|] eqn:DD; [|discriminate].
  destruct (walk names XText 0 r) as [(lx, r')|] eqn:WK; [|rewrite andb_false_r in H; discriminate]. apply andb_true_iff in H as [H H6]. destruct (blanks lx r') as (s2, r2) eqn:B2. destruct s2; try discriminate. destruct r2; [|discriminate].
  apply andb_true_iff in H as [H H5]. apply andb_true_iff in H as [H H4]. apply andb_true_iff in H as [H H3]. apply andb_true_iff in H as [H1 H2].
  apply bytes_eqb_true in H1, H2, H3, H4. subst wi wd. apply negb_true_iff, not_true_iff_false in H5. rewrite defined_iff in H5.
  destruct (blanks_ok _ _ _ _ B1) as (k1 & E1 & P1). destruct (blanks_ok _ _ _ _ B2) as (k2 & E2 & P2).
  assert (PI : forall m, pp_line ev (PS XText m []) i = Some ([], PS XText m [negb (is_defined m g)])).
  { intros m. unfold pp_line. cbn [p_lex p_macros p_open]. rewrite LI, DI. change (bytes_eqb (b "ifndef") (b "ifndef")) with true. cbv iota zeta. now rewrite H2. }
  assert (PD : forall m x, pp_line ev (PS XText m [x]) d = Some ([], PS XText (if x then g :: m else m) [x])).
  { intros m x. unfold pp_line. cbn [p_lex p_macros p_open]. rewrite LD, DD. change (bytes_eqb (b "define") (b "define")) with true.
    change (bytes_eqb (b "define") (b "ifndef")) with false. change (bytes_eqb (b "define") (b "ifdef")) with false. change (bytes_eqb (b "define") (b "if")) with false. change (bytes_eqb (b "define") (b "elif")) with false.
    change (bytes_eqb (b "define") (b "else")) with false. change (bytes_eqb (b "define") (b "endif")) with false. cbv iota zeta. rewrite H4. unfold processing. cbn [p_open forallb]. rewrite andb_true_r. reflexivity. }
  assert (ALL : forall m x, is_defined m g = negb x -> pp_lines ev (PS XText m []) (logical_lines t) = pp_lines ev (PS XText (if x then g :: m else m) [x]) r).
  { intros m x X. rewrite E1, pp_lines_app, P1. cbn [app]. assert (Q : pp_lines ev (PS XText m []) (i :: d :: r) = pp_lines ev (PS XText (if x then g :: m else m) [x]) r).
    { rewrite (pp_skip ev _ _ _ _ (PI m)). rewrite X, negb_involutive. now rewrite (pp_skip ev _ _ _ _ (PD m x)). }
    rewrite Q. destruct (pp_lines ev _ r) as [(o, s)|]; reflexivity. }
  split.
  - intros m I. apply defined_iff in I. unfold preprocess. rewrite (ALL m false I). destruct (walk_skip _ _ _ _ _ _ WK) as (k & E & P). rewrite E, pp_lines_app. pose proof (P ev m [] [] eq_refl) as Q. cbn [app] in Q. rewrite Q.
    rewrite E2, app_nil_r, P2. reflexivity.
  - intros m I. assert (X : is_defined m g = negb true) by (apply not_true_iff_false; now rewrite defined_iff). unfold preprocess. rewrite (ALL m true X).
    destruct (walk_run _ _ _ _ _ _ WK) as (k & E & P). rewrite E, pp_lines_app. destruct (P ev (g :: m) [] true [] eq_refl) as (out & m' & Q & K). cbn [app] in Q. rewrite Q.
    rewrite E2, app_nil_r, P2. cbn [option_map fst snd]. exists (out ++ []), m'. split; [reflexivity|]. split; [apply K; [exact H5|now left]|].
    intros w N1 N2. rewrite (K w N2). split; [intros [Z|Z]; [congruence|exact Z]|now right].
Qed.

(** ** The headers of the project *)
Definition embed_lines (n : nat) (naming : bytes) (ls : list bytes) : list bytes :=
  flat_map (fun l => if removed l then [] else match replace_all n naming l with Some x => [x] | None => [] end) ls.

Lemma copy_lines_embed naming n ls : version_naming naming -> Forall (fun l => (length l < n)%nat) ls -> Forall line_ok ls -> Forall no_trigraph ls ->
  copy_lines n naming ls = Some (concat (map literal_line (embed_lines n naming ls))) /\ Forall line_ok (embed_lines n naming ls) /\ Forall no_trigraph (embed_lines n naming ls).
Proof.
  intros V. induction ls as [|l ls IH]; intros L K T; [repeat split; constructor|].
  inversion L; inversion K; inversion T; subst. destruct IH as (C & X1 & X2); auto. unfold embed_lines in *. cbn [copy_lines flat_map]. destruct (removed l); [cbn [app]; auto|].
  destruct (replace_exact naming n l V) as (x & RX & VX); auto. rewrite RX, C. destruct (versioned_fine _ _ _ V VX) as [F1 F2]; auto. cbn [app map concat]. repeat split; try (constructor; assumption).
Qed.

Lemma header_value_embed path text name : is_hh path = true -> template_guard path = name ->
  forallb (fun c => Ascii.eqb c "_" || is_alpha c) name = true -> text_fine 1000 text = true ->
  header_value path text = concat (map (fun x => x ++ [LF]) (embed_lines 1000 real_naming (getlines [] text))) ++ [LF].
Proof.
  intros P N M F. apply macro_name_check in M. destruct (text_fine_ok _ _ F) as (ls & final & E & G & L & LF' & LN & T).
  destruct (copy_lines_embed real_naming 1000 ls real_version_naming LN L T) as (C & X1 & X2).
  unfold header_value, header_macro, template. rewrite P, N. unfold copy. rewrite G, C. cbn [option_map].
  set (xs := embed_lines 1000 real_naming ls) in *. unfold defines. fold (logical (b "#define " ++ name ++ b " \" ++ [LF] ++ concat (map literal_line xs) ++ b "    ""\n""" ++ [LF])).
  change (b "    ""\n""" ++ [LF]) with (b "    ""\n""" ++ LF :: []). rewrite logical_block; auto.
  - change (logical []) with (@nil bytes). cbn [flat_map app]. rewrite define_line_value by exact M. rewrite literals_all by exact X1. reflexivity.
  - intros t. apply splice_line; [not_in|]. intros w H. assert (X : last (b "    ""\n""") NUL = "\"%char) by (rewrite H; apply last_last). discriminate X.
  - not_in.
Qed.

Definition real_names : list bytes := [b "PG_3_0_0_ENTITY"; b "PG_3_0_0_ENTITY_SERIALIZER"; b "RETURN_TOKEN"].
Definition real_guards : list bytes :=
  [b "PROTOGEN_3_0_0"; b "PROTOGEN_3_0_0__JSON"; b "PROTOGEN_3_0_0__JSON_ARRAY"; b "PROTOGEN_3_0_0__JSON_BASE64"; b "PROTOGEN_3_0_0__JSON_NUMBER"; b "PROTOGEN_3_0_0__JSON_STRING"].

Definition printed (text : bytes) : bytes := detab (concat (map (fun x => x ++ [LF]) (embed_lines 1000 real_naming (getlines [] text))) ++ [LF]).
Definition ends_twice (t : bytes) : bool := match rev t with c :: d :: _ => Ascii.eqb c LF && Ascii.eqb d LF | _ => false end.
Lemma ends_twice_ok t : ends_twice t = true -> whole_lines t.
Proof.
  unfold ends_twice. destruct (rev t) as [|c [|d r]] eqn:E; try discriminate. intros H. apply andb_true_iff in H as [H1 H2]. apply Ascii.eqb_eq in H1, H2. subst.
  exists (rev r), LF. split; [|split; discriminate]. rewrite <- (rev_involutive t), E. cbn [rev]. now rewrite <- app_assoc.
Qed.

Definition text_check (g text : bytes) : bool := let t := printed text in ends_twice t && guard_check real_names g (logical_lines t).
Lemma text_check_ok path text name g : is_hh path = true -> template_guard path = name ->
  forallb (fun c => Ascii.eqb c "_" || is_alpha c) name = true -> text_fine 1000 text = true -> text_check g text = true ->
  forall ev, guarded ev real_names g (detab (header_value path text)).
Proof.
  intros P N M F C ev. rewrite (header_value_embed path text name P N M F). fold (printed text). apply andb_true_iff in C as [C1 C2]. apply guard_check_ok; [now apply ends_twice_ok|exact C2].
Qed.

Lemma real_runtime_guards ev : runtime_guards ev real_build real_names real_guards.
Proof.
  split; [|split].
  - unfold runtime_texts, real_guards. cbn [map]. cbv [real_build b_protogen b_json b_array b_base64 b_number b_string].
    repeat (first [apply Forall2_nil | apply Forall2_cons]);
    (eapply text_check_ok; [vm_cast_no_check (eq_refl true)|vm_compute; reflexivity|vm_cast_no_check (eq_refl true)|vm_cast_no_check (eq_refl true)|vm_cast_no_check (eq_refl true)]).
  - intros g I J. assert (X : existsb (fun g => existsb (bytes_eqb g) real_names) real_guards = true).
    { apply existsb_exists. exists g. split; [exact I|]. apply existsb_exists. exists g. split; [exact J|apply bytes_eqb_refl]. }
    vm_compute in X. discriminate X.
  - intros w I (r & E). assert (X : existsb (prefixb (b "GUARD_")) (real_names ++ real_guards) = true).
    { apply existsb_exists. exists w. split; [exact I|]. apply prefixb_spec. now exists r. }
    vm_compute in X. discriminate X.
Qed.

Lemma real_version_fine : version_fine real_build.
Proof. split; [|split]; [vm_compute; intuition discriminate|vm_compute; intuition discriminate|]. cbv [real_build b_naming real_naming]. repeat constructor. Qed.
