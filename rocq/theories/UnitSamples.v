(** Samples: headers that are included together, and some that cannot be. *)
From Coq Require Import Lia Permutation.
From Verif Require Import Bytes BaseProofs Num Types Read Write ProtoLex ProtoParse SpecProto Cpp Gen MainC SpecGen SpecCpp SpecFile SpecOpts BackProofs BackMore BackSamples RealBuild RealFine
  SpecProgram ProgramProofs CheckProofs SpecEnd EndSamples EvolveSamples Unit SpecUnit UnitProofs PreProofs PreUnit PreAll PreReal.

Definition read_source (text path : bytes) : source := Source text path (tree (parse text path)).
Lemma source_checked text path : match parse text path with POk p => succeeds p && names_check p && bytes_check p | _ => false end = true -> source_fine (read_source text path).
Proof.
  unfold source_fine, read_source. cbn [so_text so_path so_tree]. destruct (parse text path) as [p| | |] eqn:E; try discriminate. cbn [tree]. intros H. apply andb_true_iff in H as [H H3]. apply andb_true_iff in H as [H1 H2].
  split; [reflexivity|]. split; [apply succeeds_fine; [exact (parsed_refs _ _ _ E)|exact H1]|]. now apply checked.
Qed.

(** The header of a source, without runtime headers. *)
Definition bare_header (s : source) : option (bytes * gheader) :=
  match run_text bare (fun l => l) (so_text s) (so_path s) with CExit 0 [] out (Some (h, cs)) => Some (out, GH (guard_of (so_path s)) h cs) | _ => None end.
Lemma bare_header_ok s out g : bare_header s = Some (out, g) -> header_of bare (fun l => l) s out g.
Proof.
  unfold bare_header, header_of. destruct (run_text bare (fun l => l) (so_text s) (so_path s)) as [st err o d| | |]; try discriminate. destruct st; try discriminate. destruct err; try discriminate.
  destruct d as [(h, cs)|]; try discriminate. intros [= <- <-]. cbn [gh_headers gh_classes gh_guard]. auto.
Qed.

(** ** Two schemas of one project *)
Definition item : source := read_source (b "package shop;message Item{int32 id=1;repeated bytes parts=2;}") (b "/work/item.proto").
Definition order : source := read_source (b "package shop.orders;message Order{string customer=1;repeated string lines=2;bytes seal=3;repeated bytes copies=4;}") (b "/work/order.proto").
Lemma item_fine : source_fine item.
Proof. apply source_checked. vm_compute. reflexivity. Qed.
Lemma order_fine : source_fine order.
Proof. apply source_checked. vm_compute. reflexivity. Qed.
Lemma shop_apart : paths_apart (map so_path [item; order]).
Proof.
  cbn [map paths_apart]. split; [|split; [intros y []|exact I]]. intros y [<-|[]] A. apply guard_alike in A. vm_compute in A. discriminate A.
Qed.
Lemma encloses_list ns pkg : encloses ns pkg -> In ns (namespaces (Cls pkg [] [] [] [] [] [] [] [] false [])).
Proof.
  intros (N & E). unfold namespaces. cbn [c_pkg]. destruct pkg as [|c r]; [contradiction|]. apply prefixes_in. destruct E as [-> |(t & E)]; [left; reflexivity|].
  right. exists ns, t. split; [exact E|reflexivity].
Qed.
Lemma shop_names : names_together (map so_tree [item; order]).
Proof.
  split.
  - apply nodupb_spec. vm_compute. reflexivity.
  - intros p p' m m' ns P P' M M' E I. apply encloses_list in E.
    assert (X : forallb (fun p => forallb (fun p' => forallb (fun m => forallb (fun m' => forallb (fun ns => negb (existsb (bytes_eqb ns) (structs m'))) (namespaces (Cls (m_package m) [] [] [] [] [] [] [] [] false [])))
       (pr_messages p')) (pr_messages p)) (map so_tree [item; order])) (map so_tree [item; order]) = true) by (vm_compute; reflexivity).
    rewrite forallb_forall in X. specialize (X p P). rewrite forallb_forall in X. specialize (X p' P'). rewrite forallb_forall in X. specialize (X m M). rewrite forallb_forall in X. specialize (X m' M').
    rewrite forallb_forall in X. specialize (X ns E). apply negb_true_iff, not_true_iff_false in X. apply X, existsb_exists. exists ns. split; [exact I|apply bytes_eqb_refl].
Qed.
Lemma shop_bytes : bytes_together (map so_tree [item; order]).
Proof.
  intros p p' P _ _ _.
  assert (X : forallb (fun p => existsb (fun m => existsb (fun f => f_repeated f && is_bytes f) (m_fields m)) (pr_messages p)) (map so_tree [item; order]) = true) by (vm_compute; reflexivity).
  rewrite forallb_forall in X. specialize (X p P). apply existsb_exists in X as (m & M & X). apply existsb_exists in X as (f & F & X). apply andb_true_iff in X as [X1 X2].
  exists m, f. split; [exact M|]. split; [exact F|]. split; [exact X1|]. unfold is_bytes in X2. now destruct (f_type f).
Qed.
Lemma shop_headed cfg : build_fine cfg -> exists l, Forall2 (headed cfg (fun f => f)) [item; order] l.
Proof.
  intros B. destruct (source_gives cfg (fun f => f) B id_permutes item item_fine) as (((o1 & g1) & e1) & _ & (H1 & _) & _).
  destruct (source_gives cfg (fun f => f) B id_permutes order order_fine) as (((o2 & g2) & e2) & _ & (H2 & _) & _).
  exists [(o1, g1); (o2, g2)]. apply Forall2_cons; [|apply Forall2_cons; [|apply Forall2_nil]].
  - split; [exact item_fine|]. split; [|exact H1]. vm_compute. intuition discriminate.
  - split; [exact order_fine|]. split; [|exact H2]. vm_compute. intuition discriminate.
Qed.

(** ** One text for each of the runtime headers *)
Definition small_piece (g : bytes) (body : list bytes) : bytes :=
  concat (map ln ([b "#ifndef " ++ g; b "#define " ++ g] ++ body ++ [b "#endif // " ++ g; []])).
Definition small : build :=
  Build (b "1.2.3") (b "_1_2_3") (small_piece (b "R") [b "class runtime;"]) (small_piece (b "J") [b "#if defined(X)"; b "class x; // x"; b "#else"; b "class y;"; b "#endif"; b "#define E(x) \"; b "   x"])
    (small_piece (b "A") [b "class array;"]) (small_piece (b "B") [b "/* Base"; b "#if */"; b "class base64;"]) (small_piece (b "N") [b "class number;"]) (small_piece (b "S") [b "class string;"]).
Definition small_names : list bytes := [b "E"].
Definition small_guards : list bytes := [b "R"; b "J"; b "A"; b "B"; b "N"; b "S"].
Lemma small_fine : build_fine small.
Proof. unfold build_fine, small. repeat (apply Forall_cons; [split; vm_compute; intuition discriminate|]). apply Forall_nil. Qed.
Lemma small_guarded ev : runtime_guards ev small small_names small_guards.
Proof.
  split; [|split].
  - unfold runtime_texts, small_guards. cbn [map]. repeat (first [apply Forall2_nil | apply Forall2_cons]); (apply guard_check_ok; [apply ends_twice_ok; vm_compute; reflexivity|vm_compute; reflexivity]).
  - intros g I [<-|[]]. vm_compute in I. intuition discriminate.
  - intros w I (r & E). vm_compute in I. repeat (destruct I as [<-|I]; [discriminate E|]). destruct I.
Qed.
Lemma small_version : version_fine small.
Proof. split; [|split]; [vm_compute; intuition discriminate|vm_compute; intuition discriminate|]. cbv [small b_naming]. repeat constructor. Qed.
Definition no_conditions (m : list bytes) (c : bytes) : bool := false.
Definition small_source : source := read_source (b "message M{}") (b "/m.proto").
Lemma small_source_fine : source_fine small_source.
Proof. apply source_checked. vm_compute. reflexivity. Qed.
Definition small_out : bytes := match run_text small (fun l => l) (so_text small_source) (so_path small_source) with CExit _ _ out _ => out | _ => [] end.
Definition small_header : gheader :=
  match run_text small (fun l => l) (so_text small_source) (so_path small_source) with CExit 0 [] _ (Some (h, cs)) => GH (guard_of (so_path small_source)) h cs | _ => GH [] (Hdr false false false false) [] end.
Lemma small_header_ok : header_of small (fun l => l) small_source small_out small_header.
Proof. split; vm_compute; reflexivity. Qed.

Lemma small_lines : exists body, preprocess no_conditions [] small_out =
    Some ([b "class runtime;"; b "class y;"] ++ standard_includes ++ body, [b "GUARD__m_proto"; b "E"; b "J"; b "R"]) /\ In (b "    struct M_type") body.
Proof. eexists. split; [vm_compute; reflexivity|]. cbn [In]. tauto. Qed.

(** ** Bytes with and without repeated bytes *)
Definition plain_bytes : source := read_source raw_text (b "/p.proto").
Definition coded_bytes : source := read_source (b "message Q{repeated bytes more=1;}") (b "/q.proto").
Definition coded_P : ty := TMsg [TRep (TPrim (PInt true 32)); TB64] (numbered [b "tags"; b "raw"]).
Definition coded_Q : ty := TMsg [TB64] (numbered [b "more"]).
Lemma order_matters : exists s1 s2 out1 g1 out2 g2 q t t',
  source_fine s1 /\ source_fine s2 /\ paths_apart [so_path s1; so_path s2] /\ names_together [so_tree s1; so_tree s2] /\
  header_of bare (fun l => l) s1 out1 g1 /\ header_of bare (fun l => l) s2 out2 g2 /\
  unit_ty [g1] = Some [([], b "P", t)] /\ unit_ty [g1; g2] = None /\ unit_ty [g2; g1] = Some [([], b "Q", q); ([], b "P", t')] /\
  serialize t (VMsg [VList []; VList [VPrim (VInt 120)]]) None = (true, b "{""raw"":[120]}", None) /\
  serialize t' (VMsg [VList []; VB64 (b "x")]) None = (true, b "{""raw"":""eA==""}", None) /\
  exists u, deserialize t (dflt t) (b "{""raw"":""eA==""}") None = Some (false, u, None).
Proof.
  exists plain_bytes, coded_bytes. destruct (bare_header plain_bytes) as [(out1, g1)|] eqn:E1; [|vm_compute in E1; discriminate E1]. destruct (bare_header coded_bytes) as [(out2, g2)|] eqn:E2; [|vm_compute in E2; discriminate E2].
  exists out1, g1, out2, g2. exists coded_Q, raw_P, coded_P. split; [apply source_checked; vm_compute; reflexivity|]. split; [apply source_checked; vm_compute; reflexivity|]. split.
  { cbn [paths_apart]. split; [|split; [intros y []|exact I]]. intros y [<-|[]] A. apply guard_alike in A. vm_compute in A. discriminate A. }
  split.
  { split; [apply nodupb_spec; vm_compute; reflexivity|]. intros p p' m m' ns P P' M M' (N & _). exfalso. apply N.
    assert (X : forallb (fun p => forallb (fun m => bytes_eqb (m_package m) []) (pr_messages p)) [so_tree plain_bytes; so_tree coded_bytes] = true) by (vm_compute; reflexivity).
    rewrite forallb_forall in X. specialize (X p P). rewrite forallb_forall in X. specialize (X m M). now apply bytes_eqb_true in X. }
  split; [now apply bare_header_ok|]. split; [now apply bare_header_ok|].
  assert (G1 : option_map snd (bare_header plain_bytes) = Some g1) by now rewrite E1. assert (G2 : option_map snd (bare_header coded_bytes) = Some g2) by now rewrite E2.
  vm_compute in G1, G2. injection G1 as <-. injection G2 as <-. split; [vm_compute; reflexivity|]. split; [vm_compute; reflexivity|]. split; [vm_compute; reflexivity|].
  split; [vm_compute; reflexivity|]. split; [vm_compute; reflexivity|]. eexists. vm_compute. reflexivity.
Qed.

(** ** Paths with the same guard *)
Definition dashed : source := read_source (b "message M{bool x=1;}") (b "/a-b.proto").
Definition dotted_path : source := read_source (b "message N{bool x=1;}") (b "/a.b.proto").
Lemma classes_vanish : exists s1 s2 out1 g1 out2 g2 t u,
  source_fine s1 /\ source_fine s2 /\ so_path s1 <> so_path s2 /\ names_together [so_tree s1; so_tree s2] /\
  header_of bare (fun l => l) s1 out1 g1 /\ header_of bare (fun l => l) s2 out2 g2 /\
  unit_ty [g1] = Some [([], b "M", t)] /\ unit_ty [g2] = Some [([], b "N", u)] /\ unit_ty [g1; g2] = Some [([], b "M", t)] /\
  preprocess no_conditions [] (out1 ++ out2) = preprocess no_conditions [] out1.
Proof.
  exists dashed, dotted_path. destruct (bare_header dashed) as [(out1, g1)|] eqn:E1; [|vm_compute in E1; discriminate E1]. destruct (bare_header dotted_path) as [(out2, g2)|] eqn:E2; [|vm_compute in E2; discriminate E2].
  exists out1, g1, out2, g2. eexists _, _. split; [apply source_checked; vm_compute; reflexivity|]. split; [apply source_checked; vm_compute; reflexivity|]. split; [discriminate|]. split.
  { split; [apply nodupb_spec; vm_compute; reflexivity|]. intros p p' m m' ns P P' M M' (N & _). exfalso. apply N.
    assert (X : forallb (fun p => forallb (fun m => bytes_eqb (m_package m) []) (pr_messages p)) [so_tree dashed; so_tree dotted_path] = true) by (vm_compute; reflexivity).
    rewrite forallb_forall in X. specialize (X p P). rewrite forallb_forall in X. specialize (X m M). now apply bytes_eqb_true in X. }
  split; [now apply bare_header_ok|]. split; [now apply bare_header_ok|].
  assert (G1 : option_map snd (bare_header dashed) = Some g1) by now rewrite E1. assert (G2 : option_map snd (bare_header dotted_path) = Some g2) by now rewrite E2.
  assert (O1 : option_map fst (bare_header dashed) = Some out1) by now rewrite E1. assert (O2 : option_map fst (bare_header dotted_path) = Some out2) by now rewrite E2.
  vm_compute in G1, G2, O1, O2. injection G1 as <-. injection G2 as <-. injection O1 as <-. injection O2 as <-. split; [vm_compute; reflexivity|]. split; [vm_compute; reflexivity|]. split; vm_compute; reflexivity.
Qed.

(** ** A message in two schemas *)
Definition left_part : source := read_source (b "message Common{bool x=1;}message L{Common c=1;}") (b "/l.proto").
Definition right_part : source := read_source (b "message Common{bool x=1;}message R{Common c=1;}") (b "/r.proto").
Lemma no_sharing : exists s1 s2 out1 g1 out2 g2 e1 e2,
  source_fine s1 /\ source_fine s2 /\ paths_apart [so_path s1; so_path s2] /\
  header_of bare (fun l => l) s1 out1 g1 /\ header_of bare (fun l => l) s2 out2 g2 /\
  unit_ty [g1] = Some e1 /\ unit_ty [g2] = Some e2 /\ unit_ty [g1; g2] = None /\
  (exists t, In ([], b "Common", t) e1 /\ In ([], b "Common", t) e2).
Proof.
  exists left_part, right_part. destruct (bare_header left_part) as [(out1, g1)|] eqn:E1; [|vm_compute in E1; discriminate E1]. destruct (bare_header right_part) as [(out2, g2)|] eqn:E2; [|vm_compute in E2; discriminate E2].
  exists out1, g1, out2, g2. eexists _, _. split; [apply source_checked; vm_compute; reflexivity|]. split; [apply source_checked; vm_compute; reflexivity|]. split.
  { cbn [paths_apart]. split; [|split; [intros y []|exact I]]. intros y [<-|[]] A. apply guard_alike in A. vm_compute in A. discriminate A. }
  split; [now apply bare_header_ok|]. split; [now apply bare_header_ok|].
  assert (G1 : option_map snd (bare_header left_part) = Some g1) by now rewrite E1. assert (G2 : option_map snd (bare_header right_part) = Some g2) by now rewrite E2.
  vm_compute in G1, G2. injection G1 as <-. injection G2 as <-. split; [vm_compute; reflexivity|]. split; [vm_compute; reflexivity|]. split; [vm_compute; reflexivity|].
  eexists. split; left; reflexivity.
Qed.

(** ** A line feed in a path *)
Definition broken : source := read_source (b "message M{}") (b "/x" ++ [LF] ++ b "y.proto").
Lemma path_leaks : exists s out g lines m,
  source_fine s /\ header_of bare (fun l => l) s out g /\ preprocess no_conditions [] out = Some (b "y.proto" :: lines, m).
Proof.
  exists broken. destruct (bare_header broken) as [(out, g)|] eqn:E; [|vm_compute in E; discriminate E]. exists out, g. eexists _, _. split; [apply source_checked; vm_compute; reflexivity|].
  split; [now apply bare_header_ok|]. assert (O : option_map fst (bare_header broken) = Some out) by now rewrite E. vm_compute in O. injection O as <-. vm_compute. reflexivity.
Qed.
