(** Classes of several headers. *)
From Coq Require Import Lia Permutation.
From Verif Require Import Bytes BaseProofs Num Types ProtoLex ProtoParse SpecProto Cpp Gen MainC SpecGen SpecCpp SpecFile SpecOpts SpecProgram SortProofs GenText GenFile BackProofs BackMore ProgramProofs SpecEnd EndProofs Unit SpecUnit.

Lemma env_find_app u v p n : env_find (u ++ v) p n = match env_find u p n with Some t => Some t | None => env_find v p n end.
Proof. induction u as [|((p', n') & t) u IH]; [reflexivity|]. cbn [app env_find]. destruct (bytes_eqb p' p && bytes_eqb n' n); [reflexivity|exact IH]. Qed.
Lemma env_find_in u p n t : env_find u p n = Some t -> In (p, n) (map fst u).
Proof.
  induction u as [|((p', n') & t') u IH]; [discriminate|]. cbn [env_find]. destruct (bytes_eqb p' p && bytes_eqb n' n) eqn:E.
  - intros _. apply andb_true_iff in E as [E1 E2]. apply bytes_eqb_true in E1, E2. subst. now left.
  - intros H. right. now apply IH.
Qed.
Lemma env_find_not u p n : ~ In (p, n) (map fst u) -> env_find u p n = None.
Proof. destruct (env_find u p n) eqn:E; [|reflexivity]. intros H. now apply env_find_in in E. Qed.

(** ** More serializers and more classes *)
Definition below (h k : headers) : Prop :=
  (h_array h = true -> h_array k = true) /\ (h_base64 h = true -> h_base64 k = true) /\
  (h_number h = true -> h_number k = true) /\ (h_string h = true -> h_string k = true).

Section More.
  Context (h k : headers) (env0 : cenv).
  Hypothesis B : below h k.

  Lemma elem_more env e t : (forall x, In x (map fst env) -> ~ In x (map fst env0)) -> elem_ty h env e = Some t -> elem_ty k (env0 ++ env) e = Some t.
  Proof.
    destruct B as (B1 & B2 & B3 & B4). intros D. destruct e as [p| |pkg name]; cbn [elem_ty].
    - destruct (h_number h); [|discriminate]. now rewrite (B3 eq_refl).
    - destruct (h_string h); [|discriminate]. now rewrite (B4 eq_refl).
    - intros E. rewrite env_find_app, (env_find_not env0); [exact E|]. now apply D, env_find_in with (t := t).
  Qed.

  Lemma member_more env m t : (forall x, In x (map fst env) -> ~ In x (map fst env0)) -> (bytes_member m = true -> h_base64 k = true -> h_base64 h = true) ->
    member_ty h env (fst m) = Some t -> member_ty k (env0 ++ env) (fst m) = Some t.
  Proof.
    destruct B as (B1 & B2 & B3 & B4). intros D N. destruct m as [[p|e|lists e] name]; cbn [fst member_ty bytes_member] in *.
    - destruct (h_number h); [|discriminate]. now rewrite (B3 eq_refl).
    - destruct e as [p| |pkg nm]; [discriminate| |]; apply elem_more; exact D.
    - destruct (is_uint8 e && negb lists && h_base64 h) eqn:E.
      + intros X. apply andb_true_iff in E as [E E3]. rewrite E, (B2 E3). exact X.
      + replace (is_uint8 e && negb lists && h_base64 k) with false.
        * destruct (h_array h); [|discriminate]. rewrite (B1 eq_refl). destruct (elem_ty h env e) as [x|] eqn:X; [|discriminate]. now rewrite (elem_more env e x D X).
        * symmetry. apply not_true_iff_false. intros F. apply andb_true_iff in F as [F F3]. apply andb_true_iff in F as [F1 F2]. apply negb_true_iff in F2. subst lists.
          cbn [negb] in E. rewrite F1, (N F1 F3) in E. discriminate.
  Qed.

  Lemma all_some_map {A C} (f g : A -> option C) l r : (forall x y, In x l -> f x = Some y -> g x = Some y) -> all_some (map f l) = Some r -> all_some (map g l) = Some r.
  Proof.
    revert r. induction l as [|x l IH]; intros r H; [auto|]. cbn [map all_some]. destruct (f x) as [y|] eqn:E; [|discriminate]. rewrite (H x y (or_introl eq_refl) E).
    destruct (all_some (map f l)) as [z|] eqn:Z; [|discriminate]. rewrite (IH z); [auto| |reflexivity]. intros a c I. apply H. now right.
  Qed.

  Lemma class_more env c t : (forall x, In x (map fst env) -> ~ In x (map fst env0)) -> (existsb bytes_member (c_members c) = true -> h_base64 k = true -> h_base64 h = true) ->
    class_ty h env c = Some t -> class_ty k (env0 ++ env) c = Some t.
  Proof.
    intros D N. unfold class_ty. cbv zeta.
    destruct (existsb is_keyword _ || is_keyword _ || negb _); [discriminate|]. destruct (negb _); [discriminate|].
    destruct (all_some (map (fun m => member_ty h env (fst m)) (c_members c))) as [ms|] eqn:M; [|discriminate].
    rewrite (all_some_map (fun m => member_ty h env (fst m)) (fun m => member_ty k (env0 ++ env) (fst m)) _ ms); [auto| |exact M].
    intros m y I. apply member_more; [exact D|]. intros X. apply N. apply existsb_exists. now exists m.
  Qed.

  Lemma classes_more l : forall env env', (forall x, In x (map fst env) \/ In x (map (fun c => (c_pkg c, c_name c)) l) -> ~ In x (map fst env0)) ->
    (existsb (fun c => existsb bytes_member (c_members c)) l = true -> h_base64 k = true -> h_base64 h = true) ->
    classes_ty h env l = Some env' -> classes_ty k (env0 ++ env) l = Some (env0 ++ env').
  Proof.
    induction l as [|c l IH]; intros env env' D N; cbn [classes_ty]; [intros [= <-]; reflexivity|].
    destruct (class_ty h env c) as [t|] eqn:E; [|discriminate]. intros R.
    rewrite (class_more env c t); [|intros x X; apply D; now left| |exact E].
    - rewrite <- app_assoc. apply IH; [| |exact R].
      + intros x [X|X]; apply D; [|right; now right]. rewrite map_app, in_app_iff in X. cbn [map fst In] in X. destruct X as [X|[<-|[]]]; [now left|right; now left].
      + intros X. apply N. cbn [existsb]. rewrite X. apply orb_true_r.
    - intros X. apply N. cbn [existsb]. now rewrite X.
  Qed.
End More.

Lemma below_either h k : below h (either h k) /\ below k (either h k).
Proof. split; repeat split; cbn [either h_array h_base64 h_number h_string]; intros ->; try reflexivity; apply orb_true_r. Qed.

Lemma classes_keys h l : forall env env', classes_ty h env l = Some env' -> map fst env' = map fst env ++ map (fun c => (c_pkg c, c_name c)) l.
Proof.
  induction l as [|c l IH]; intros env env'; cbn [classes_ty map]; [intros [= <-]; now rewrite app_nil_r|].
  destruct (class_ty h env c); [|discriminate]. intros E. rewrite (IH _ _ E), map_app, <- app_assoc. reflexivity.
Qed.

(** ** One header *)
Lemma unit_one g h cs : unit_ty [GH g h cs] = program_ty h cs.
Proof.
  unfold unit_ty, program_ty. cbn [include_all include_header u_array u_guards u_headers u_classes u_env gh_guard gh_headers gh_classes is_defined existsb andb app].
  replace (either (Hdr false false false false) h) with h by (destruct h; reflexivity).
  destruct (classes_ty h [] cs); cbn [u_classes u_env app]; [reflexivity|]. now destruct (names_ok cs).
Qed.

(** ** A guard that is known: the classes are not declared *)
Lemma include_all_app l m s : include_all s (l ++ m) = match include_all s l with Some s' => include_all s' m | None => None end.
Proof. revert s. induction l as [|g l IH]; intros s; [reflexivity|]. cbn [app include_all]. destruct (include_header s g); [apply IH|reflexivity]. Qed.

Lemma include_guards l : forall s s', include_all s l = Some s' -> forall w, is_defined (u_guards s') w = true <-> is_defined (u_guards s) w = true \/ In w (map gh_guard l).
Proof.
  induction l as [|g l IH]; intros s s'; cbn [include_all map In]; [intros [= <-] w; tauto|].
  destruct (include_header s g) as [s1|] eqn:E; [|discriminate]. intros R w. rewrite (IH _ _ R w). unfold include_header in E. cbv zeta in E.
  destruct (u_array s && _); [discriminate|]. destruct (is_defined (u_guards s) (gh_guard g)) eqn:D.
  - injection E as <-. cbn [u_guards]. split; [tauto|]. intros [H|[<-|H]]; auto.
  - destruct (classes_ty _ _ _); [|discriminate]. injection E as <-. cbn [u_guards is_defined existsb]. rewrite orb_true_iff. fold (is_defined (u_guards s) w).
    split.
    + intros [[H|H]|H]; auto. apply bytes_eqb_true in H. auto.
    + intros [H|[<-|H]]; auto. left. left. apply bytes_eqb_refl.
Qed.

Lemma unit_known l g env : In (gh_guard g) (map gh_guard l) -> unit_ty (l ++ [g]) = Some env -> unit_ty l = Some env.
Proof.
  intros I. unfold unit_ty. rewrite include_all_app. destruct (include_all _ l) as [s|] eqn:E; [|discriminate]. cbn [include_all].
  unfold include_header. cbv zeta. destruct (u_array s && _); [discriminate|].
  replace (is_defined (u_guards s) (gh_guard g)) with true by (symmetry; apply (include_guards _ _ _ E); now right).
  cbn [u_classes u_env]. auto.
Qed.

(** A header again. *)
Lemma unit_again l g env : In g l -> unit_ty l = Some env -> unit_ty (l ++ [g]) = Some env.
Proof.
  intros I. unfold unit_ty. rewrite include_all_app. destruct (include_all _ l) as [s|] eqn:E; [|discriminate]. cbn [include_all].
  assert (U : forall l s s' , include_all s l = Some s' -> (u_array s && h_base64 (u_headers s) = false) -> u_array s' && h_base64 (u_headers s') = false /\
             below (u_headers s) (u_headers s') /\ forall g, In g l -> below (gh_headers g) (u_headers s')).
  { clear. induction l as [|g l IH]; intros s s'; cbn [include_all]; [intros [= <-] N; split; [exact N|split; [repeat split; auto|intros g []]]|].
    destruct (include_header s g) as [s1|] eqn:E; [|discriminate]. intros R N.
    assert (E1 : u_headers s1 = either (u_headers s) (gh_headers g) /\ u_array s1 && h_base64 (u_headers s1) = false).
    { unfold include_header in E. cbv zeta in E. destruct (u_array s && _) eqn:A; [discriminate|]. destruct (is_defined _ _); [injection E as <-; split; [reflexivity|exact A]|].
      destruct (classes_ty _ _ _); [|discriminate]. injection E as <-. cbn [u_headers u_array]. split; [reflexivity|]. rewrite andb_orb_distrib_l, A. unfold instantiates.
      destruct (h_base64 (either _ _)); [now cbn|apply andb_false_r]. }
    destruct E1 as [E1 E2]. destruct (IH _ _ R E2) as (X1 & (Y1 & Y2 & Y3 & Y4) & X3). destruct (below_either (u_headers s) (gh_headers g)) as ((P1 & P2 & P3 & P4) & Q1 & Q2 & Q3 & Q4).
    rewrite <- E1 in *. split; [exact X1|]. split; [repeat split; auto|]. intros g' [<-|G]; [repeat split; auto|now apply X3]. }
  destruct (U _ _ _ E eq_refl) as (U1 & _ & U3). specialize (U3 g I).
  assert (EH : either (u_headers s) (gh_headers g) = u_headers s).
  { destruct U3 as (A & B & C & D). destruct (u_headers s) as [a1 a2 a3 a4], (gh_headers g) as [b1 b2 b3 b4]. cbn [either h_array h_base64 h_number h_string] in *.
    unfold either. cbn [h_array h_base64 h_number h_string].
    assert (OR : forall x y : bool, (y = true -> x = true) -> x || y = x) by (intros [|] [|] Q; try reflexivity; symmetry; exact (Q eq_refl)). now rewrite !OR. }
  unfold include_header. cbv zeta. rewrite EH, U1.
  replace (is_defined (u_guards s) (gh_guard g)) with true by (symmetry; apply (include_guards _ _ _ E); right; now apply in_map).
  cbn [u_classes u_env]. auto.
Qed.

(** ** Headers that do not disturb each other *)
Definition has_bytes (g : gheader) : bool := existsb (fun c => existsb bytes_member (c_members c)) (gh_classes g).

Lemma pair_struct (c d : cls) : c_pkg c = c_pkg d -> c_name c = c_name d -> In (in_pkg (c_pkg c) (c_name c)) (struct_names d).
Proof. intros -> ->. right. now left. Qed.

Lemma names_keys u v : names_ok (u ++ v) = true -> forall x, In x (map (fun c => (c_pkg c, c_name c)) v) -> ~ In x (map (fun c => (c_pkg c, c_name c)) u).
Proof.
  unfold names_ok. cbv zeta. intros H x X Y. apply andb_true_iff in H as [H _]. apply andb_true_iff in H as [H _]. apply nodupb_spec in H. rewrite flat_map_app in H.
  apply in_map_iff in X as (c & <- & X). apply in_map_iff in Y as (d & E & Y). injection E as E1 E2.
  assert (K1 : In (in_pkg (c_pkg c) (c_name c)) (flat_map struct_names u)) by (apply in_flat_map; exists d; split; [exact Y|]; now apply pair_struct).
  assert (K2 : In (in_pkg (c_pkg c) (c_name c)) (flat_map struct_names v)) by (apply in_flat_map; exists c; split; [exact X|]; right; now left).
  clear - H K1 K2. induction (flat_map struct_names u) as [|y l IH]; [destruct K1|]. inversion H as [|? ? N H']; subst. destruct K1 as [-> |K1]; [|exact (IH H' K1)].
  apply N, in_app_iff. now right.
Qed.

Lemma nodupb_app u v : nodupb (u ++ v) = true -> nodupb u = true /\ nodupb v = true.
Proof.
  rewrite !nodupb_spec. induction u as [|x u IH]; cbn [app]; [split; [constructor|auto]|]. intros H. inversion H as [|? ? N H']; subst. destruct (IH H') as [A B].
  split; [constructor; [intros X; apply N, in_app_iff; now left|exact A]|exact B].
Qed.

Lemma names_ok_app u v : names_ok (u ++ v) = true -> names_ok u = true /\ names_ok v = true.
Proof.
  unfold names_ok. cbv zeta. intros H. apply andb_true_iff in H as [H H3]. apply andb_true_iff in H as [H1 H2].
  rewrite flat_map_app in *. rewrite forallb_app in H3. apply andb_true_iff in H3 as [H3 H4]. apply nodupb_app in H1 as [N1 N2].
  rewrite flat_map_app, forallb_app in H2. apply andb_true_iff in H2 as [H2 H5]. rewrite N1, N2, H3, H4, !andb_true_r. cbn [andb].
  split; apply forallb_forall; intros w W.
  - rewrite forallb_forall in H2. specialize (H2 w W). rewrite existsb_app in H2. apply negb_true_iff, orb_false_iff in H2 as [H2 _]. now rewrite H2.
  - rewrite forallb_forall in H5. specialize (H5 w W). rewrite existsb_app in H5. apply negb_true_iff, orb_false_iff in H5 as [_ H5]. now rewrite H5.
Qed.

Lemma unit_apart gs envs : Forall2 (fun g env => classes_ty (gh_headers g) [] (gh_classes g) = Some env) gs envs ->
  NoDup (map gh_guard gs) -> names_ok (flat_map gh_classes gs) = true ->
  (forall g g', In g gs -> In g' gs -> has_bytes g = true -> h_base64 (gh_headers g') = true -> h_base64 (gh_headers g) = true) ->
  unit_ty gs = Some (concat envs).
Proof.
  intros F N O A. unfold unit_ty.
  assert (G : forall todo done envs1 envs2 s, gs = done ++ todo -> envs = envs1 ++ envs2 ->
    Forall2 (fun g env => classes_ty (gh_headers g) [] (gh_classes g) = Some env) todo envs2 ->
    (forall w, is_defined (u_guards s) w = true -> In w (map gh_guard done)) ->
    (h_base64 (u_headers s) = true -> exists g, In g done /\ h_base64 (gh_headers g) = true) ->
    (u_array s = true -> exists g, In g done /\ has_bytes g = true /\ h_base64 (gh_headers g) = false) ->
    u_classes s = flat_map gh_classes done -> u_env s = concat envs1 -> map fst (u_env s) = map (fun c => (c_pkg c, c_name c)) (u_classes s) ->
    exists s', include_all s todo = Some s' /\ u_classes s' = flat_map gh_classes gs /\ u_env s' = concat envs).
  { induction todo as [|g todo IH]; intros done envs1 envs2 s E1 E2 F2 I1 I2 I3 I4 I5 I6.
    - inversion F2; subst. rewrite !app_nil_r in *. exists s. auto.
    - inversion F2 as [|? env ? envs3 X F3]; subst. cbn [include_all]. unfold include_header. cbv zeta. set (h := either (u_headers s) (gh_headers g)).
      assert (H64 : h_base64 h = true -> exists g', In g' (done ++ g :: todo) /\ h_base64 (gh_headers g') = true).
      { unfold h. cbn [either h_base64]. intros Q. apply orb_true_iff in Q as [Q|Q].
        - destruct (I2 Q) as (g' & G & H). exists g'. split; [apply in_app_iff; now left|exact H].
        - exists g. split; [apply in_app_iff; right; now left|exact Q]. }
      replace (u_array s && h_base64 h) with false.
      2:{ symmetry. apply not_true_iff_false. intros Q. apply andb_true_iff in Q as [Q1 Q2]. destruct (I3 Q1) as (g1 & G1 & B1 & B2). destruct (H64 Q2) as (g2 & G2 & B3).
          rewrite (A g1 g2) in B2; [discriminate|apply in_app_iff; now left|exact G2|exact B1|exact B3]. }
      replace (is_defined (u_guards s) (gh_guard g)) with false.
      2:{ symmetry. apply not_true_iff_false. intros Q. apply I1 in Q. rewrite map_app in N. cbn [map] in N. apply NoDup_remove_2 in N. apply N, in_app_iff. now left. }
      assert (DJ : forall x, In x (map (fun c => (c_pkg c, c_name c)) (gh_classes g)) -> ~ In x (map fst (u_env s))).
      { intros x Q. rewrite I6, I4. rewrite flat_map_app in O. cbn [flat_map] in O. rewrite app_assoc in O. apply names_ok_app in O as [O _]. exact (names_keys _ _ O x Q). }
      pose proof (classes_more (gh_headers g) h (u_env s) (proj2 (below_either (u_headers s) (gh_headers g))) (gh_classes g) [] env) as CM. rewrite app_nil_r in CM.
      rewrite CM; [|intros x [[]|Q]; now apply DJ| |exact X].
      2:{ intros Q1 Q2. destruct (H64 Q2) as (g2 & G2 & B3). apply (A g g2); [apply in_app_iff; right; now left|exact G2|exact Q1|exact B3]. }
      destruct (IH (done ++ [g]) (envs1 ++ [env]) envs3 (US (gh_guard g :: u_guards s) h (u_array s || instantiates h (gh_classes g)) (u_classes s ++ gh_classes g) (u_env s ++ env))) as (s' & R).
      + rewrite <- app_assoc. reflexivity.
      + rewrite <- app_assoc. reflexivity.
      + exact F3.
      + cbn [u_guards is_defined existsb]. intros w Q. rewrite map_app, in_app_iff. apply orb_true_iff in Q as [Q|Q]; [apply bytes_eqb_true in Q; right; left; auto|left; now apply I1].
      + cbn [u_headers]. unfold h. cbn [either h_base64]. intros Q. apply orb_true_iff in Q as [Q|Q].
        * destruct (I2 Q) as (g' & G & H). exists g'. split; [apply in_app_iff; now left|exact H].
        * exists g. split; [apply in_app_iff; right; now left|exact Q].
      + cbn [u_array]. intros Q. apply orb_true_iff in Q as [Q|Q].
        * destruct (I3 Q) as (g' & G & H). exists g'. split; [apply in_app_iff; now left|exact H].
        * exists g. split; [apply in_app_iff; right; now left|]. unfold instantiates in Q. apply andb_true_iff in Q as [Q1 Q2]. split; [exact Q2|].
          apply negb_true_iff in Q1. unfold h in Q1. cbn [either h_base64] in Q1. now apply orb_false_iff in Q1.
      + cbn [u_classes]. rewrite I4, flat_map_app. cbn [flat_map]. now rewrite app_nil_r.
      + cbn [u_env]. rewrite I5, concat_app. cbn [concat]. now rewrite app_nil_r.
      + cbn [u_env u_classes]. rewrite !map_app, I6, (classes_keys _ _ _ _ X). reflexivity.
      + exists s'. exact R. }
  destruct (G gs [] [] envs (US [] (Hdr false false false false) false [] [])) as (s' & -> & -> & ->); try reflexivity; try discriminate; [exact F|].
  now rewrite O.
Qed.

(** ** From schemas *)
Lemma names_ok_spec l : names_ok l = true <->
  NoDup (flat_map struct_names l) /\ (forall c d ns, In c l -> In d l -> In ns (namespaces c) -> ~ In ns (struct_names d)) /\
  (forall c, In c l -> match c_pkg c with [] => true | p => negb (existsb is_keyword (components [] p)) end = true).
Proof.
  unfold names_ok. cbv zeta. rewrite !andb_true_iff, nodupb_spec, !forallb_forall. split.
  - intros [[A B] C]. split; [exact A|]. split; [|exact C]. intros c d ns Ic Id I J.
    assert (K : In ns (flat_map namespaces l)) by (apply in_flat_map; now exists c). apply B in K. apply negb_true_iff, not_true_iff_false in K. apply K, existsb_bytes, in_flat_map. now exists d.
  - intros (A & B & C). split; [split; [exact A|]|exact C]. intros ns I. apply in_flat_map in I as (c & Ic & I). apply negb_true_iff, not_true_iff_false. rewrite existsb_bytes. intros J.
    apply in_flat_map in J as (d & Id & J). exact (B c d ns Ic Id I J).
Qed.

(** A class belongs to a message. *)
Lemma class_message p order c : well_ordered (pr_messages p) order -> In c (classes_of p order) ->
  exists m, In m (pr_messages p) /\ c = class_of (pr_messages p) (flag (pr_options p) (b "obfuscate_strings")) (flag (pr_options p) (b "cpp_use_lists")) (flag (pr_options p) (b "number_names")) m.
Proof.
  intros O I. destruct (order_perm p order O) as (ms & P & E). rewrite E in I. apply in_map_iff in I as (m & <- & I). exists m. split; [exact (Permutation_in _ P I)|reflexivity].
Qed.

Lemma classes_structs p order : well_ordered (pr_messages p) order -> Permutation (flat_map struct_names (classes_of p order)) (concat (map structs (pr_messages p))).
Proof.
  intros O. destruct (order_perm p order O) as (ms & P & ->). rewrite flat_map_concat_map, map_map.
  change (map (fun x => struct_names _) ms) with (map structs ms). rewrite <- !flat_map_concat_map. now apply Permutation_flat_map.
Qed.

Lemma namespaces_encloses ns c : In ns (namespaces c) -> encloses ns (c_pkg c).
Proof.
  unfold namespaces, encloses. destruct (c_pkg c) as [|a r]; [intros []|]. intros I. split; [discriminate|].
  apply prefixes_in in I as [I|(u & v & I & I')]; [left; exact I|]. right. exists v. cbn [rev app] in I'. now rewrite I'.
Qed.

Lemma class_bytes msgs obf lists numbers m : existsb bytes_member (c_members (class_of msgs obf lists numbers m)) = true -> exists f, In f (m_fields m) /\ f_type f = FBytes.
Proof.
  intros H. apply existsb_exists in H as (x & I & B). cbn [class_of c_members] in I. apply in_map_iff in I as (f & <- & I). exists f. split; [exact I|].
  unfold bytes_member in B. cbn [fst] in B. unfold member_type in B. unfold is_bytes, value_elem in B.
  destruct (f_type f); try reflexivity; destruct (f_repeated f), lists; cbn [is_uint8] in B; try discriminate; (destruct (f_ref f); [destruct (nth_error _ _)|]; discriminate).
Qed.

Section Sources.
  Context (cfg : build) (srt : list field -> list field) (B : build_fine cfg) (S : permutes srt).

  Notation gives := (gives cfg srt).

  Lemma source_gives s : source_fine s -> exists x order, gives s x /\ wanted (pr_messages (so_tree s)) (gh_headers (snd (fst x))) /\
    well_ordered (pr_messages (so_tree s)) order /\ gh_classes (snd (fst x)) = classes_of (sort_fields srt (so_tree s)) order.
  Proof.
    intros (P & F & C). destruct (NameProofs.compiled_program cfg srt _ _ _ B S P F C) as (h & order & T & env & E & W & O & A & _).
    exists (output_text cfg (so_path s) h (classes_of (sort_fields srt (so_tree s)) order), GH (guard_of (so_path s)) h (classes_of (sort_fields srt (so_tree s)) order), env), order.
    cbn [fst snd gh_headers gh_classes]. split; [|auto]. split; [split; [exact E|reflexivity]|exact A].
  Qed.

  Lemma sources_give ss : Forall source_fine ss -> exists l, Forall2 gives ss l /\
    Forall2 (fun s x => exists order, wanted (pr_messages (so_tree s)) (gh_headers (snd (fst x))) /\
      well_ordered (pr_messages (so_tree s)) order /\ gh_classes (snd (fst x)) = classes_of (sort_fields srt (so_tree s)) order) ss l.
  Proof.
    induction 1 as [|s ss F _ (l & L1 & L2)]; [exists []; split; constructor|]. destruct (source_gives s F) as (x & order & X & Y). exists (x :: l). split; constructor; eauto.
  Qed.

  Lemma guards_apart ss l : paths_apart (map so_path ss) -> Forall2 gives ss l -> NoDup (map (fun x => gh_guard (snd (fst x))) l).
  Proof.
    intros P F. revert P. induction F as [|s ((out & g) & env) ss l ((_ & G) & _) F IH]; cbn [map paths_apart]; [constructor|]. intros (P1 & P2). constructor; [|now apply IH].
    cbn [fst snd]. rewrite G. intros I. apply in_map_iff in I as (x & E & I). clear IH P2. induction F as [|s' ((out' & g') & env') ss l ((_ & G') & _) F IH]; [destruct I|].
    destruct I as [<-|I].
    - cbn [fst snd] in E. rewrite G' in E. apply guard_alike in E. apply (P1 (so_path s')); [now left|]. clear - E.
      induction E as [|c d f g E _ IH]; constructor; [destruct E as [-> |[X Y]]; auto|exact IH].
    - apply IH; [|exact I]. intros y Y. apply P1. now right.
  Qed.

  Theorem unit_sources ss : Forall source_fine ss -> paths_apart (map so_path ss) -> names_together (map so_tree ss) -> bytes_together (map so_tree ss) ->
    exists l, Forall2 gives ss l /\ unit_ty (map (fun x => snd (fst x)) l) = Some (concat (map snd l)).
  Proof.
    intros F P (N1 & N2) BT. destruct (sources_give ss F) as (l & L1 & L2). exists l. split; [exact L1|]. apply unit_apart.
    - clear - L1. induction L1 as [|s ((out & g) & env) ss l (_ & E) _ IH]; cbn [map]; constructor; [|exact IH]. cbn [fst snd]. unfold program_ty in E. destruct (names_ok _); [exact E|discriminate].
    - rewrite map_map. now apply guards_apart with (ss := ss).
    - apply names_ok_spec. split; [|split].
      + eapply Permutation_NoDup; [|exact N1]. clear - L2 S. induction L2 as [|s x ss l (order & W & O & E) _ IH]; [constructor|]. cbn [map concat flat_map]. rewrite flat_map_app.
        apply Permutation_app; [|exact IH]. rewrite E. rewrite classes_structs by now apply sorted_ordered. now rewrite NameProofs.sorted_structs.
      + assert (K : forall c, In c (flat_map gh_classes (map (fun x => snd (fst x)) l)) -> exists p m, In p (map so_tree ss) /\ In m (pr_messages p) /\ c_pkg c = m_package m /\ struct_names c = structs m).
        { clear - L2 S. induction L2 as [|s x ss l (order & W & O & E) _ IH]; [intros c []|]. cbn [map flat_map]. intros c I. apply in_app_iff in I as [I|I].
          - rewrite E in I. apply class_message in I as (m & M & ->); [|now apply sorted_ordered]. cbn [sort_fields pr_messages] in M. apply in_map_iff in M as (m0 & <- & M).
            exists (so_tree s), m0. split; [now left|]. split; [exact M|]. split; reflexivity.
          - destruct (IH c I) as (p & m & A & C). exists p, m. split; [now right|exact C]. }
        intros c d ns Ic Id I J. destruct (K c Ic) as (p & m & P1 & M1 & E1 & _). destruct (K d Id) as (p' & m' & P2 & M2 & _ & E2). rewrite E2 in J.
        refine (N2 p p' m m' ns P1 P2 M1 M2 _ J). rewrite <- E1. now apply namespaces_encloses.
      + intros c I. apply in_flat_map in I as (g & G & I). apply in_map_iff in G as (x & <- & X). clear - L1 X I. induction L1 as [|s ((out & g) & env) ss l (_ & E) _ IH]; [destruct X|].
        destruct X as [<-|X]; [|now apply IH]. cbn [fst snd] in I. unfold program_ty in E. destruct (names_ok (gh_classes g)) eqn:N; [|discriminate]. now apply names_ok_spec in N as (_ & _ & N); apply N.
    - assert (K : forall g, In g (map (fun x => snd (fst x)) l) -> exists p, In p (map so_tree ss) /\ wanted (pr_messages p) (gh_headers g) /\ (has_bytes g = true -> uses (pr_messages p) (fun f => f_type f = FBytes))).
      { clear - L2 S. induction L2 as [|s x ss l (order & W & O & E) _ IH]; [intros g []|]. cbn [map]. intros g [<-|I].
        - exists (so_tree s). split; [now left|]. split; [exact W|]. unfold has_bytes. intros H. apply existsb_exists in H as (c & I & H). rewrite E in I.
          apply class_message in I as (m & M & ->); [|now apply sorted_ordered]. destruct (class_bytes _ _ _ _ _ H) as (f & I & T).
          apply (sorted_uses srt S (so_tree s)). now exists m, f.
        - destruct (IH g I) as (p & A & C). exists p. split; [now right|exact C]. }
      intros g g' G G' HB H64. destruct (K g G) as (p & P1 & W1 & U1). destruct (K g' G') as (p' & P2 & W2 & _).
      apply W1. apply W2 in H64. exact (BT p p' P1 P2 (U1 HB) H64).
  Qed.
End Sources.
