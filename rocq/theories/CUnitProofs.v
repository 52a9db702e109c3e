(** The classes of the text: structures, specializations, macros, types of the members. *)
From Coq Require Import Lia.
From Verif Require Import Bytes Num Types Stream Tokenizer Read Write Cpp SpecCpp SpecOpts CLex CParse CExec SpecText BaseProofs BackMore CLexProofs CTextProofs CClassText CParseProofs CDeclProofs CExecProofs.

Lemma words_true x : forall y, words_eqb x y = true -> x = y.
Proof.
  induction x as [|u x IH]; intros [|w y] E; try discriminate; [reflexivity|]. cbn [words_eqb] in E. apply andb_true_iff in E as (A & B).
  apply same_true in A as ->. now rewrite (IH _ B).
Qed.

(** ** The four declarations *)
Lemma inside_nest l d sp r : inside d = (sp, r) -> exists d', nestD l [d] = [d'] /\ inside d' = (l ++ sp, r).
Proof.
  intros E. induction l as [|x l (d' & N & I)]; cbn [nestD]; [now exists d|]. rewrite N. eexists. split; [reflexivity|]. cbn [inside]. now rewrite I.
Qed.
Lemma qual_qualS pkg a : qual (parts pkg) a = qualS pkg a.
Proof. reflexivity. Qed.

Section Unit.
  Context (v : bytes).

  Definition tclass_of (c : cls) : tclass := TClass (parts (c_pkg c)) (c_name c) (map (memberS v) (c_members c)) (class_funcs c).
  Lemma classD_four c : exists d1 d2 d3 d4, classD v c = [d1; d2; d3; d4] /\ class_in v d1 d2 d3 d4 = Some (tclass_of c).
  Proof.
    unfold classD, structD, jsonD, entityD.
    destruct (inside_nest (parts (c_pkg c)) (DStruct (c_name c ++ b "_type") (map (memberS v) (c_members c))) [] _ eq_refl) as (d1 & N1 & I1). rewrite N1.
    destruct (inside_nest (parts (c_pkg c)) (DMacro ((b "PG" ++ v) ++ b "_ENTITY") (macroS v c [c_name c])) [] _ eq_refl) as (d3 & N3 & I3). rewrite N3.
    eexists d1, _, d3, _. split; [reflexivity|]. unfold class_in. rewrite I1, I3. cbn [inside]. unfold macroS at 1 2. rewrite !app_nil_r.
    unfold tclass_of. fold (typeS c). unfold tc_type. cbn [tc_space tc_name]. rewrite !qual_qualS. fold (typeS c).
    rewrite <- !app_assoc, !same_refl, !words_refl. reflexivity.
  Qed.
  Lemma classes_in_ok cs : classes_in v (concat (map (classD v) cs)) = Some (map tclass_of cs).
  Proof.
    induction cs as [|c cs IH]; [reflexivity|]. cbn [map concat]. destruct (classD_four c) as (d1 & d2 & d3 & d4 & -> & E). cbn [app classes_in]. now rewrite E, IH.
  Qed.

  (** ** Types of members *)
  Context (h : headers).

  Lemma path_qual l a : path_of (concat (map (fun c => [b "::"; c]) l) ++ [b "::"; a]) = Some (l ++ [a]).
  Proof. induction l as [|c l IH]; [reflexivity|]. cbn [map concat app path_of]. rewrite same_refl, IH. reflexivity. Qed.
  Lemma parts_inj p q : parts p = parts q -> p = q.
  Proof.
    intros E. pose proof (parts_ok p) as P. pose proof (parts_ok q) as Q. rewrite E in P. unfold package_parts in *.
    destruct P as [(-> & P)|(_ & P & <- & _)], Q as [(-> & Q)|(_ & Q & <- & _)]; congruence.
  Qed.
  Lemma class_at_find env pkg name : class_at env (parts pkg ++ [name]) = env_find env pkg name.
  Proof.
    induction env as [|[[p n] t] env IH]; [reflexivity|]. cbn [class_at env_find]. rewrite IH. fold (parts p).
    destruct (words_eqb (space_of p ++ [n]) (parts pkg ++ [name])) eqn:E.
    - apply words_true in E. apply app_inj_tail in E as (E & ->). apply parts_inj in E as ->. now rewrite !bytes_eqb_refl.
    - destruct (bytes_eqb p pkg && bytes_eqb n name) eqn:F; [|reflexivity]. apply andb_true_iff in F as (F1 & F2). apply bytes_eqb_true in F1 as ->. apply bytes_eqb_true in F2 as ->.
      unfold space_of in E. fold (parts pkg) in E. now rewrite words_refl in E.
  Qed.
  Lemma prim_word p : wordy (prim_name p) = true -> assoc prim_words (prim_name p) = Some p.
  Proof.
    destruct p as [[] z| | |]; try reflexivity; unfold prim_name; destruct z as [|z|z]; try discriminate;
      do 7 (destruct z as [z|z|]; try discriminate; try reflexivity).
  Qed.
  Lemma qual_two pkg a : exists x y r, qualS pkg a = b "::" :: x :: y ++ r.
  Proof. unfold qualS. destruct (parts pkg) as [|c l]; cbn [map concat app]; [exists a, [], []; reflexivity|]. eexists c, _, []. rewrite app_nil_r. reflexivity. Qed.

  Lemma resolve_elem_ok env e : elem_ok e -> resolve_elem v h env (elemS v e) = elem_ty h env e.
  Proof.
    destruct e as [p| |pkg name]; cbn [elem_ok elemS elem_ty]; intros O.
    - cbn [resolve_elem]. now rewrite (prim_word p O).
    - cbn [resolve_elem]. now rewrite words_refl.
    - pose proof (path_qual (parts pkg) name) as P. fold (qualS pkg name) in P. destruct (qual_two pkg name) as (x & y & r & E). rewrite E in *. unfold resolve_elem.
      change (words_eqb _ _) with false. rewrite P. apply class_at_find.
  Qed.
  Lemma uint8_word e : elem_ok e -> words_eqb (elemS v e) [b "uint8_t"] = is_uint8 e.
  Proof.
    destruct e as [p| |pkg name]; cbn [elem_ok elemS is_uint8]; intros O.
    - cbn [words_eqb]. rewrite andb_true_r. destruct p as [sg z| | |]; try reflexivity.
      pose proof (prim_word _ O) as P. destruct (same (prim_name (PInt sg z)) (b "uint8_t")) eqn:E.
      + apply same_true in E. rewrite E in P. injection P as <- <-. reflexivity.
      + destruct sg; [reflexivity|]. destruct (Z.eq_dec z 8) as [-> |N]; [discriminate E|]. destruct z as [|z|z]; try reflexivity.
        do 4 (destruct z as [z|z|]; try reflexivity). contradiction.
    - reflexivity.
    - destruct (qual_two pkg name) as (x & y & r & ->). reflexivity.
  Qed.
  Lemma between_ok pre e : between pre (pre ++ e ++ [b ">"]) = Some e.
  Proof.
    unfold between. rewrite firstn_app, Nat.sub_diag, firstn_all, skipn_app, Nat.sub_diag, skipn_all. cbn [firstn skipn app]. rewrite app_nil_r, words_refl, rev_app_distr.
    cbn [rev app]. rewrite same_refl. now rewrite rev_involutive.
  Qed.
  Lemma resolve_seq_ok env lists e : elem_ok e -> resolve_seq v h env lists (elemS v e) = member_ty h env (CSeq lists e).
  Proof. intros O. unfold resolve_seq. cbn [member_ty]. now rewrite (uint8_word e O), (resolve_elem_ok env e O). Qed.
  Lemma resolve_ok env t : type_ok t -> member_ty h env t <> None -> resolve v h env (ctypeS v t) = member_ty h env t.
  Proof.
    assert (A : forall x y, same (b "protogen" ++ x) (b "std" ++ y) = false) by (intros; reflexivity).
    destruct t as [p|e|[] e]; cbn [type_ok ctypeS]; intros O N.
    - change [b "protogen" ++ v; b "::"; b "field"; b "<"; prim_name p; b ">"] with ([b "protogen" ++ v; b "::"; b "field"; b "<"] ++ [prim_name p] ++ [b ">"]).
      unfold resolve. rewrite between_ok, (prim_word p O). reflexivity.
    - destruct e as [p| |pkg name]; [now cbn in N| |].
      + cbn [elemS]. unfold resolve, between. cbn [length firstn skipn rev words_eqb]. rewrite !same_refl. change (same (b "string_field") (b "field")) with false. cbn [andb].
        change (same (b "protogen" ++ v) (b "std")) with false. cbn [andb]. exact (resolve_elem_ok env EStr I).
      + pose proof (resolve_elem_ok env (EMsg pkg name) O) as R. cbn [elemS] in *. destruct (qual_two pkg name) as (x & y & r & E). rewrite E in *.
        unfold resolve, between. cbn [length firstn words_eqb]. change (same (b "::") (b "protogen" ++ v)) with false. change (same (b "::") (b "std")) with false. cbn [andb]. exact R.
    - unfold resolve. replace (between [b "protogen" ++ v; b "::"; b "field"; b "<"] _) with (@None (list bytes)) by reflexivity. rewrite between_ok. now apply resolve_seq_ok.
    - unfold resolve. replace (between [b "protogen" ++ v; b "::"; b "field"; b "<"] _) with (@None (list bytes)) by reflexivity.
      replace (between [b "std"; b "::"; b "list"; b "<"] _) with (@None (list bytes)) by reflexivity. rewrite between_ok. now apply resolve_seq_ok.
  Qed.

  (** More classes do not change what a name that is there means. *)
  Lemma find_more env more pkg name t : env_find env pkg name = Some t -> env_find (env ++ more) pkg name = Some t.
  Proof. induction env as [|[[p n] t'] env IH]; [discriminate|]. cbn [app env_find]. destruct (_ && _); auto. Qed.
  Lemma elem_more env more e t : elem_ty h env e = Some t -> elem_ty h (env ++ more) e = Some t.
  Proof. destruct e; cbn [elem_ty]; auto. apply find_more. Qed.
  Lemma member_more env more m t : member_ty h env m = Some t -> member_ty h (env ++ more) m = Some t.
  Proof.
    destruct m as [p|e|l e]; cbn [member_ty]; auto.
    - destruct e; auto; apply elem_more.
    - destruct (_ && _); auto. destruct (h_array h); auto. destruct (elem_ty h env e) as [u|] eqn:E; [|discriminate]. now rewrite (elem_more _ _ _ _ E).
  Qed.

  Lemma members_resolve env more l ms : Forall (fun m => type_ok (fst m)) l -> all_some (map (fun m : ctype * bytes => member_ty h env (fst m)) l) = Some ms ->
    all_some (map (fun m => resolve v h (env ++ more) (fst m)) (map (memberS v) l)) = Some ms.
  Proof.
    revert ms. induction l as [|[t m] l IH]; intros ms O E; [exact E|]. inversion O as [|? ? O1 O2]. subst. cbn [map all_some fst memberS] in *.
    destruct (member_ty h env t) as [u|] eqn:M; [|discriminate]. destruct (all_some (map _ l)) as [us|] eqn:A; [|discriminate]. injection E as <-.
    pose proof (member_more env more t u M) as M'. rewrite resolve_ok; [|exact O1|congruence]. rewrite M', (IH us O2 eq_refl). reflexivity.
  Qed.

  (** ** All classes *)
  Lemma class_msg env c t : class_ty h env c = Some t -> exists ms g, t = TMsg ms g /\ all_some (map (fun m => member_ty h env (fst m)) (c_members c)) = Some ms.
  Proof.
    unfold class_ty. cbv zeta. destruct (_ || _ || _); [discriminate|]. destruct (negb _); [discriminate|].
    destruct (all_some (map (fun m => member_ty h env (fst m)) (c_members c))) as [ms|]; [|discriminate].
    destruct (all_some _) as [w|]; [|discriminate]. destruct (all_some _) as [i|]; [|discriminate]. destruct (all_some _) as [k|]; [|discriminate].
    intros E. injection E as <-. eauto.
  Qed.
  Lemma class_behaves env more c t : cls_ok c -> NoDup (map fst (c_cases c)) -> class_ty h env c = Some t -> behaves v h (env ++ more) (tclass_of c) t.
  Proof.
    intros O ND CT. destruct (class_msg env c t CT) as (ms & g & -> & M). exists ms, g. split; [reflexivity|]. cbn [tclass_of tc_members]. split.
    - apply members_resolve; [|exact M]. destruct O as (_ & _ & O & _). eapply Forall_impl; [|exact O]. cbn. tauto.
    - intros n ea sn vs L. cbv zeta. cbn [tc_funcs].
      change (tc_type (tclass_of c)) with (typeS c). rewrite map_map. change (map (fun x => snd (memberS v x)) (c_members c)) with (map snd (c_members c)).
      split; [intros tk; eapply read_ok; eassumption|]. split; [intros e; eapply write_ok; eassumption|]. split; [eapply empty_ok; eassumption|].
      split; [eapply clear_ok; eassumption|]. split; [intros name; eapply index_ok; eassumption|]. intros vs' L'. split; [eapply equal_ok; eassumption|].
      pose proof (swap_ok n ea sn c ms g h env CT vs vs' L L') as W.
      destruct (text_swap _ _ _ _ _ _ _) as [[u w]|]; exact W.
  Qed.
  Lemma classes_split cs : forall env env', classes_ty h env cs = Some env' -> exists more, env' = env ++ more /\ length more = length cs.
  Proof.
    induction cs as [|c cs IH]; intros env env' E; cbn [classes_ty] in E; [injection E as <-; exists []; now rewrite app_nil_r|].
    destruct (class_ty h env c) as [t|]; [|discriminate]. destruct (IH _ _ E) as (more & -> & L). exists ((c_pkg c, c_name c, t) :: more). rewrite <- app_assoc. split; [reflexivity|]. cbn [length]. now rewrite L.
  Qed.
  Lemma classes_behave cs : forall env more, Forall cls_ok cs -> Forall (fun c => NoDup (map fst (c_cases c))) cs -> classes_ty h env cs = Some (env ++ more) ->
    Forall2 (fun c x => let '(pkg, name, t) := x in tc_space c = space_of pkg /\ tc_name c = name /\ behaves v h (env ++ more) c t) (map tclass_of cs) more.
  Proof.
    induction cs as [|c cs IH]; intros env more O ND E; cbn [classes_ty map] in *.
    - injection E as E. rewrite <- (app_nil_r env) in E at 1. apply app_inv_head in E as <-. constructor.
    - destruct (class_ty h env c) as [t|] eqn:CT; [|discriminate]. inversion O as [|? ? O1 O2]. inversion ND as [|? ? N1 N2]. subst.
      destruct (classes_split _ _ _ E) as (more' & M & _). rewrite <- app_assoc in M. apply app_inv_head in M. subst more. cbn [app].
      constructor; [split; [reflexivity|]; split; [reflexivity|]; now apply class_behaves|].
      change ((c_pkg c, c_name c, t) :: more') with ([(c_pkg c, c_name c, t)] ++ more') in *. rewrite app_assoc in E |- *. exact (IH _ _ O2 N2 E).
  Qed.

  Theorem classes_declare cs env : word_text v -> Forall cls_ok cs -> Forall names_free cs -> Forall (fun c => NoDup (map fst (c_cases c))) cs ->
    classes_ty h [] cs = Some env -> declares v h (concat (map (class_text v) cs)) env.
  Proof.
    intros V O F ND E. exists (concat (map (classD v) cs)), (map tclass_of cs). split; [now apply classes_unit|]. split; [apply classes_in_ok|].
    exact (classes_behave cs [] env O ND E).
  Qed.
End Unit.
