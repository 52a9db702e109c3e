(** Samples for the examples beside the theorems on versions of a schema. *)
From Coq Require Import Lia Permutation.
From Verif Require Import Bytes BaseProofs Num Dbl Types Read Write SpecJson SpecNum SpecDbl SpecInterp SpecWrite Termination SampleProofs ProtoLex ProtoParse SpecProto Cpp Gen MainC SpecGen SpecFile BackProofs BackSamples
  SpecProgram CheckProofs SpecEnd EndProofs EndSamples SpecEvolve EvolveProofs SpecVersions VersionProofs.

(** The carried object can be computed. *)
Lemma carries_computed strict ea sn t v t' : tables_ok strict t -> tables_ok strict t' -> sized t -> sized t' -> evolves t t' ->
  has_ty t v = true -> jsonable ea strict t v -> no_nulls t v -> ~ null_value v ->
  carries sn t v t' (snd (interp t' (dflt t') (tojson sn t v))).
Proof.
  intros T T' Z Z' E V J NN N. destruct (evolve_total strict ea sn t v t' T T' Z Z' E V J NN N) as (v' & C & _).
  rewrite (carries_interp strict sn t' T' t v v' T V C). exact C.
Qed.

(** ** Fields removed, added, renamed, reordered, of other types *)
Definition old_text : bytes := b "message Q{double x=1;}message P{int64 id=1;string name=2;repeated int32 tags=3;string gone=4;Q q=6;}".
Definition new_text : bytes := b "message Q{float x=1;bool y=2;}message P{bool fresh=7;string name=2;uint32 number=1[name=""id""];repeated sint64 tags=3;Q q=6;}".
Definition old : proto := tree (parse old_text (b "f")).
Definition new : proto := tree (parse new_text (b "f")).
Lemma old_parsed : parse old_text (b "f") = POk old.
Proof. vm_compute. reflexivity. Qed.
Lemma new_parsed : parse new_text (b "f") = POk new.
Proof. vm_compute. reflexivity. Qed.
Lemma old_fine : proto_fine old.
Proof. apply succeeds_fine; [exact (parsed_refs _ _ _ old_parsed)|]. vm_compute. reflexivity. Qed.
Lemma new_fine : proto_fine new.
Proof. apply succeeds_fine; [exact (parsed_refs _ _ _ new_parsed)|]. vm_compute. reflexivity. Qed.
Lemma old_cpp h : wanted (pr_messages old) h -> cpp_fine old h.
Proof. apply checked; vm_compute; reflexivity. Qed.
Lemma new_cpp h : wanted (pr_messages new) h -> cpp_fine new h.
Proof. apply checked; vm_compute; reflexivity. Qed.
Lemma old_wire : wire_fine false old.
Proof. apply wire_checked. vm_compute. reflexivity. Qed.
Lemma new_wire : wire_fine false new.
Proof. apply wire_checked. vm_compute. reflexivity. Qed.

Definition tables (l : list (nat * bytes)) : gencode :=
  GC l false (combine (map snd l) (map Z.of_nat (seq 0 (length l)))) (combine (map Z.of_nat (seq 0 (length l))) (map fst l)).
Definition numbered (l : list bytes) : gencode := tables (combine (seq 0 (length l)) l).

Definition old_Q : ty := TMsg [TField PDouble] (numbered [b "x"]).
Definition new_Q : ty := TMsg [TField PFloat; TField PBool] (numbered [b "x"; b "y"]).
Definition old_P : ty := TMsg [TField (PInt true 64); TStr; TRep (TPrim (PInt true 32)); TStr; old_Q]
  (numbered [b "id"; b "name"; b "tags"; b "gone"; b "q"]).
Definition new_P : ty := TMsg [TField PBool; TStr; TField (PInt false 32); TRep (TPrim (PInt true 64)); new_Q]
  (numbered [b "fresh"; b "name"; b "id"; b "tags"; b "q"]).
Lemma old_compiles : compiles bare (fun l => l) old_text (b "f") [([], b "Q", old_Q); ([], b "P", old_P)].
Proof. apply compiled_ok. vm_compute. reflexivity. Qed.
Lemma new_compiles : compiles bare (fun l => l) new_text (b "f") [([], b "Q", new_Q); ([], b "P", new_P)].
Proof. apply compiled_ok. vm_compute. reflexivity. Qed.

(** Messages correspond by name. *)
Definition same_name (x y : bytes * bytes) : Prop := x = y.
Definition alike_b (p p' : proto) (f f' : field) : bool :=
  Bool.eqb (f_repeated f) (f_repeated f') &&
  (is_num f && is_num f' && Bool.eqb (number (prim_of (f_type f))) (number (prim_of (f_type f'))) ||
   match f_type f, f_type f' with
   | FString, FString => true
   | FMessage, FMessage =>
       match f_ref f, f_ref f' with
       | Some j, Some j' => match nth_error (pr_messages p) j, nth_error (pr_messages p') j' with
                            | Some m, Some m' => bytes_eqb (m_package m) (m_package m') && bytes_eqb (m_name m) (m_name m')
                            | _, _ => false
                            end
       | _, _ => false
       end
   | _, _ => false
   end).
Definition compatible_b (p p' : proto) : bool :=
  forallb (fun m => forallb (fun m' =>
    negb (bytes_eqb (m_package m) (m_package m') && bytes_eqb (m_name m) (m_name m')) ||
    forallb (fun f => forallb (fun f' => negb (bytes_eqb (wire p f) (wire p' f')) || alike_b p p' f f') (written m')) (written m))
    (pr_messages p')) (pr_messages p).
Lemma compatible_checked p p' : compatible_b p p' = true -> compatible p p' same_name.
Proof.
  intros H m m' M M' K f f' F F' W. unfold compatible_b in H. rewrite forallb_forall in H. specialize (H m M). rewrite forallb_forall in H. specialize (H m' M').
  injection K as K1 K2. rewrite K1, K2, !bytes_eqb_refl in H. cbn [andb negb orb] in H. rewrite forallb_forall in H. specialize (H f F). rewrite forallb_forall in H. specialize (H f' F').
  rewrite W, bytes_eqb_refl in H. cbn [negb orb] in H. unfold alike_b in H. apply andb_prop in H as [RP H]. apply Bool.eqb_prop in RP.
  apply orb_prop in H as [H|H].
  - apply andb_prop in H as [H NN]. apply andb_prop in H as [N N']. apply al_number; auto; [now apply is_num_iff|now apply is_num_iff|now apply Bool.eqb_prop].
  - destruct (f_type f) eqn:T; try discriminate; destruct (f_type f') eqn:T'; try discriminate.
    + now apply al_string.
    + apply al_message; auto. intros j j' n n' J J' N N'. rewrite J, J', N, N' in H. apply andb_prop in H as [A B].
      apply bytes_eqb_true in A. apply bytes_eqb_true in B. unfold same_name, key. now rewrite A, B.
Qed.
Lemma old_new : compatible old new same_name.
Proof. apply compatible_checked. vm_compute. reflexivity. Qed.

Definition two_and_a_half : dbl := DFin false 5629499534213120 (-51).
Definition old_object : val := VMsg [VField false (VInt (-1)); VStr false (b "ann"); VList [VPrim (VInt 1); VPrim (VInt (-2))]; VStr false (b "x");
  VMsg [VField false (VDbl two_and_a_half)]].
Definition new_object : val := VMsg [VField true (VBool false); VStr false (b "ann"); VField false (VInt 4294967295); VList [VPrim (VInt 1); VPrim (VInt (-2))];
  VMsg [VField false (VDbl (DFin false 10485760 (-22))); VField true (VBool false)]].
Lemma old_jsonable : jsonable false false old_P old_object.
Proof.
  constructor. each_member.
  - constructor; [reflexivity|exact I].
  - apply js_str; [discriminate|]. repeat (constructor; [discriminate|]). constructor.
  - constructor. intros x [<-|[<-|[]]]; (constructor; [reflexivity|exact I]).
  - apply js_str; [discriminate|]. repeat (constructor; [discriminate|]). constructor.
  - constructor. each_member. constructor; [reflexivity|exact I].
Qed.
Lemma old_no_nulls : no_nulls old_P old_object.
Proof.
  apply nn_msg. each_member; try (apply nn_scalar; discriminate).
  - apply nn_rep. intros x [<-|[<-|[]]]; (split; [intros []|apply nn_scalar; discriminate]).
  - apply nn_msg. each_member. apply nn_scalar; discriminate.
Qed.
Lemma old_tables : tables_ok false old_P /\ lookup_ok old_P /\ sized old_P.
Proof.
  assert (I1 : In (@nil ascii, b "P", old_P) [([], b "Q", old_Q); ([], b "P", old_P)]) by (right; now left).
  destruct (end_env _ _ _ _ _ _ bare_fine id_permutes old_parsed old_fine old_cpp old_compiles _ _ _ I1) as (L & T).
  split; [exact (T false old_wire)|]. split; [exact L|]. exact (end_sized _ _ _ _ _ _ bare_fine id_permutes old_parsed old_fine old_cpp old_compiles _ _ _ I1).
Qed.
Lemma new_tables : tables_ok false new_P /\ lookup_ok new_P /\ sized new_P.
Proof.
  assert (I1 : In (@nil ascii, b "P", new_P) [([], b "Q", new_Q); ([], b "P", new_P)]) by (right; now left).
  destruct (end_env _ _ _ _ _ _ bare_fine id_permutes new_parsed new_fine new_cpp new_compiles _ _ _ I1) as (L & T).
  split; [exact (T false new_wire)|]. split; [exact L|]. exact (end_sized _ _ _ _ _ _ bare_fine id_permutes new_parsed new_fine new_cpp new_compiles _ _ _ I1).
Qed.
Lemma old_evolves : evolves old_P new_P.
Proof.
  eapply (schema_evolves _ _ _ _ _ _ _ _ _ _ _ _ same_name bare_fine id_permutes old_parsed old_fine old_cpp old_compiles
    bare_fine id_permutes new_parsed new_fine new_cpp new_compiles old_new); [right; now left|right; now left|reflexivity].
Qed.
Lemma old_carries : carries false old_P old_object new_P new_object.
Proof.
  destruct old_tables as (T & _ & Z). destruct new_tables as (T' & _ & Z').
  pose proof (carries_computed false false false old_P old_object new_P T T' Z Z' old_evolves eq_refl old_jsonable old_no_nulls (fun f => f)) as C.
  assert (E : snd (interp new_P (dflt new_P) (tojson false old_P old_object)) = new_object) by (vm_compute; reflexivity).
  rewrite E in C. exact C.
Qed.

(** ** A number becomes a string *)
Definition bad_P : ty := TMsg [TStr] (numbered [b "id"]).
Lemma bad_tables : tables_ok false bad_P /\ lookup_ok bad_P /\ sized bad_P.
Proof.
  split; [|split].
  - apply WriteProofs.tables_ok_msg. split; [|repeat constructor]. split; [repeat constructor; intros []|]. split; [repeat constructor; intros []|]. split.
    + intros k label [[= <- <-]|[]]. split; [repeat constructor; try discriminate; cbn; lia|cbn; lia].
    + intros p [X|[]]. discriminate X.
  - exact (plain_lookup_ok [TStr] [b "id"] ltac:(repeat constructor)).
  - repeat constructor.
Qed.
Lemma old_rejected : rejects false old_P old_object bad_P.
Proof.
  eapply rj_member with (k := 0%nat) (k' := 0%nat) (label := b "id"); try reflexivity; try (now left); [now right|].
  apply rj_kind; [discriminate|]. discriminate.
Qed.

(** ** A field is added *)
Definition more_P : ty := TMsg [TStr; TField (PInt true 64); TField PBool; TStr; TRep (TPrim (PInt true 32)); old_Q; TRep TStr]
  (numbered [b "name"; b "id"; b "fresh"; b "gone"; b "tags"; b "q"; b "list"]).
Lemma more_tables : tables_ok false more_P /\ lookup_ok more_P /\ sized more_P.
Proof.
  destruct old_tables as (T & L & Z). apply WriteProofs.tables_ok_msg in T as (_ & T). apply ReadSim.lookup_ok_msg in L as (_ & L). rewrite Forall_forall in T, L.
  split; [|split].
  - apply WriteProofs.tables_ok_msg. split.
    + split; [vm_compute; nodup|]. split; [vm_compute; nodup|]. split.
      * intros k label IN. vm_compute in IN. repeat (destruct IN as [[= <- <-]|IN]; [split; [repeat (constructor; [repeat split; discriminate|]); constructor|cbn; lia]|]). destruct IN.
      * intros p IN. cbn in IN. repeat (destruct IN as [X|IN]; [discriminate X|]). destruct IN.
    + repeat (constructor; [first [exact I|apply T; cbn; tauto]|]). constructor.
  - apply (plain_lookup_ok _ [b "name"; b "id"; b "fresh"; b "gone"; b "tags"; b "q"; b "list"]).
    repeat (constructor; [first [exact I|apply L; cbn; tauto]|]). constructor.
  - inversion Z as [| | | | |? ? F]; subst. rewrite Forall_forall in F. constructor.
    repeat (constructor; [first [apply F; cbn; tauto|repeat constructor]|]). constructor.
Qed.
Lemma old_more : extends old_P more_P.
Proof.
  apply ex_msg. intros k label t A K. vm_compute in A.
  destruct A as [[= <- <-]|[[= <- <-]|[[= <- <-]|[[= <- <-]|[[= <- <-]|[]]]]]]; cbn [nth_error] in K; injection K as <-.
  - exists 1%nat, (TField (PInt true 64)). split; [vm_compute; tauto|]. split; [reflexivity|]. apply ex_scalar; discriminate.
  - exists 0%nat, TStr. split; [vm_compute; tauto|]. split; [reflexivity|]. apply ex_scalar; discriminate.
  - exists 4%nat, (TRep (TPrim (PInt true 32))). split; [vm_compute; tauto|]. split; [reflexivity|]. apply ex_rep, ex_scalar; discriminate.
  - exists 3%nat, TStr. split; [vm_compute; tauto|]. split; [reflexivity|]. apply ex_scalar; discriminate.
  - exists 5%nat, old_Q. split; [vm_compute; tauto|]. split; [reflexivity|]. apply ex_msg. intros k label t A K. vm_compute in A.
    destruct A as [[= <- <-]|[]]. cbn [nth_error] in K. injection K as <-.
    exists 0%nat, (TField PDouble). split; [vm_compute; tauto|]. split; [reflexivity|]. apply ex_scalar; discriminate.
Qed.
Lemma old_faithful : faithful false old_P old_object.
Proof.
  constructor; [reflexivity|]. each_member; left.
  - constructor; [reflexivity|]. right; right; reflexivity.
  - constructor.
  - constructor. intros x [<-|[<-|[]]]; (constructor; [reflexivity|]); right; left; reflexivity.
  - constructor.
  - constructor; [reflexivity|]. each_member. left. constructor; [reflexivity|]. right. exists 2500000. reflexivity.
Qed.

(** ** The first repeated bytes field *)
Definition raw_text : bytes := b "message P{repeated int32 tags=1;bytes raw=2;}".
Definition raw_more_text : bytes := b "message P{repeated int32 tags=1;bytes raw=2;repeated bytes more=3;}".
Definition raw_P : ty := TMsg [TRep (TPrim (PInt true 32)); TRep (TPrim (PInt false 8))] (numbered [b "tags"; b "raw"]).
Definition raw_more_P : ty := TMsg [TRep (TPrim (PInt true 32)); TB64; TB64] (numbered [b "tags"; b "raw"; b "more"]).
Lemma raw_compiles : compiles bare (fun l => l) raw_text (b "f") [([], b "P", raw_P)] /\
  compiles bare (fun l => l) raw_more_text (b "f") [([], b "P", raw_more_P)].
Proof. split; apply compiled_ok; vm_compute; reflexivity. Qed.
Lemma raw_refused : exists t t' v u,
  compiles bare (fun l => l) raw_text (b "f") [([], b "P", t)] /\ compiles bare (fun l => l) raw_more_text (b "f") [([], b "P", t')] /\
  serialize t v None = (true, b "{""raw"":[120]}", None) /\
  deserialize t (dflt t) (b "{""raw"":[120]}") None = Some (true, v, None) /\
  deserialize t' (dflt t') (b "{""raw"":[120]}") None = Some (false, u, None).
Proof.
  exists raw_P, raw_more_P, (VMsg [VList []; VList [VPrim (VInt 120)]]), (dflt raw_more_P).
  destruct raw_compiles as (A & B). split; [exact A|]. split; [exact B|]. repeat split; vm_compute; reflexivity.
Qed.
