(** Sample schemas for the examples beside the theorems on the generated program. *)
From Coq Require Import Lia Permutation Sorted.
From Verif Require Import Bytes BaseProofs Num Types Read Write SpecJson SpecInterp SpecWrite SampleProofs ProtoLex ProtoParse SpecProto SpecSchema PRenderProofs PSamples Cpp Gen MainC SpecGen SpecCpp SpecFile SpecOpts GenText GenFile BackProofs BackSamples
  SpecProgram ProgramProofs OrderProofs CheckProofs SpecEnd SpecOrder EndProofs.

Definition compiled (text path : bytes) : option cenv :=
  match run_text bare (fun l => l) text path with CExit 0 [] _ (Some (h, cs)) => program_ty h cs | _ => None end.
Lemma compiled_ok text path env : compiled text path = Some env -> compiles bare (fun l => l) text path env.
Proof.
  unfold compiled, compiles. destruct (run_text bare (fun l => l) text path) as [s err out d| | |]; try discriminate.
  destruct s; try discriminate. destruct err; try discriminate. destruct d as [(h, cs)|]; try discriminate. eauto.
Qed.

(** ** test1.proto *)
Lemma test1_cpp h : wanted (pr_messages test1) h -> cpp_fine test1 h.
Proof. apply checked; vm_compute; reflexivity. Qed.
Lemma test1_wire : wire_fine true test1.
Proof. apply wire_checked. vm_compute. reflexivity. Qed.

(** ** A message with a message, an option [name] and a transient field *)
Definition pair_text : bytes := b "message A{int32 x=1;repeated string s=2;}message B{A a=1;bool t=2[transient=true];string n=3[name=""the name""];}".
Definition pair : proto := tree (parse pair_text (b "f")).
Lemma pair_parsed : parse pair_text (b "f") = POk pair.
Proof. vm_compute. reflexivity. Qed.
Lemma pair_fine : proto_fine pair.
Proof. apply succeeds_fine; [exact (parsed_refs _ _ _ pair_parsed)|]. vm_compute. reflexivity. Qed.
Lemma pair_cpp h : wanted (pr_messages pair) h -> cpp_fine pair h.
Proof. apply checked; vm_compute; reflexivity. Qed.
Lemma pair_wire : wire_fine true pair.
Proof. apply wire_checked. vm_compute. reflexivity. Qed.

Definition pair_A : ty := TMsg [TField (PInt true 32); TRep TStr] (GC [(0%nat, b "x"); (1%nat, b "s")] false [(b "x", 0); (b "s", 1)] [(0, 0%nat); (1, 1%nat)]).
Definition pair_B : ty := TMsg [pair_A; TField PBool; TStr]
  (GC [(0%nat, b "a"); (2%nat, b "the name")] false [(b "a", 0); (b "the name", 1)] [(0, 0%nat); (1, 2%nat)]).
Lemma pair_compiles : compiles bare (fun l => l) pair_text (b "f") [([], b "A", pair_A); ([], b "B", pair_B)].
Proof. apply compiled_ok. vm_compute. reflexivity. Qed.

(** An object of the second class. *)
Definition pair_object : val :=
  VMsg [VMsg [VField false (VInt (-7)); VList [VStr false (b "one"); VStr false (b "")]]; VField false (VBool true); VStr false (b "text ""x""")].

(** ** A sorting routine *)
Fixpoint ltb (s t : bytes) : bool :=
  match s, t with
  | _, [] => false
  | [], _ :: _ => true
  | c :: s', d :: t' => (code c <? code d) || (code c =? code d) && ltb s' t'
  end.
Lemma ltb_lt s : forall t, ltb s t = true <-> name_lt s t.
Proof.
  induction s as [|c s IH]; intros [|d t]; cbn [ltb].
  - split; [discriminate|inversion 1].
  - split; [constructor|reflexivity].
  - split; [discriminate|inversion 1].
  - rewrite orb_true_iff, andb_true_iff, Z.ltb_lt, Z.eqb_eq, IH. split.
    + intros [H|(H & K)]; [now constructor|]. apply code_inj in H. subst. now constructor.
    + inversion 1; subst; auto.
Qed.
Lemma lt_trans s t : name_lt s t -> forall u, name_lt t u -> name_lt s u.
Proof.
  induction 1 as [c s|c d s t H|c s t _ IH]; intros u U; inversion U; subst; constructor; auto; lia.
Qed.
Lemma lt_irrefl s : ~ name_lt s s.
Proof. induction s as [|c s IH]; inversion 1; subst; [lia|contradiction]. Qed.
Lemma lt_total2 s : forall t, name_lt s t \/ s = t \/ name_lt t s.
Proof. exact (OrderProofs.lt_total s). Qed.

Fixpoint insert (f : field) (l : list field) : list field :=
  match l with
  | [] => [f]
  | g :: r => if ltb (f_name g) (f_name f) then g :: insert f r else f :: l
  end.
Definition insertion_sort (l : list field) : list field := fold_right insert [] l.

Lemma insert_perm f l : Permutation (insert f l) (f :: l).
Proof.
  induction l as [|g l IH]; [reflexivity|]. cbn [insert]. destruct (ltb (f_name g) (f_name f)); [|reflexivity]. rewrite IH. constructor.
Qed.
Lemma insertion_permutes : permutes insertion_sort.
Proof. intros l. induction l as [|f l IH]; [reflexivity|]. cbn [insertion_sort fold_right]. rewrite insert_perm. now constructor. Qed.

Lemma insert_sorted f l : StronglySorted (fun f g => ~ name_lt (f_name g) (f_name f)) l -> StronglySorted (fun f g => ~ name_lt (f_name g) (f_name f)) (insert f l).
Proof.
  induction l as [|g l IH]; intros S; [repeat constructor|]. cbn [insert]. inversion_clear S as [|? ? S1 S2]. destruct (ltb (f_name g) (f_name f)) eqn:E.
  - constructor; [now apply IH|]. apply Forall_forall. intros x X. apply (Permutation_in _ (insert_perm f l)) in X. destruct X as [<-|X]; [|rewrite Forall_forall in S2; now apply S2].
    apply ltb_lt in E. intros L. exact (lt_irrefl _ (lt_trans _ _ E _ L)).
  - constructor; [now constructor|]. apply Forall_forall. intros x X L. rewrite Forall_forall in S2.
    assert (N : ~ name_lt (f_name g) (f_name f)) by (rewrite <- ltb_lt; congruence).
    destruct X as [<-|X]; [contradiction|]. specialize (S2 x X). apply S2. destruct (lt_total2 (f_name f) (f_name g)) as [H|[H|H]]; [|rewrite <- H; exact L|contradiction].
    exact (lt_trans _ _ L _ H).
Qed.
Lemma insertion_sorts : sorts insertion_sort.
Proof.
  split; [exact insertion_permutes|]. intros l. induction l as [|f l IH]; [constructor|]. cbn [insertion_sort fold_right]. now apply insert_sorted.
Qed.

(** ** Schemas that differ in the order of the fields *)
Definition sf (t : stype) (name : string) (n : Z) : sitem := SIField (SField SPlain t (b name) n []).
Definition forth : list sdecl := [SDMessage (b "M") [sf SInt32 "beta" 1; sf SString "alpha" 2; sf SBoolean "gamma" 3]; SDOption (b "cpp_use_lists", SBool true)].
Definition back : list sdecl := [SDMessage (b "M") [sf SBoolean "gamma" 3; sf SString "alpha" 2; sf SInt32 "beta" 1]; SDOption (b "cpp_use_lists", SBool true)].

(** A space in front of every token. *)
Definition spaced (d : list sdecl) : bytes := lays (map (fun p => (b " ", p)) (schema_pieces d)).
Lemma spaced_laid d : Forall decl_ok d -> laid false (schema_pieces d) (spaced d) [].
Proof.
  intros D. unfold spaced. assert (E : map snd (map (fun p => (b " ", p)) (schema_pieces d)) = schema_pieces d) by (rewrite map_map; apply map_id).
  rewrite <- E at 1. apply lays_laid.
  - apply Forall_forall. intros x X. apply in_map_iff in X as (p & <- & _). cbn [fst]. apply (sep_blank false " "%char []); [cbn; auto|apply sep_nil].
  - rewrite E. now apply schema_pieces_ok.
  - clear E. induction (schema_pieces d) as [|p l IH]; [reflexivity|]. cbn [map follows]. rewrite IH, andb_true_r. destruct p, l; reflexivity.
Qed.

Lemma swap_ok d : d = forth \/ d = back -> schema_ok d.
Proof.
  intros H. split.
  - destruct H as [-> | ->]; (repeat apply Forall_cons; try apply Forall_nil);
      try (split; [apply plain_one; plain|exact I]); (split; [left; plain|]); (split;
        [repeat apply Forall_cons; try apply Forall_nil; (split; [exact I|]); (split; [left; plain|]); (split; [vm_compute; intuition discriminate|apply Forall_nil])
        |cbn; repeat constructor; cbn; intuition discriminate]).
  - intros pkg name items f w H1 H2 H3. destruct H as [-> | ->]; cbn in H1; destruct H1 as [H1|[]]; injection H1 as <- <- <-; cbn in H2; repeat destruct H2 as [<-|H2]; try discriminate H3; destruct H2.
Qed.
Lemma swapped : schema_reordered forth back /\ schema_distinct forth.
Proof.
  split; [split|].
  - repeat constructor. cbn [snd messages_of forth item_fields]. apply Permutation_sym. cbn.
    eapply perm_trans; [apply perm_swap|]. eapply perm_trans; [apply perm_skip, perm_swap|]. eapply perm_trans; [apply perm_swap|]. apply perm_skip. apply perm_swap || apply Permutation_refl.
  - intros n. reflexivity.
  - intros m [<-|[]]. cbn. repeat constructor; cbn; intuition discriminate.
Qed.
Lemma swap_fine : schema_fine forth.
Proof.
  destruct (PAcceptProofs.recovers false forth (spaced forth) [] (b "f") (spaced_laid _ (proj1 (swap_ok forth (or_introl eq_refl)))) (swap_ok forth (or_introl eq_refl)) (sep_nil _)) as (p & P & X & _).
  apply (BackMore.schema_fine_iff p forth X). apply succeeds_fine; [exact (parsed_refs _ _ _ P)|].
  assert (E : match parse (spaced forth ++ []) (b "f") with POk q => succeeds q | _ => false end = true) by (vm_compute; reflexivity). rewrite P in E. exact E.
Qed.

(** ** Names that the mask truncates (C33, C34) *)
Definition order_text : bytes := b "option obfuscate_strings=true;message M{int32 order=1;}".
Definition order_ty : ty := TMsg [TField (PInt true 32)] (GC [(0%nat, b ":")] true [([chr 29], 0)] [(0, 0%nat)]).
Lemma order_wrong : compiles bare (fun l => l) order_text (b "f") [([], b "M", order_ty)] /\
  serialize order_ty (VMsg [VField false (VInt 5)]) None = (true, b "{"":"":5}", None) /\
  deserialize order_ty (dflt order_ty) (b "{""order"":5}") None = Some (true, dflt order_ty, None) /\
  interp (TMsg [TField (PInt true 32)] (GC [(0%nat, b "order")] false [(b "order", 0)] [(0, 0%nat)])) (dflt order_ty) (JObj [(b "order", JNum (b "5"))]) = (RGood, VMsg [VField false (VInt 5)]).
Proof.
  refine (conj _ (conj _ (conj _ _))); [apply compiled_ok|..]; vm_compute; reflexivity.
Qed.

Definition nine_text : bytes := b "option obfuscate_strings=true;option number_names=true;message M{int32 a=9001;int32 c=9002;}".
Definition nine_ty : ty := TMsg [TField (PInt true 32); TField (PInt true 32)] (GC [(0%nat, []); (1%nat, [])] true [([], 0); ([], 1)] [(0, 0%nat); (1, 1%nat)]).
Lemma nine_wrong : compiles bare (fun l => l) nine_text (b "f") [([], b "M", nine_ty)] /\
  serialize nine_ty (VMsg [VField false (VInt 5); VField false (VInt 6)]) None = (true, b "{"""":5,"""":6}", None) /\
  deserialize nine_ty (dflt nine_ty) (b "{""9002"":6}") None = Some (true, dflt nine_ty, None) /\
  deserialize nine_ty (dflt nine_ty) (b "{"""":5,"""":6}") None = Some (true, VMsg [VField false (VInt 6); VField true (VInt 0)], None).
Proof.
  refine (conj _ (conj _ (conj _ _))); [apply compiled_ok|..]; vm_compute; reflexivity.
Qed.

(** ** Bytes (C40) *)
Definition runs (text : bytes) : Z := match run_text bare (fun l => l) text (b "f") with CExit s _ _ _ => s | _ => 2 end.
Definition numbers_ty : ty := TMsg [TRep (TPrim (PInt false 8)); TRep (TPrim (PInt true 32))]
  (GC [(0%nat, b "a"); (1%nat, b "c")] false [(b "a", 0); (b "c", 1)] [(0, 0%nat); (1, 1%nat)]).
Lemma bytes_wrong :
  (runs (b "message M{bytes a=1;}") = 0 /\ compiled (b "message M{bytes a=1;}") (b "f") = None) /\
  (compiles bare (fun l => l) (b "message M{bytes a=1;repeated int32 c=2;}") (b "f") [([], b "M", numbers_ty)] /\
   serialize numbers_ty (VMsg [VList [VPrim (VInt 104); VPrim (VInt 105)]; VList []]) None = (true, b "{""a"":[104,105]}", None)).
Proof.
  split; split; [..|apply compiled_ok|]; vm_compute; reflexivity.
Qed.

(** Names without their masks. *)
Definition masked_text : bytes := b "option obfuscate_strings=true;message M{int32 id=1;string e=2[name=""e-mail""];}".
Definition masked : proto := tree (parse masked_text (b "f")).
Lemma masked_parsed : parse masked_text (b "f") = POk masked.
Proof. vm_compute. reflexivity. Qed.
Lemma masked_fine : proto_fine masked.
Proof. apply succeeds_fine; [exact (parsed_refs _ _ _ masked_parsed)|]. vm_compute. reflexivity. Qed.
Lemma masked_cpp h : wanted (pr_messages masked) h -> cpp_fine masked h.
Proof. apply checked; vm_compute; reflexivity. Qed.
Definition mask_free (l : bytes) : bool := negb (existsb (Ascii.eqb (chr (name_mask (length l)))) l).
Lemma mask_free_ok l : mask_free l = true -> ~ In (chr (name_mask (length l))) l.
Proof.
  unfold mask_free. rewrite negb_true_iff. intros E I. apply not_true_iff_false in E. apply E. apply existsb_exists. eexists. split; [exact I|apply Ascii.eqb_refl].
Qed.
Lemma masked_free : flag (pr_options masked) (b "obfuscate_strings") = true /\ flag (pr_options masked) (b "number_names") = false /\
  forall m f, In m (pr_messages masked) -> In f (m_fields m) -> transient f = false -> ~ In (chr (name_mask (length (json_label false f)))) (json_label false f).
Proof.
  split; [vm_compute; reflexivity|]. split; [vm_compute; reflexivity|]. intros m f M F _. apply mask_free_ok.
  assert (X : forallb (fun m => forallb (fun f => mask_free (json_label false f)) (m_fields m)) (pr_messages masked) = true) by (vm_compute; reflexivity).
  rewrite forallb_forall in X. specialize (X m M). rewrite forallb_forall in X. exact (X f F).
Qed.

(** ** The object of [pair] can be written and read back *)
Lemma pair_jsonable : jsonable false true pair_B pair_object.
Proof.
  constructor. each_member.
  - constructor. each_member; [constructor; [reflexivity|exact I]|]. constructor. intros x [<-|[<-|[]]]; (apply js_str; [discriminate|]); repeat (constructor; [left; discriminate|]); constructor.
  - constructor; [reflexivity|exact I].
  - apply js_str; [discriminate|]. repeat (constructor; [left; discriminate|]). constructor.
Qed.
Lemma pair_faithful : faithful false pair_B pair_object.
Proof.
  constructor; [reflexivity|]. each_member.
  - left. constructor; [reflexivity|]. each_member.
    + left. constructor; [reflexivity|]. right; left; reflexivity.
    + left. constructor. intros x [<-|[<-|[]]]; constructor.
  - left. constructor; [reflexivity|exact I].
  - left. constructor.
Qed.
