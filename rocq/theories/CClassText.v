(** The bracketed tokens of whole classes. *)
From Coq Require Import Lia.
From Verif Require Import Bytes Num Types Cpp SpecCpp CLex CParse BaseProofs NameProofs CLexProofs CTextProofs.

Definition words_ok (l : list bytes) : Prop := Forall (fun c => wordy c = true) l.

(** ** Namespaces *)
Fixpoint nestT (l : list bytes) (x : list tree) : list tree :=
  match l with [] => x | c :: r => T "namespace" ++ [W c; Gr Brace (nestT r x)] end.

Lemma nest_goes x xT : (forall cur up, goes (QNone, cur, up) x (QNone, rev xT ++ cur, up)) ->
  forall l l' cur up, words_ok l -> words_ok l' -> length l = length l' ->
  goes (QNone, cur, up) (concat (map (fun c => ln (b "namespace " ++ c ++ b " {")) l) ++ x ++
                         concat (map (fun c => ln (b "} // namespace " ++ c)) l')) (QNone, rev (nestT l xT) ++ cur, up).
Proof.
  intros X. induction l as [|c l IH]; intros l' cur up F F' E.
  - destruct l'; [|discriminate]. cbn [map concat app nestT]. rewrite app_nil_r. apply X.
  - destruct l' as [|d0 l0] using rev_ind; [discriminate|]. clear IHl0. rewrite app_length in E. cbn [length] in E.
    apply Forall_app in F' as (F1 & F2). inversion F2 as [|? ? D _]. subst. inversion F as [|? ? C F3]. subst.
    apply wordy_words in D. rewrite map_app, concat_app. cbn [map concat nestT]. rewrite app_nil_r. unfold ln at 1 3.
    rewrite <- !app_assoc. eapply goes_app; [conc|]. eapply goes_app; [piece|]. eapply goes_app; [piece|]. eapply goes_app; [conc|].
    rewrite (app_assoc x), (app_assoc (concat _)). eapply goes_app; [apply IH; auto; lia|].
    unfold ln. rewrite <- ?app_assoc. eapply goes_to; [repeat step|]. rewrite ?app_nil_r. settle.
Qed.

Section Class.
  Context (v : bytes) (V : forallb is_word_c v = true).
  Let pg : tree := W (b "protogen" ++ v).

  Ltac stp := lazymatch goal with
    | H : Forall (fun c => wordy c = true) ?l |- goes _ (concat (map (fun c => c ++ b "::") ?l) ++ _) _ => eapply goes_app; [apply (parts_goes _ _ _ H)|]
    | H : words_ok ?l |- goes _ (concat (map (fun c => c ++ b "::") ?l) ++ _) _ => eapply goes_app; [apply (parts_goes _ _ _ H)|]
    | |- goes _ (_ ++ _) _ => eapply goes_app; [piece|]
    | |- _ => piece
    end.
  Ltac flat := unfold ln, call, qualified, lib; rewrite <- ?app_assoc.
  Ltac whole := flat; eapply goes_to; [repeat stp|unfold qualT; settle].

  (** ** Members *)
  Definition elemT (e : celem) : list tree :=
    match e with
    | EPrim p => [W (prim_name p)]
    | EStr => [pg] ++ T "::string_field"
    | EMsg pkg name => qualT pkg name
    end.
  Definition typeT (t : ctype) : list tree :=
    match t with
    | CField p => [pg] ++ T "::field<" ++ [W (prim_name p)] ++ T ">"
    | CElem e => elemT e
    | CSeq true e => T "std::list<" ++ elemT e ++ T ">"
    | CSeq false e => T "std::vector<" ++ elemT e ++ T ">"
    end.
  Definition elem_ok (e : celem) : Prop :=
    match e with
    | EPrim p => wordy (prim_name p) = true
    | EStr => True
    | EMsg pkg name => words_ok (parts pkg) /\ wordy name = true
    end.
  Definition type_ok (t : ctype) : Prop :=
    match t with CField p => wordy (prim_name p) = true | CElem e | CSeq _ e => elem_ok e end.
  Definition memberT (m : ctype * bytes) : list tree := typeT (fst m) ++ [W (snd m)] ++ T ";".

  Lemma member_goes m cur up : type_ok (fst m) -> wordy (snd m) = true ->
    goes (QNone, cur, up) (ln (b "        " ++ type_text v (fst m) ++ b " " ++ snd m ++ b ";")) (QNone, rev (memberT m) ++ cur, up).
  Proof.
    destruct m as [t m]. cbn [fst snd]. intros O M. unfold memberT. cbn [fst snd].
    destruct t as [p|[p| |pkg name]|[] [p| |pkg name]]; cbn [type_ok elem_ok] in O; cbn [type_text elem_text typeT elemT];
      try destruct O as (O1 & O2); whole.
  Qed.

  Definition structT (c : cls) : list tree :=
    nestT (parts (c_pkg c)) (T "struct" ++ [W (c_name c ++ b "_type"); Gr Brace (concat (map memberT (c_members c)))] ++ T ";").
  Lemma struct_goes c cur up : words_ok (parts (c_pkg c)) -> wordy (c_name c) = true ->
    Forall (fun m => type_ok (fst m) /\ wordy (snd m) = true) (c_members c) ->
    goes (QNone, cur, up) (struct_text v c) (QNone, rev (structT c) ++ cur, up).
  Proof.
    intros P N F. rewrite Forall_forall in F. unfold struct_text, opening, closing, structT.
    assert (H : forall m cur up, In m (c_members c) ->
      goes (QNone, cur, up) (ln (b "        " ++ type_text v (fst m) ++ b " " ++ snd m ++ b ";")) (QNone, rev (memberT m) ++ cur, up)).
    { intros m cu u I. destruct (F m I). now apply member_goes. }
    rewrite !(app_assoc (ln _)), (app_assoc (ln _ ++ ln _)), (app_assoc (_ ++ concat _)).
    assert (E : forall a1 a2 a3 a4 a5 a6 : bytes, a1 ++ (((a2 ++ a3) ++ a4) ++ a5) ++ a6 = a1 ++ (a2 ++ a3 ++ a4 ++ a5) ++ a6) by (intros; now rewrite <- !app_assoc).
    first [rewrite E | idtac]. apply nest_goes; auto. intros cu u. unfold ln in H |- *. rewrite <- ?app_assoc. eapply goes_to.
    - eapply goes_app; [piece|]. eapply goes_app; [piece|]. eapply goes_app; [piece|]. eapply goes_app; [piece|]. eapply goes_app; [piece|]. eapply goes_app; [piece|].
      eapply goes_app; [apply (goes_concat _ memberT); exact H|]. repeat step.
    - settle.
  Qed.

  (** ** The specialization of [json] *)
  Definition jsonT (c : cls) : list tree :=
    let tT := qualT (c_pkg c) (c_name c ++ b "_type") in
    T "namespace" ++ [pg; Gr Brace (T "template<> struct json<" ++ tT ++ T ">" ++ [Gr Brace (
      funT "static int read" (T "json_context &ctx," ++ tT ++ T "&value") (T "return read_object(ctx, value);") ++
      funT "static int read_field" (T "json_context &ctx, const std::string &name," ++ tT ++ T "&value") (fieldT (c_cases c)) ++
      funT "static int write" (T "json_context &ctx, const" ++ tT ++ T "&value") (outT (c_write c)) ++
      funT "static bool empty" (T "const" ++ tT ++ T "&value") (match c_empty c with [] => T "(void) value; return true;" | _ => allT emptyT (c_empty c) end) ++
      funT "static void clear" (tT ++ T "&value") (match c_clear c with [] => T "(void) value;" | _ => concat (map clearT (c_clear c)) end) ++
      funT "static bool equal" (T "const" ++ tT ++ T "&a, const" ++ tT ++ T "&b") (match c_equal c with [] => T "(void) a; (void) b; return true;" | _ => allT equalT (c_equal c) end) ++
      funT "static void swap" (tT ++ T "&a," ++ tT ++ T "&b") (match c_swap c with [] => T "(void) a; (void) b;" | _ => concat (map swapT (c_swap c)) end) ++
      funT "static int index" (T "const std::string &name") (indexT (c_obf c) (c_index c)))] ++ T ";")].

  Definition cls_ok (c : cls) : Prop :=
    words_ok (parts (c_pkg c)) /\ wordy (c_name c) = true /\
    Forall (fun m => type_ok (fst m) /\ wordy (snd m) = true) (c_members c) /\
    Forall (fun x => wordy (snd x) = true /\ 0 <= fst x) (c_cases c) /\
    Forall (fun x => wordy (fst x) = true /\ label_ok (snd x)) (c_write c) /\
    words_ok (c_empty c) /\ words_ok (c_clear c) /\ words_ok (c_equal c) /\ words_ok (c_swap c) /\
    Forall (fun x => literal_ok (fst x) /\ 0 <= snd x) (c_index c).

  Lemma json_goes c cur up : cls_ok c -> goes (QNone, cur, up) (json_text v c) (QNone, rev (jsonT c) ++ cur, up).
  Proof.
    intros (P & N & _ & C & O & E1 & E2 & E3 & E4 & I). unfold json_text, jsonT. cbn zeta. eapply goes_to.
    - eapply goes_app; [flat; repeat stp|]. eapply goes_app; [flat; repeat stp|]. eapply goes_app; [flat; repeat stp|].
      eapply goes_app; [eapply read_goes; eassumption|].
      eapply goes_app; [eapply field_goes; eassumption|].
      eapply goes_app; [eapply write_goes; eassumption|].
      eapply goes_app; [eapply empty_goes; eassumption|].
      eapply goes_app; [eapply clear_goes; eassumption|].
      eapply goes_app; [eapply equal_goes; eassumption|].
      eapply goes_app; [eapply swap_goes; eassumption|].
      eapply goes_app; [eapply index_goes; eassumption|].
      flat. repeat stp.
    - rewrite ?app_nil_r. unfold qualT. settle.
  Qed.

  (** ** The macros *)
  Definition entityT (c : cls) : list tree :=
    let tT := qualT (c_pkg c) (c_name c ++ b "_type") in
    let args n := [Gr Paren (n ++ T "," ++ tT ++ T "," ++ [pg] ++ T "::json<" ++ tT ++ T ">")] in
    nestT (parts (c_pkg c)) ([W ((b "PG" ++ v) ++ b "_ENTITY")] ++ args [W (c_name c)]) ++
    [W ((b "PG" ++ v) ++ b "_ENTITY_SERIALIZER")] ++ args (qualT (c_pkg c) (c_name c)).
  Lemma entity_goes c cur up : cls_ok c -> goes (QNone, cur, up) (entity_text v c) (QNone, rev (entityT c) ++ cur, up).
  Proof.
    intros (P & N & _). unfold entity_text, entityT, opening, closing. cbn zeta.
    assert (E : forall x y z w : bytes, x ++ y ++ z ++ w = (x ++ y ++ z) ++ w) by (intros; now rewrite <- !app_assoc).
    rewrite E. clear E.
    change (b "_type,") with (b "_type" ++ b ","). change (b "_type>)") with (b "_type" ++ b ">)"). eapply goes_to.
    - eapply goes_app; [apply nest_goes; auto|]. 
      + intros cu u. flat. eapply goes_to; [repeat stp|]. instantiate (1 := [W ((b "PG" ++ v) ++ b "_ENTITY")] ++ [Gr Paren ([W (c_name c)] ++ T "," ++ qualT (c_pkg c) (c_name c ++ b "_type") ++ T "," ++ [pg] ++ T "::json<" ++ qualT (c_pkg c) (c_name c ++ b "_type") ++ T ">")]).
        unfold qualT. settle.
      + flat. repeat stp.
    - unfold qualT. do 4 (cbn [rev app]; rewrite ?rev_app_distr, ?rev_involutive, ?app_nil_r, <- ?app_assoc). reflexivity.
  Qed.

  Definition classT (c : cls) : list tree := structT c ++ jsonT c ++ entityT c.
  Lemma class_goes c cur up : cls_ok c -> goes (QNone, cur, up) (class_text v c) (QNone, rev (classT c) ++ cur, up).
  Proof.
    intros O. pose proof O as (P & N & M & _). unfold class_text, classT. rewrite !rev_app_distr, <- !app_assoc.
    assert (N' : forallb is_word_c (c_name c) = true) by (apply wordy_words, N).
    eapply goes_app; [piece|]. eapply goes_app; [unfold ln; repeat step|]. eapply goes_app; [unfold ln; rewrite <- ?app_assoc; repeat step|].
    eapply goes_app; [unfold ln; repeat step|]. eapply goes_app; [apply struct_goes; auto|]. eapply goes_app; [apply json_goes, O|apply entity_goes, O].
  Qed.

  Lemma classes_trees cs : Forall cls_ok cs ->
    exists ks, tokens (concat (map (class_text v) cs)) = Some ks /\ trees ks = Some (concat (map classT cs)).
  Proof.
    intros F. rewrite Forall_forall in F.
    assert (G : goes (QNone, [], []) (concat (map (class_text v) cs)) (QNone, rev (concat (map classT cs)) ++ [], [])).
    { apply goes_concat. intros c cur up I. apply class_goes; auto. }
    apply goes_end in G. unfold machine in G. unfold tokens. fold phases. fold (phases (concat (map (class_text v) cs))).
    destruct (lex_run QNone (phases _)) as [ks z]. destruct (group [] [] ks) as [[c u]|] eqn:E; [|discriminate]. injection G as -> -> ->.
    exists ks. split; [reflexivity|]. unfold trees. rewrite E. now rewrite app_nil_r, rev_involutive.
  Qed.
End Class.
