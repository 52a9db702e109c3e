(** The bracketed tokens of the generated classes. *)
From Coq Require Import Lia.
From Verif Require Import Bytes Num Types Cpp SpecCpp CLex CParse BaseProofs NameProofs CLexProofs.

(** The bracketed tokens of a fixed text. *)
Definition T (s : string) : list tree :=
  match trees (fst (lex_run QNone (b s ++ [LF]))) with Some l => l | None => [] end.
Definition W (a : bytes) : tree := Lf (word a).

Lemma goes_to x u st c1 c2 up : goes x u (st, c1, up) -> c1 = c2 -> goes x u (st, c2, up).
Proof. now intros G <-. Qed.
Lemma goes_concat {A} (f : A -> bytes) (g : A -> list tree) (l : list A) : forall cur up st,
  (forall x cur up, In x l -> goes (st, cur, up) (f x) (st, rev (g x) ++ cur, up)) ->
  goes (st, cur, up) (concat (map f l)) (st, rev (concat (map g l)) ++ cur, up).
Proof.
  induction l as [|x l IH]; intros cur up st H; cbn [map concat]; [apply goes_nil|].
  eapply goes_app; [apply H; now left|]. eapply goes_to; [apply IH; intros; apply H; now right|].
  now rewrite rev_app_distr, <- app_assoc.
Qed.

Lemma group_leaf k cur up r x : opens k = None -> closes k = None -> group (Lf k :: cur) up r = x -> group cur up (k :: r) = x.
Proof. intros A B <-. cbn [group]. now rewrite A, B. Qed.
Lemma group_open k y cur up r x : opens k = Some y -> group [] ((y, cur) :: up) r = x -> group cur up (k :: r) = x.
Proof. intros A <-. cbn [group]. now rewrite A. Qed.
Lemma group_close k y cur l up r x : opens k = None -> closes k = Some y -> group (Gr y (rev cur) :: l) up r = x -> group cur ((y, l) :: up) (k :: r) = x.
Proof. intros A B <-. cbn [group]. rewrite A, B. destruct y; reflexivity. Qed.
Ltac grp := repeat (lazymatch goal with
  | |- group _ _ [] = _ => reflexivity
  | |- group _ _ (?k :: _) = _ =>
      let o := eval vm_compute in (opens k) in
      let c := eval vm_compute in (closes k) in
      lazymatch o with
      | Some _ => apply (group_open k _ _ _ _ _ eq_refl)
      | None => lazymatch c with
                | Some _ => apply (group_close k _ _ _ _ _ _ eq_refl eq_refl)
                | None => apply (group_leaf k _ _ _ _ eq_refl eq_refl)
                end
      end
  end).
Ltac conc := first
  [ eapply goes_base; [reflexivity|vm_compute; reflexivity|grp] ].
Ltac word_end := eapply goes_word; [reflexivity|reflexivity|vm_compute; reflexivity|grp].
Ltac num_end := eapply goes_num; [reflexivity|reflexivity|vm_compute; reflexivity|grp].
Ltac piece := lazymatch goal with
  | |- goes (QWord _, _, _) _ _ => first [word_end | apply goes_more; (assumption || reflexivity)]
  | |- goes (QNum _, _, _) _ _ => num_end
  | |- goes (QOp _, _, _) (b _) _ => conc
  | |- goes (QOp _, _, _) [LF] _ => conc
  | |- goes (QOp _, _, _) _ _ => eapply goes_op_ident; [assumption|grp]
  | |- goes (QNone, _, _) (b _) _ => conc
  | |- goes (QNone, _, _) [LF] _ => conc
  | |- goes (QNone, _, _) (dec _) _ => apply goes_number; [assumption|assumption]
  | |- goes (QNone, _, _) _ _ => apply goes_ident; assumption
  | |- goes (QLine, _, _) (b _) _ => conc
  | |- goes (QLine, _, _) [LF] _ => conc
  | |- goes (QLine, _, _) _ _ => apply goes_line; assumption
  | |- _ => conc
  end.
Ltac step := lazymatch goal with
  | |- goes _ (_ ++ _) _ => eapply goes_app; [piece|]
  | |- _ => piece
  end.
Ltac flatten := unfold ln, call, label_text, SpecCpp.quoted; rewrite <- ?app_assoc.

(** [json<decltype(obj.m)>::f(args)] *)
Definition callT (obj f : string) (m : bytes) (args : list tree) : list tree :=
  T "json<decltype" ++ [Gr Paren (T obj ++ T "." ++ [W m])] ++ T ">::" ++ T f ++ [Gr Paren args].

Definition caseT (x : Z * bytes) : list tree :=
  T "case" ++ [Lf (KNum (dec (fst x)))] ++ T ": return" ++ callT "value" "read" (snd x) (T "ctx, value." ++ [W (snd x)]) ++ T ";".

Lemma case_goes z m cur up : wordy m = true -> dec z <> [] -> forallb is_digit_c (dec z) = true ->
  goes (QNone, cur, up) (ln (b "            case " ++ dec z ++ b ": return " ++
                             call (b "value") (b "read") m (b "ctx, value." ++ m) ++ b ";")) (QNone, rev (caseT (z, m)) ++ cur, up).
Proof.
  intros M D1 D2. flatten. eapply goes_to.
  - repeat step.
  - reflexivity.
Qed.

(** Qualified names *)
Definition qualT (pkg a : bytes) : list tree := concat (map (fun c => T "::" ++ [W c]) (parts pkg)) ++ T "::" ++ [W a].

Lemma parts_goes l cur up : Forall (fun c => wordy c = true) l ->
  goes (QOp (b "::"), cur, up) (concat (map (fun c => c ++ b "::") l)) (QOp (b "::"), rev (concat (map (fun c => T "::" ++ [W c]) l)) ++ cur, up).
Proof.
  intros F. rewrite Forall_forall in F. apply goes_concat. intros c cur' up' I. specialize (F c I). eapply goes_to; [repeat step|reflexivity].
Qed.

Ltac settle := cbn [rev app]; rewrite ?rev_app_distr, ?rev_involutive, <- ?app_assoc; cbn [rev app];
  rewrite ?rev_app_distr, ?rev_involutive, <- ?app_assoc; reflexivity.

(** Labels: the literal after the first phases. *)
Definition litT (s : bytes) : tree := Lf (KStr (trigraphs 0 s)).
Definition labelT (l : label) : list tree :=
  match l with Label true s => T "reveal" ++ [Gr Paren [litT s]] | Label false s => [litT s] end.
Lemma goes_lit_then cur up s v rest x : cpp_lit s = Some v -> goes (QEnd, litT s :: cur, up) rest x ->
  goes (QStr [], cur, up) (s ++ b """" ++ rest) x.
Proof. intros L G. rewrite app_assoc. eapply goes_app; [eapply goes_lit, L|exact G]. Qed.

Definition writeT (x : bytes * label) : list tree :=
  T "if" ++ [Gr Paren (T "ctx.params.serialize_null || !" ++ callT "value" "empty" (fst x) (T "value." ++ [W (fst x)]))] ++
  [Gr Brace (T "(*ctx.os) << (f?""\"""":"",\"""") <<" ++ labelT (snd x) ++ T "<< ""\"":"";" ++
             callT "value" "write" (fst x) (T "ctx, value." ++ [W (fst x)]) ++ T "; f=false;")].
Definition entryT (x : bytes * Z) : list tree := [Gr Brace ([litT (fst x)] ++ T "," ++ [Lf (KNum (dec (snd x)))])] ++ T ",".

Section Names.
  Context (v : bytes) (V : forallb is_word_c v = true).
  Context (pkg name : bytes) (P : Forall (fun c => wordy c = true) (parts pkg)) (N : wordy name = true).
  Let t : bytes := qualified pkg name ++ b "_type".
  Let tT : list tree := qualT pkg (name ++ b "_type").

  Ltac stp := lazymatch goal with
    | |- goes _ (concat (map (fun c => c ++ b "::") (parts pkg)) ++ _) _ => eapply goes_app; [apply (parts_goes _ _ _ P)|]
    | |- goes (QStr [], _, _) (_ ++ b """" ++ _) _ => eapply goes_lit_then; [eassumption|]
    | |- goes _ (_ ++ _) _ => eapply goes_app; [piece|]
    | |- _ => piece
    end.
  Ltac flat := unfold ln, call, label_text, SpecCpp.quoted, t, qualified, lib; rewrite <- ?app_assoc.

  Definition funT (head : string) (ps body : list tree) : list tree := T head ++ [Gr Paren ps; Gr Brace body].

  Ltac fin := unfold funT, tT, qualT; settle.
  Ltac whole := flat; eapply goes_to; [repeat stp|fin].

  Lemma read_goes cur up :
    goes (QNone, cur, up) (ln (b "    static int read( json_context &ctx, " ++ t ++ b " &value ) { return read_object(ctx, value); }"))
         (QNone, rev (funT "static int read" (T "json_context &ctx," ++ tT ++ T "&value") (T "return read_object(ctx, value);")) ++ cur, up).
  Proof. whole. Qed.

  (** Bodies made of one piece for each member. *)
  Ltac stp2 f H := lazymatch goal with
    | |- goes _ (concat (map (fun c => c ++ b "::") (parts pkg)) ++ _) _ => eapply goes_app; [apply (parts_goes _ _ _ P)|]
    | |- goes (QStr [], _, _) (_ ++ b """" ++ _) _ => eapply goes_lit_then; [eassumption|]
    | |- goes _ (concat (map _ _) ++ _) _ => eapply goes_app; [apply (goes_concat _ f); exact H|]
    | |- goes _ (_ ++ _) _ => eapply goes_app; [piece|]
    | |- _ => piece
    end.
  Ltac whole2 f H := flat; eapply goes_to; [repeat (stp2 f H)|fin].

  Definition fieldT (cases : list (Z * bytes)) : list tree :=
    match cases with
    | [] => T "(void) ctx; (void) name; (void) value; return PGR_NIL;"
    | _ => T "int idx = index(name); if (idx < 0) return PGR_NIL; switch (idx)" ++
           [Gr Brace (concat (map caseT cases) ++ T "default: return PGR_NIL;")]
    end.
  Lemma field_goes cases cur up : Forall (fun x => wordy (snd x) = true /\ 0 <= fst x) cases ->
    goes (QNone, cur, up) (read_text t cases)
         (QNone, rev (funT "static int read_field" (T "json_context &ctx, const std::string &name," ++ tT ++ T "&value") (fieldT cases)) ++ cur, up).
  Proof.
    intros F. rewrite Forall_forall in F. unfold read_text, fieldT. destruct cases as [|x0 l]; [whole|]. remember (x0 :: l) as cases eqn:E. clear E x0 l.
    assert (H : forall x cur up, In x cases -> goes (QNone, cur, up)
      (ln (b "            case " ++ dec (fst x) ++ b ": return " ++ call (b "value") (b "read") (snd x) (b "ctx, value." ++ snd x) ++ b ";"))
      (QNone, rev (caseT x) ++ cur, up)).
    { intros [z m] c u I. destruct (F _ I) as (M & Z0). cbn [fst snd] in *. apply case_goes; [exact M| |].
      - intros E. assert (D := IntProofs.dec_nat_nonempty (Z.abs z)). unfold dec in E. destruct (z <? 0) eqn:K; [apply Z.ltb_lt in K; lia|]. 
        revert E. apply IntProofs.dec_nat_nonempty. lia.
      - apply forallb_forall. intros c0 I0. pose proof (dec_digits z Z0) as D. rewrite Forall_forall in D. specialize (D c0 I0). cbn beta in D.
        unfold is_digit_c. apply andb_true_iff. split; apply Z.leb_le; lia. }
    unfold ln in H |- *. whole2 caseT H.
  Qed.

  Lemma dec_digitb z : 0 <= z -> dec z <> [] /\ forallb is_digit_c (dec z) = true.
  Proof.
    intros Z0. split.
    - intros E. unfold dec in E. destruct (z <? 0) eqn:K; [apply Z.ltb_lt in K; lia|]. revert E. apply IntProofs.dec_nat_nonempty. lia.
    - apply forallb_forall. intros c0 I0. pose proof (dec_digits z Z0) as D. rewrite Forall_forall in D. specialize (D c0 I0). cbn beta in D.
      unfold is_digit_c. apply andb_true_iff. split; apply Z.leb_le; lia.
  Qed.

  Definition outT (items : list (bytes * label)) : list tree :=
    match items with
    | [] => T "(void) value; (*ctx.os) << ""{}"";"
    | _ => T "bool f = true; (*ctx.os) << '{';" ++ concat (map writeT items) ++ T "(*ctx.os) << '}';"
    end ++ T "return PGR_OK;".
  Definition literal_ok (s : bytes) : Prop := exists v, cpp_lit s = Some v.
  Definition label_ok (l : label) : Prop := let '(Label _ s) := l in literal_ok s.

  Lemma write_goes items cur up : Forall (fun x => wordy (fst x) = true /\ label_ok (snd x)) items ->
    goes (QNone, cur, up) (write_text t items)
         (QNone, rev (funT "static int write" (T "json_context &ctx, const" ++ tT ++ T "&value") (outT items)) ++ cur, up).
  Proof.
    intros F. rewrite Forall_forall in F. unfold write_text, outT. destruct items as [|x0 l]; [whole|]. remember (x0 :: l) as items eqn:E. clear E x0 l.
    assert (H : forall x cur up, In x items -> goes (QNone, cur, up)
      (ln (b "        if (ctx.params.serialize_null || !" ++
             call (b "value") (b "empty") (fst x) (b "value." ++ fst x) ++
             b ") { (*ctx.os) << (f?""\"""":"",\"""") << " ++ label_text (snd x) ++ b " << ""\"":""; " ++
             call (b "value") (b "write") (fst x) (b "ctx, value." ++ fst x) ++ b "; f=false; }"))
      (QNone, rev (writeT x) ++ cur, up)).
    { intros [m [rv s]] c u I. destruct (F _ I) as (M & w & L). cbn [fst snd] in *. destruct rv; flat; (eapply goes_to; [repeat stp|reflexivity]). }
    unfold ln in H |- *. whole2 writeT H.
  Qed.

  Ltac per_member items H F f line :=
    assert (H : forall x cur up, In x items -> goes (QNone, cur, up) (line x) (QNone, rev (f x) ++ cur, up));
    [ intros m c u I; pose proof (F _ I) as M; cbn beta in M; flat; (eapply goes_to; [repeat stp|reflexivity]) | unfold ln in H |- *; whole2 f H ].

  Definition emptyT (m : bytes) : list tree := callT "value" "empty" m (T "value." ++ [W m]) ++ T "&&".
  Definition allT (f : bytes -> list tree) (names : list bytes) : list tree := T "return" ++ concat (map f names) ++ T "true;".
  Lemma empty_goes names cur up : Forall (fun m => wordy m = true) names ->
    goes (QNone, cur, up) (empty_text t names)
         (QNone, rev (funT "static bool empty" (T "const" ++ tT ++ T "&value")
                        (match names with [] => T "(void) value; return true;" | _ => allT emptyT names end)) ++ cur, up).
  Proof.
    intros F. rewrite Forall_forall in F. unfold empty_text, allT. destruct names as [|x0 l]; [whole|]. remember (x0 :: l) as names eqn:E. clear E x0 l.
    per_member names H F emptyT (fun m => ln (b "            " ++ call (b "value") (b "empty") m (b "value." ++ m) ++ b " &&")).
  Qed.

  Definition clearT (m : bytes) : list tree := callT "value" "clear" m (T "value." ++ [W m]) ++ T ";".
  Lemma clear_goes names cur up : Forall (fun m => wordy m = true) names ->
    goes (QNone, cur, up) (clear_text t names)
         (QNone, rev (funT "static void clear" (tT ++ T "&value")
                        (match names with [] => T "(void) value;" | _ => concat (map clearT names) end)) ++ cur, up).
  Proof.
    intros F. rewrite Forall_forall in F. unfold clear_text. destruct names as [|x0 l]; [whole|]. remember (x0 :: l) as names eqn:E. clear E x0 l.
    per_member names H F clearT (fun m => ln (b "        " ++ call (b "value") (b "clear") m (b "value." ++ m) ++ b ";")).
  Qed.

  Definition equalT (m : bytes) : list tree := callT "a" "equal" m (T "a." ++ [W m] ++ T ", b." ++ [W m]) ++ T "&&".
  Lemma equal_goes names cur up : Forall (fun m => wordy m = true) names ->
    goes (QNone, cur, up) (equal_text t names)
         (QNone, rev (funT "static bool equal" (T "const" ++ tT ++ T "&a, const" ++ tT ++ T "&b")
                        (match names with [] => T "(void) a; (void) b; return true;" | _ => allT equalT names end)) ++ cur, up).
  Proof.
    intros F. rewrite Forall_forall in F. unfold equal_text, allT. destruct names as [|x0 l]; [whole|]. remember (x0 :: l) as names eqn:E. clear E x0 l.
    per_member names H F equalT (fun m => ln (b "            " ++ call (b "a") (b "equal") m (b "a." ++ m ++ b ", b." ++ m) ++ b " &&")).
  Qed.

  Definition swapT (m : bytes) : list tree := callT "a" "swap" m (T "a." ++ [W m] ++ T ", b." ++ [W m]) ++ T ";".
  Lemma swap_goes names cur up : Forall (fun m => wordy m = true) names ->
    goes (QNone, cur, up) (swap_text t names)
         (QNone, rev (funT "static void swap" (tT ++ T "&a," ++ tT ++ T "&b")
                        (match names with [] => T "(void) a; (void) b;" | _ => concat (map swapT names) end)) ++ cur, up).
  Proof.
    intros F. rewrite Forall_forall in F. unfold swap_text. destruct names as [|x0 l]; [whole|]. remember (x0 :: l) as names eqn:E. clear E x0 l.
    per_member names H F swapT (fun m => ln (b "        " ++ call (b "a") (b "swap") m (b "a." ++ m ++ b ", b." ++ m) ++ b ";")).
  Qed.

  Definition indexT (obf : bool) (items : list (bytes * Z)) : list tree :=
    match items with
    | [] => T "(void) name; return -1;"
    | _ => (if obf then T "std::string temp = reveal(name);" else T "const std::string &temp = name;") ++
           T "static const std::unordered_map<std::string, int> FIELDS =" ++ [Gr Brace (concat (map entryT items))] ++ T ";" ++
           T "auto it = FIELDS.find(temp); return (it == FIELDS.end()) ? -1 : it->second;"
    end.
  Lemma index_goes obf items cur up : Forall (fun x => literal_ok (fst x) /\ 0 <= snd x) items ->
    goes (QNone, cur, up) (index_text obf items)
         (QNone, rev (funT "static int index" (T "const std::string &name") (indexT obf items)) ++ cur, up).
  Proof.
    intros F. rewrite Forall_forall in F. unfold index_text, indexT. destruct items as [|x0 l]; [whole|]. remember (x0 :: l) as items eqn:E. clear E x0 l.
    assert (H : forall x cur up, In x items -> goes (QNone, cur, up)
      (ln (b "            {" ++ SpecCpp.quoted (fst x) ++ b ", " ++ dec (snd x) ++ b "},")) (QNone, rev (entryT x) ++ cur, up)).
    { intros [s z] c u I. destruct (F _ I) as ((w & L) & Z0). cbn [fst snd] in *. destruct (dec_digitb z Z0) as (D1 & D2).
      flat. eapply goes_to; [repeat stp|reflexivity]. }
    unfold ln in H |- *. destruct obf; whole2 entryT H.
  Qed.
End Names.
