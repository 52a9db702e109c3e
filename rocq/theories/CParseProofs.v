(** From the bracketed tokens of the generated classes to their declarations. *)
From Coq Require Import Lia.
From Verif Require Import Bytes Num Types Cpp SpecCpp CLex CParse BaseProofs NameProofs IntProofs CLexProofs CTextProofs CClassText.

(** ** Lists *)
Lemma pieces_none {A} (p : A -> bool) l : forallb (fun x => negb (p x)) l = true -> pieces p l = [l].
Proof.
  induction l as [|x l IH]; [reflexivity|]. cbn [forallb pieces]. intros E. apply andb_true_iff in E as (X & E). apply negb_true_iff in X. now rewrite X, (IH E).
Qed.
Lemma pieces_first {A} (p : A -> bool) l c r : forallb (fun x => negb (p x)) l = true -> p c = true -> pieces p (l ++ c :: r) = l :: pieces p r.
Proof.
  induction l as [|x l IH]; cbn [forallb pieces app]; [intros _ ->; reflexivity|]. intros E C. apply andb_true_iff in E as (X & E). apply negb_true_iff in X.
  now rewrite X, (IH E C).
Qed.
Lemma pieces_concat {A B} (p : B -> bool) (f : A -> list B) c l r : (forall x, forallb (fun y => negb (p y)) (f x) = true) -> p c = true ->
  pieces p (concat (map (fun x => f x ++ [c]) l) ++ r) = map f l ++ pieces p r.
Proof.
  intros F C. induction l as [|x l IH]; [reflexivity|]. cbn [map concat app]. rewrite <- !app_assoc. cbn [app]. now rewrite (pieces_first p (f x) c _ (F x) C), IH.
Qed.
Lemma halves_none {A} (p : A -> bool) l : forallb (fun x => negb (p x)) l = true -> halves p l = None.
Proof.
  induction l as [|x l IH]; [reflexivity|]. cbn [forallb halves]. intros E. apply andb_true_iff in E as (X & E). apply negb_true_iff in X. now rewrite X, (IH E).
Qed.
Lemma forallb_concat {A B} (q : B -> bool) (f : A -> list B) l : (forall x, forallb q (f x) = true) -> forallb q (concat (map f l)) = true.
Proof. intros F. induction l as [|x l IH]; [reflexivity|]. cbn [map concat]. now rewrite forallb_app, F, IH. Qed.
Lemma all_some_map {A B} (f : A -> option B) (g : A -> B) l : (forall x, In x l -> f x = Some (g x)) -> all_some (map f l) = Some (map g l).
Proof.
  induction l as [|x l IH]; intros H; [reflexivity|]. cbn [map all_some]. rewrite (H x) by now left. rewrite IH by (intros; apply H; now right). reflexivity.
Qed.
Lemma all_some_app {A} (u w : list (option A)) : all_some (u ++ w) = match all_some u, all_some w with Some x, Some y => Some (x ++ y) | _, _ => None end.
Proof.
  induction u as [|[x|] u IH]; cbn [app all_some]; [destruct (all_some w); reflexivity| |reflexivity]. rewrite IH. destruct (all_some u), (all_some w); reflexivity.
Qed.

(** ** Names and types *)
Lemma spelling_word a : spelling (word a) = a.
Proof. unfold word. destruct (existsb _ _); reflexivity. Qed.
Lemma spellings_app u w : spellings (u ++ w) = match spellings u, spellings w with Some x, Some y => Some (x ++ y) | _, _ => None end.
Proof.
  induction u as [|[k|] u IH]; cbn [app spellings]; [destruct (spellings w); reflexivity| |reflexivity]. rewrite IH. destruct (spellings u), (spellings w); reflexivity.
Qed.
Definition qualS (pkg a : bytes) : list bytes := concat (map (fun c => [b "::"; c]) (parts pkg)) ++ [b "::"; a].
Lemma qual_spell pkg a : spellings (qualT pkg a) = Some (qualS pkg a).
Proof.
  unfold qualT, qualS. induction (parts pkg) as [|c l IH].
  - cbn [map concat app]. change (T "::" ++ [W a]) with [Lf (KOp (b "::")); Lf (word a)]. cbn [spellings spelling option_map]. now rewrite spelling_word.
  - cbn [map concat]. change (T "::" ++ [W c]) with [Lf (KOp (b "::")); Lf (word c)] in *. rewrite <- app_assoc. cbn [app spellings spelling]. rewrite IH, spelling_word. reflexivity.
Qed.
Lemma qual_leaves pkg a op : same (b "::") (b op) = false -> forallb (fun x => negb (is_op op x)) (qualT pkg a) = true.
Proof.
  intros E. unfold qualT. assert (K : forall c, forallb (fun x => negb (is_op op x)) (T "::" ++ [W c]) = true).
  { intros c. change (T "::" ++ [W c]) with [Lf (KOp (b "::")); Lf (word c)]. cbn [forallb is_op]. rewrite E. unfold word. now destruct (existsb _ _). }
  rewrite forallb_app, (K a), andb_true_r. now apply forallb_concat.
Qed.
Lemma declared_snoc l x : l <> [] -> declared (l ++ [Lf (KId x)]) = option_map (fun ws => (ws, x)) (spellings l).
Proof.
  intros N. unfold declared. rewrite rev_app_distr. cbn [rev app]. destruct (rev l) as [|u t] eqn:E.
  - apply (f_equal (@rev tree)) in E. rewrite rev_involutive in E. now cbn in E.
  - cbn [option_map]. now rewrite <- (rev_involutive l), E.
Qed.
Lemma qual_nonempty pkg a : qualT pkg a <> [].
Proof. unfold qualT. destruct (concat _); discriminate. Qed.

(** ** Statements *)
Definition calm (t : tree) : bool := match t with Gr Brace _ => false | _ => negb (is_op ";" t) end.
Lemma statements_semi n u r : forallb calm u = true -> forall acc,
  statements (S n) acc (u ++ Lf (KOp (b ";")) :: r) =
  match simple (rev acc ++ u), statements (S n) [] r with Some s, Some ss => Some (s :: ss) | _, _ => None end.
Proof.
  induction u as [|t u IH]; intros C acc; cbn [app].
  - now rewrite app_nil_r.
  - cbn [forallb] in C. apply andb_true_iff in C as (C1 & C2).
    assert (Q : is_op ";" t = false) by (destruct t as [k|[] g]; cbn [calm] in C1; try discriminate; now apply negb_true_iff in C1).
    transitivity (statements (S n) (t :: acc) (u ++ Lf (KOp (b ";")) :: r)).
    + cbn [statements]. rewrite Q. destruct t as [k|[] g]; try reflexivity. discriminate C1.
    + rewrite (IH C2). cbn [rev]. now rewrite <- app_assoc.
Qed.


Lemma statements_push n u : forallb calm u = true -> forall acc r, statements (S n) acc (u ++ r) = statements (S n) (rev u ++ acc) r.
Proof.
  induction u as [|t u IH]; intros C acc r; [reflexivity|]. cbn [forallb] in C. apply andb_true_iff in C as (C1 & C2).
  assert (Q : is_op ";" t = false) by (destruct t as [k|[] g]; cbn [calm] in C1; try discriminate; now apply negb_true_iff in C1).
  transitivity (statements (S n) (t :: acc) (u ++ r)).
  - cbn [app statements]. rewrite Q. destruct t as [k|[] g]; try reflexivity. discriminate C1.
  - rewrite (IH C2). cbn [rev]. now rewrite <- app_assoc.
Qed.
Lemma statements_semi_brace n u g r : forallb calm u = true -> block_next u = false ->
  statements (S n) [] (u ++ Gr Brace g :: Lf (KOp (b ";")) :: r) =
  match simple (u ++ [Gr Brace g]), statements (S n) [] r with Some s, Some ss => Some (s :: ss) | _, _ => None end.
Proof.
  intros C N. rewrite (statements_push n u C). rewrite app_nil_r. cbn [statements is_op]. rewrite rev_involutive, N. cbn [rev]. rewrite rev_involutive. reflexivity.
Qed.
Lemma statements_block n k c g r : is_op ";" k = false -> block_next [k; Gr Paren c] = true ->
  statements (S n) [] (k :: Gr Paren c :: Gr Brace g :: r) =
  match statements n [] g with
  | Some body => match with_block [k; Gr Paren c] body, statements (S n) [] r with Some s, Some ss => Some (s :: ss) | _, _ => None end
  | None => None
  end.
Proof.
  intros K N. destruct k as [k|[]]; try discriminate N. cbn [statements]. rewrite K. cbn [is_op rev app]. rewrite N. reflexivity.
Qed.
Lemma statements_concat {A} n (f : A -> list tree) (g : A -> stmt) l r :
  (forall x r, In x l -> statements (S n) [] (f x ++ r) = match statements (S n) [] r with Some ss => Some (g x :: ss) | None => None end) ->
  statements (S n) [] (concat (map f l) ++ r) = match statements (S n) [] r with Some ss => Some (map g l ++ ss) | None => None end.
Proof.
  intros H. induction l as [|x l IH].
  - cbn [map concat app]. now destruct (statements (S n) [] r).
  - cbn [map concat]. rewrite <- app_assoc, H by now left. rewrite IH by (intros; apply H; now right). now destruct (statements (S n) [] r).
Qed.

Lemma decimal_dec z : 0 <= z -> decimal (dec z) = Some z.
Proof.
  intros Z0. unfold dec. destruct (Z.ltb_spec z 0); [lia|]. destruct (dec_nat_spec z Z0) as (V & D & _). pose proof (dec_nat_int_part z Z0) as I.
  assert (G : forall s acc, decimal_go acc s = fold_left (fun a c => 10 * a + (code c - 48)) s acc) by (induction s as [|c s IH]; intros acc; [reflexivity|apply IH]).
  assert (Dg : forallb is_digit_c (dec_nat z) = true) by (apply forallb_forall; intros c Hc; pose proof (proj1 (forallb_forall _ _) D c Hc) as Q; exact Q).
  unfold digits_val in V. rewrite <- G in V. destruct I as [I|(d & r & I & _ & N & _)]; rewrite I in *.
  - rewrite <- V. reflexivity.
  - unfold decimal. rewrite Dg. destruct r as [|c r]; [rewrite <- V; cbn [decimal_go]; f_equal; lia|]. apply Ascii.eqb_neq in N. now rewrite N, V.
Qed.

Section Bodies.
  Definition memberE (obj : string) (m : bytes) : expr := XDot (XName (b obj)) m.
  Definition callE (obj f : string) (m : bytes) (args : list expr) : expr := XCall (XJson (memberE obj m) (b f)) args.

  Ltac wd := unfold callT, W; repeat match goal with K : is_keyword ?m = false |- context [word ?m] => rewrite (word_id m K) end.

  Ltac semi := rewrite <- ?app_assoc; cbn [app]; unfold deep; rewrite statements_semi by reflexivity; cbn [rev app];
    match goal with |- context [simple ?x] => let r := eval vm_compute in (simple x) in replace (simple x) with r by (vm_compute; reflexivity) end.

  (** ** read_field *)
  Definition caseS (x : Z * bytes) : stmt := SCase (fst x) (SReturn (callE "value" "read" (snd x) [XName (b "ctx"); memberE "value" (snd x)])).
  Definition fieldS (cases : list (Z * bytes)) : list stmt :=
    match cases with
    | [] => [SExpr (XVoid (XName (b "ctx"))); SExpr (XVoid (XName (b "name"))); SExpr (XVoid (XName (b "value"))); SReturn (XName (b "PGR_NIL"))]
    | _ => [SLocal LInt (b "idx") (XCall (XName (b "index")) [XName (b "name")]);
            SIf (XOp (b "<") (XName (b "idx")) (XNum 0)) (SReturn (XName (b "PGR_NIL")));
            SSwitch (XName (b "idx")) (map caseS cases ++ [SDefault (SReturn (XName (b "PGR_NIL")))])]
    end.

  Lemma case_simple z m : is_keyword m = false -> 0 <= z ->
    simple (T "case" ++ [Lf (KNum (dec z))] ++ T ": return" ++ callT "value" "read" m (T "ctx, value." ++ [W m])) = Some (caseS (z, m)).
  Proof.
    intros K Z0. wd.
    transitivity (match decimal (dec z) with Some z' => Some (caseS (z', m)) | None => None end); [|now rewrite (decimal_dec z Z0)].
    generalize (dec z). intros d. vm_compute. reflexivity.
  Qed.
  Lemma field_body cases : Forall (fun x => is_keyword (snd x) = false /\ 0 <= fst x) cases -> body_of (fieldT cases) = Some (fieldS cases).
  Proof.
    intros F. rewrite Forall_forall in F. unfold body_of, fieldT, fieldS. destruct cases as [|x0 l]; [vm_compute; reflexivity|].
    remember (x0 :: l) as cases eqn:E. clear E x0 l.
    assert (C : statements 7 [] (concat (map caseT cases) ++ T "default: return PGR_NIL;") = Some (map caseS cases ++ [SDefault (SReturn (XName (b "PGR_NIL")))])).
    { rewrite (statements_concat 6 caseT caseS); [vm_compute (statements 7 [] (T _)); reflexivity|].
      intros [z m] r I. destruct (F _ I) as (K & Z0). cbn [fst snd] in *. unfold caseT. cbn [fst snd].
      rewrite <- !app_assoc. rewrite (app_assoc (T "case")), (app_assoc (_ ++ _)), (app_assoc (_ ++ _)).
      change (T ";") with [Lf (KOp (b ";"))]. cbn [app]. rewrite statements_semi.
      - cbn [rev app]. rewrite <- !app_assoc. now rewrite case_simple.
      - wd. reflexivity. }
    set (g := concat (map caseT cases) ++ T "default: return PGR_NIL;") in *. clearbody g.
    change (T "int idx = index(name); if (idx < 0) return PGR_NIL; switch (idx)") with
      (T "int idx = index(name)" ++ Lf (KOp (b ";")) :: T "if (idx < 0) return PGR_NIL" ++ Lf (KOp (b ";")) :: T "switch (idx)").
    semi. semi. change (T "switch (idx)" ++ [Gr Brace g]) with ([Lf (KKw (b "switch")); Gr Paren [Lf (KId (b "idx"))]; Gr Brace g]).
    rewrite statements_block by reflexivity. now rewrite C.
  Qed.

  (** ** write *)
  Definition labelE (l : label) : expr :=
    match l with Label true s => XCall (XName (b "reveal")) [XStr (trigraphs 0 s)] | Label false s => XStr (trigraphs 0 s) end.
  Definition osE : expr := XStar (XDot (XName (b "ctx")) (b "os")).
  Definition shl : expr -> expr -> expr := XOp (b "<<").
  Definition writeS (x : bytes * label) : stmt :=
    SIf (XOp (b "||") (XDot (XDot (XName (b "ctx")) (b "params")) (b "serialize_null")) (XNot (callE "value" "empty" (fst x) [memberE "value" (fst x)])))
        (SBlock [SExpr (shl (shl (shl osE (XIf (XName (b "f")) (XStr (b "\""")) (XStr (b ",\""")))) (labelE (snd x))) (XStr (b "\"":")));
                 SExpr (callE "value" "write" (fst x) [XName (b "ctx"); memberE "value" (fst x)]);
                 SExpr (XSet (XName (b "f")) (XBool false))]).
  Definition outS (items : list (bytes * label)) : list stmt :=
    match items with
    | [] => [SExpr (XVoid (XName (b "value"))); SExpr (shl osE (XStr (b "{}")))]
    | _ => [SLocal LBool (b "f") (XBool true); SExpr (shl osE (XChr (b "{")))] ++ map writeS items ++ [SExpr (shl osE (XChr (b "}")))]
    end ++ [SReturn (XName (b "PGR_OK"))].

  Lemma write_stmt x r : is_keyword (fst x) = false ->
    statements 8 [] (writeT x ++ r) = match statements 8 [] r with Some ss => Some (writeS x :: ss) | None => None end.
  Proof.
    destruct x as [m l]. cbn [fst]. intros K. unfold writeT. cbn [fst snd].
    set (c := T "ctx.params.serialize_null || !" ++ _). set (g := T _ ++ labelT l ++ _).
    change (T "if") with [Lf (KKw (b "if"))]. cbn [app]. rewrite statements_block by reflexivity.
    assert (C : expr_of c = Some (XOp (b "||") (XDot (XDot (XName (b "ctx")) (b "params")) (b "serialize_null")) (XNot (callE "value" "empty" m [memberE "value" m])))).
    { unfold c. wd. clear. vm_compute. reflexivity. }
    assert (G : statements 7 [] g = Some [SExpr (shl (shl (shl osE (XIf (XName (b "f")) (XStr (b "\""")) (XStr (b ",\""")))) (labelE l)) (XStr (b "\"":")));
                 SExpr (callE "value" "write" m [XName (b "ctx"); memberE "value" m]);
                 SExpr (XSet (XName (b "f")) (XBool false))]).
    { unfold g. wd. clear. destruct l as [[] s]; unfold labelT, litT, labelE; generalize (trigraphs 0 s); intros u; vm_compute; reflexivity. }
    rewrite G. unfold with_block. change (is_kw "if" _) with true. cbn match. rewrite C. reflexivity.
  Qed.
  Lemma write_body items : Forall (fun x => is_keyword (fst x) = false) items -> body_of (outT items) = Some (outS items).
  Proof.
    intros F. rewrite Forall_forall in F. unfold body_of, outT, outS. destruct items as [|x0 l]; [vm_compute; reflexivity|].
    remember (x0 :: l) as items eqn:E. clear E x0 l. rewrite <- !app_assoc.
    change (T "bool f = true; (*ctx.os) << '{';") with (T "bool f = true" ++ Lf (KOp (b ";")) :: T "(*ctx.os) << '{'" ++ Lf (KOp (b ";")) :: []).
    semi. semi. rewrite (statements_concat 7 writeT writeS) by (intros x r I; apply write_stmt, F, I).
    change (T "(*ctx.os) << '}';" ++ T "return PGR_OK;") with (T "(*ctx.os) << '}'; return PGR_OK;").
    replace (statements 8 [] (T _)) with (Some [SExpr (shl osE (XChr (b "}"))); SReturn (XName (b "PGR_OK"))]) by (vm_compute; reflexivity).
    reflexivity.
  Qed.

  (** ** empty and equal *)
  Lemma binary_none op sub l : forallb (fun x => negb (at_op op x)) l = true -> binary op sub l = sub l.
  Proof. intros N. unfold binary. rewrite (pieces_none _ _ N). cbn [map all_some]. now destruct (sub l). Qed.

  Lemma assignment_level rec l : forallb (fun x => negb (at_op "=" x)) l = true -> forallb (fun x => negb (at_op "?" x)) l = true ->
    forallb (fun x => negb (at_op "||" x)) l = true ->
    assignment rec l = binary "&&" (binary "==" (binary "<" (binary "<<" (unary rec)))) l.
  Proof.
    intros A C O. unfold assignment. rewrite (halves_none _ _ A). unfold conditional. rewrite (halves_none _ _ C).
    unfold level. apply (binary_none "||"), O.
  Qed.
  Lemma binary_pieces op sub l es : all_some (map sub (pieces (at_op op) l)) = Some es ->
    binary op sub l = match es with e :: r => Some (fold_left (XOp (b op)) r e) | [] => None end.
  Proof. intros E. unfold binary. now rewrite E. Qed.

  Definition conjE (f : bytes -> expr) (names : list bytes) : expr := 
    match map f names ++ [XBool true] with e :: es => fold_left (XOp (b "&&")) es e | [] => XBool true end.
  (** A conjunction of calls, [true] at the end. *)
  Lemma conj_expr (f : bytes -> list tree) (a : bytes -> list atom) (e : bytes -> expr) names :
    (forall m r, In m names -> atoms (f m ++ r) = a m ++ At (Lf (KOp (b "&&"))) :: atoms r) ->
    (forall m, forallb (fun x => negb (at_op "&&" x || at_op "||" x || at_op "?" x || at_op "=" x)) (a m) = true) ->
    (forall m, In m names -> binary "==" (binary "<" (binary "<<" (unary (expression 7)))) (a m) = Some (e m)) ->
    binary "==" (binary "<" (binary "<<" (unary (expression 7)))) [At (Lf (KKw (b "true")))] = Some (XBool true) ->
    expr_of (concat (map f names) ++ T "true") = Some (conjE e names).
  Proof.
    intros A S E X. unfold expr_of, deep.
    assert (C : atoms (concat (map f names) ++ T "true") = concat (map (fun m => a m ++ [At (Lf (KOp (b "&&")))]) names) ++ [At (Lf (KKw (b "true")))]).
    { clear S E X. induction names as [|m l IH]; [reflexivity|]. cbn [map concat]. rewrite <- !app_assoc, A by now left. cbn [app]. f_equal. f_equal. apply IH. intros; apply A; now right. }
    rewrite C. clear A C f.
    assert (O : forall op, In op ["||"; "?"; "="]%string -> forallb (fun x => negb (at_op op x)) (concat (map (fun m => a m ++ [At (Lf (KOp (b "&&")))]) names) ++ [At (Lf (KKw (b "true")))]) = true).
    { intros op I. rewrite forallb_app. assert (R : forall m, forallb (fun x => negb (at_op op x)) (a m ++ [At (Lf (KOp (b "&&")))]) = true).
      { intros m. rewrite forallb_app. specialize (S m). rewrite forallb_forall in S. apply andb_true_iff. split.
        - apply forallb_forall. intros x I0. specialize (S x I0). rewrite !negb_orb, !andb_true_iff in S. destruct S as (((? & ?) & ?) & ?).
          destruct I as [<-|[<-|[<-|[]]]]; assumption.
        - destruct I as [<-|[<-|[<-|[]]]]; reflexivity. }
      rewrite (forallb_concat _ _ _ R). destruct I as [<-|[<-|[<-|[]]]]; reflexivity. }
    change (expression 8) with (assignment (expression 7)). rewrite assignment_level by (apply O; cbn; auto).
    revert E X. generalize (binary "==" (binary "<" (binary "<<" (unary (expression 7))))). intros sub E X.
    rewrite (binary_pieces _ _ _ (map e names ++ [XBool true])).
    - unfold conjE. destruct (map e names ++ [XBool true]) eqn:Y; [|reflexivity]. destruct (map e names); discriminate.
    - rewrite (pieces_concat (at_op "&&") a); [|intros m; specialize (S m); rewrite forallb_forall in S |- *; intros x I; specialize (S x I); rewrite !negb_orb, !andb_true_iff in S; tauto|reflexivity].
      change (pieces _ [At _]) with [[At (Lf (KKw (b "true")))]]. rewrite map_app, all_some_app, map_map, (all_some_map _ e) by exact E.
      cbn [map all_some]. now rewrite X.
  Qed.

  Definition emptyE (m : bytes) : expr := callE "value" "empty" m [memberE "value" m].
  Definition equalE (m : bytes) : expr := callE "a" "equal" m [memberE "a" m; memberE "b" m].
  Lemma return_body l e : forallb calm l = true -> expr_of l = Some e -> body_of (T "return" ++ l ++ T ";") = Some [SReturn e].
  Proof.
    intros C E. unfold body_of, deep. rewrite app_assoc. change (T ";") with [Lf (KOp (b ";"))]. rewrite statements_semi.
    - cbn [rev app]. change (T "return" ++ l) with (Lf (KKw (b "return")) :: l). cbn [simple is_kw]. replace (same (b "return") (b "return")) with true by reflexivity. rewrite E. reflexivity.
    - rewrite forallb_app, C. reflexivity.
  Qed.
  Lemma empty_body names : Forall (fun m => is_keyword m = false) names ->
    body_of (match names with [] => T "(void) value; return true;" | _ => allT emptyT names end) =
    Some (match names with [] => [SExpr (XVoid (XName (b "value"))); SReturn (XBool true)] | _ => [SReturn (conjE emptyE names)] end).
  Proof.
    intros F. rewrite Forall_forall in F. destruct names as [|x0 l]; [vm_compute; reflexivity|]. remember (x0 :: l) as names eqn:E. clear E x0 l.
    unfold allT. change (T "true;") with (T "true" ++ T ";"). rewrite (app_assoc (concat _)). apply return_body.
    - rewrite forallb_app, andb_true_iff. split; [|reflexivity]. apply forallb_concat. intros m. unfold emptyT, callT, W. reflexivity.
    - apply (conj_expr emptyT (fun m => [AJson [Lf (KId (b "value")); Lf (KOp (b ".")); Lf (KId m)] (b "empty"); At (Gr Paren [Lf (KId (b "value")); Lf (KOp (b ".")); Lf (KId m)])])).
      + intros m r I. specialize (F m I). unfold emptyT. wd. reflexivity.
      + reflexivity.
      + intros m _. vm_compute. reflexivity.
      + vm_compute. reflexivity.
  Qed.
  Lemma equal_body names : Forall (fun m => is_keyword m = false) names ->
    body_of (match names with [] => T "(void) a; (void) b; return true;" | _ => allT equalT names end) =
    Some (match names with [] => [SExpr (XVoid (XName (b "a"))); SExpr (XVoid (XName (b "b"))); SReturn (XBool true)] | _ => [SReturn (conjE equalE names)] end).
  Proof.
    intros F. rewrite Forall_forall in F. destruct names as [|x0 l]; [vm_compute; reflexivity|]. remember (x0 :: l) as names eqn:E. clear E x0 l.
    unfold allT. change (T "true;") with (T "true" ++ T ";"). rewrite (app_assoc (concat _)). apply return_body.
    - rewrite forallb_app, andb_true_iff. split; [|reflexivity]. apply forallb_concat. intros m. unfold equalT, callT, W. reflexivity.
    - apply (conj_expr equalT (fun m => [AJson [Lf (KId (b "a")); Lf (KOp (b ".")); Lf (KId m)] (b "equal"); At (Gr Paren [Lf (KId (b "a")); Lf (KOp (b ".")); Lf (KId m); Lf (KOp (b ",")); Lf (KId (b "b")); Lf (KOp (b ".")); Lf (KId m)])])).
      + intros m r I. specialize (F m I). unfold equalT. wd. reflexivity.
      + reflexivity.
      + intros m _. vm_compute. reflexivity.
      + vm_compute. reflexivity.
  Qed.

  (** ** clear and swap *)
  Definition clearS (m : bytes) : stmt := SExpr (callE "value" "clear" m [memberE "value" m]).
  Definition swapS (m : bytes) : stmt := SExpr (callE "a" "swap" m [memberE "a" m; memberE "b" m]).
  Lemma calls_body (f : bytes -> list tree) (g : bytes -> stmt) names :
    (forall m, forallb calm (f m) = true) -> (forall m, In m names -> simple (f m) = Some (g m)) -> 
    body_of (concat (map (fun m => f m ++ T ";") names)) = Some (map g names).
  Proof.
    intros C S. unfold body_of, deep. rewrite <- (app_nil_r (concat _)).
    rewrite (statements_concat 7 _ g); [cbn [statements]; now rewrite app_nil_r|]. intros m r I. change (T ";") with [Lf (KOp (b ";"))].
    rewrite <- app_assoc. cbn [app]. rewrite statements_semi by apply C. cbn [rev app]. now rewrite (S m I).
  Qed.
  Lemma clear_body names : Forall (fun m => is_keyword m = false) names ->
    body_of (match names with [] => T "(void) value;" | _ => concat (map clearT names) end) =
    Some (match names with [] => [SExpr (XVoid (XName (b "value")))] | _ => map clearS names end).
  Proof.
    intros F. rewrite Forall_forall in F. destruct names as [|x0 l]; [vm_compute; reflexivity|]. remember (x0 :: l) as names eqn:E. clear E x0 l.
    apply (calls_body (fun m => callT "value" "clear" m (T "value." ++ [W m])) clearS); [reflexivity|]. intros m I. specialize (F m I). wd. vm_compute. reflexivity.
  Qed.
  Lemma swap_body names : Forall (fun m => is_keyword m = false) names ->
    body_of (match names with [] => T "(void) a; (void) b;" | _ => concat (map swapT names) end) =
    Some (match names with [] => [SExpr (XVoid (XName (b "a"))); SExpr (XVoid (XName (b "b")))] | _ => map swapS names end).
  Proof.
    intros F. rewrite Forall_forall in F. destruct names as [|x0 l]; [vm_compute; reflexivity|]. remember (x0 :: l) as names eqn:E. clear E x0 l.
    apply (calls_body (fun m => callT "a" "swap" m (T "a." ++ [W m] ++ T ", b." ++ [W m])) swapS); [reflexivity|]. intros m I. specialize (F m I). wd. vm_compute. reflexivity.
  Qed.

  (** ** index *)
  Definition entryE (x : bytes * Z) : expr := XList [XStr (trigraphs 0 (fst x)); XNum (snd x)].
  Definition indexS (obf : bool) (items : list (bytes * Z)) : list stmt :=
    match items with
    | [] => [SExpr (XVoid (XName (b "name"))); SReturn (XMinus (XNum 1))]
    | _ => [(if obf then SLocal LString (b "temp") (XCall (XName (b "reveal")) [XName (b "name")]) else SLocal LStringRef (b "temp") (XName (b "name")));
            SLocal LMap (b "FIELDS") (XList (map entryE items));
            SLocal LAuto (b "it") (XCall (XDot (XName (b "FIELDS")) (b "find")) [XName (b "temp")]);
            SReturn (XIf (XOp (b "==") (XName (b "it")) (XCall (XDot (XName (b "FIELDS")) (b "end")) [])) (XMinus (XNum 1)) (XArrow (XName (b "it")) (b "second")))]
    end.
  Lemma listed_trailing rec l ps es : l <> [] -> pieces (is_op ",") l = ps ++ [[]] -> all_some (map (fun p => rec (atoms p)) ps) = Some es ->
    listed rec true l = Some es.
  Proof.
    intros N P E. unfold listed. cbn zeta. rewrite P, rev_app_distr. cbn [rev app]. rewrite rev_involutive. destruct l; [congruence|exact E].
  Qed.
  Lemma expr_one n t : (match t with Lf (KOp _) => false | _ => true end) = true -> expression (S n) [At t] = unary (expression n) [At t].
  Proof.
    intros O. assert (N : forall op, forallb (fun x => negb (at_op op x)) [At t] = true).
    { intros op. destruct t as [[]|]; try discriminate O; reflexivity. }
    cbn [expression]. rewrite assignment_level by apply N. now rewrite !binary_none by apply N.
  Qed.
  Lemma entry_expr n s d z : decimal d = Some z ->
    expression (S (S n)) (atoms [Gr Brace ([Lf (KStr s)] ++ T "," ++ [Lf (KNum d)])]) = Some (XList [XStr s; XNum z]).
  Proof.
    intros D. cbn [atoms]. rewrite expr_one by reflexivity. cbn [unary primary]. change (T ",") with [Lf (KOp (b ","))]. cbn [app]. unfold listed.
    change (pieces (is_op ",") _) with [[Lf (KStr s)]; [Lf (KNum d)]]. cbn [rev app map atoms]. rewrite !expr_one by reflexivity.
    cbn [unary primary]. rewrite D. reflexivity.
  Qed.
  Lemma index_body obf items : Forall (fun x => 0 <= snd x) items -> body_of (indexT obf items) = Some (indexS obf items).
  Proof.
    intros F. rewrite Forall_forall in F. unfold body_of, indexT, indexS. destruct items as [|x0 l]; [vm_compute; reflexivity|].
    set (u := if obf then T _ else T _). set (z := T "auto it = FIELDS.find(temp); return (it == FIELDS.end()) ? -1 : it->second;").
    set (g := concat (map entryT (x0 :: l))).
    assert (G : expr_of [Gr Brace g] = Some (XList (map entryE (x0 :: l)))).
    { assert (L : listed (expression 7) true g = Some (map entryE (x0 :: l))).
      { apply listed_trailing with (ps := map (fun x => [Gr Brace ([litT (fst x)] ++ T "," ++ [Lf (KNum (dec (snd x)))])]) (x0 :: l)).
        - unfold g, entryT. destruct x0. cbn [map concat]. discriminate.
        - unfold g. rewrite <- (app_nil_r (concat _)). apply (pieces_concat (is_op ",") (fun x => [Gr Brace ([litT (fst x)] ++ T "," ++ [Lf (KNum (dec (snd x)))])])); reflexivity.
        - rewrite map_map. apply all_some_map.
          intros x I. apply entry_expr, decimal_dec, F, I. }
      unfold expr_of, deep. cbn [atoms]. rewrite expr_one by reflexivity. cbn [unary primary]. now rewrite L. }
    clearbody g. clear F.
    assert (L : simple (T "static const std::unordered_map<std::string, int> FIELDS =" ++ [Gr Brace g]) = Some (SLocal LMap (b "FIELDS") (XList (map entryE (x0 :: l))))).
    { remember (map entryE (x0 :: l)) as es eqn:E. clear E x0 l. clear u z.
      change (simple (T "static const std::unordered_map<std::string, int> FIELDS =" ++ [Gr Brace g])) with
        (match match expr_of [Gr Brace g] with Some e => Some (SLocal LMap (b "FIELDS") e) | None => None end with Some s => Some s
         | None => option_map SExpr (expr_of (T "static const std::unordered_map<std::string, int> FIELDS =" ++ [Gr Brace g])) end). now rewrite G. }
    set (d := T "static const std::unordered_map<std::string, int> FIELDS =") in *.
    assert (D : statements 8 [] (d ++ [Gr Brace g] ++ T ";" ++ z) = Some (SLocal LMap (b "FIELDS") (XList (map entryE (x0 :: l))) ::
      [SLocal LAuto (b "it") (XCall (XDot (XName (b "FIELDS")) (b "find")) [XName (b "temp")]);
            SReturn (XIf (XOp (b "==") (XName (b "it")) (XCall (XDot (XName (b "FIELDS")) (b "end")) [])) (XMinus (XNum 1)) (XArrow (XName (b "it")) (b "second")))])).
    { change (T ";") with [Lf (KOp (b ";"))]. cbn [app]. rewrite statements_semi_brace by reflexivity. rewrite L.
      replace (statements 8 [] z) with (Some [SLocal LAuto (b "it") (XCall (XDot (XName (b "FIELDS")) (b "find")) [XName (b "temp")]);
            SReturn (XIf (XOp (b "==") (XName (b "it")) (XCall (XDot (XName (b "FIELDS")) (b "end")) [])) (XMinus (XNum 1)) (XArrow (XName (b "it")) (b "second")))]) by (vm_compute; reflexivity).
      reflexivity. }
    set (rest := d ++ [Gr Brace g] ++ T ";" ++ z) in *. clearbody rest. unfold u, deep. destruct obf.
    - change (T "std::string temp = reveal(name);") with (T "std::string temp = reveal(name)" ++ [Lf (KOp (b ";"))]). semi. now rewrite D.
    - change (T "const std::string &temp = name;") with (T "const std::string &temp = name" ++ [Lf (KOp (b ";"))]). semi. now rewrite D.
  Qed.
End Bodies.
