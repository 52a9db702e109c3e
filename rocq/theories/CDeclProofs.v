(** The declarations of the generated classes, from their bracketed tokens. *)
From Coq Require Import Lia.
From Verif Require Import Bytes Num Types Cpp SpecCpp CLex CParse BaseProofs NameProofs IntProofs CLexProofs CTextProofs CClassText CParseProofs.

(** ** Names that are not keywords *)
Fixpoint starts (p w : bytes) : bool :=
  match p, w with [], _ => true | c :: p', d :: w' => Ascii.eqb c d && starts p' w' | _, [] => false end.
Lemma starts_app p w : starts p (p ++ w) = true.
Proof. induction p as [|c p IH]; [reflexivity|]. cbn [starts app]. now rewrite Ascii.eqb_refl. Qed.
Lemma keyword_start p w : forallb (fun k => negb (starts p k)) cpp_keywords = true -> is_keyword (p ++ w) = false.
Proof.
  intros F. apply not_true_is_false. intros E. unfold is_keyword in E. apply existsb_exists in E as (k & I & E). apply bytes_eqb_true in E.
  rewrite forallb_forall in F. specialize (F k I). rewrite <- E, starts_app in F. discriminate.
Qed.
Lemma keyword_end p w : forallb (fun k => negb (starts (rev w) (rev k))) cpp_keywords = true -> is_keyword (p ++ w) = false.
Proof.
  intros F. apply not_true_is_false. intros E. unfold is_keyword in E. apply existsb_exists in E as (k & I & E). apply bytes_eqb_true in E.
  rewrite forallb_forall in F. specialize (F k I). rewrite <- E, rev_app_distr, starts_app in F. discriminate.
Qed.
Lemma type_word a : W (a ++ b "_type") = Lf (KId (a ++ b "_type")).
Proof. unfold W. rewrite word_id; [reflexivity|]. apply keyword_end. reflexivity. Qed.
Lemma lib_word v : W (b "protogen" ++ v) = Lf (KId (b "protogen" ++ v)).
Proof. unfold W. rewrite word_id; [reflexivity|]. apply keyword_start. reflexivity. Qed.
Lemma entity_word v : W ((b "PG" ++ v) ++ b "_ENTITY") = Lf (KId ((b "PG" ++ v) ++ b "_ENTITY")).
Proof. unfold W. rewrite word_id; [reflexivity|]. apply keyword_end. reflexivity. Qed.
Lemma serializer_word v : W ((b "PG" ++ v) ++ b "_ENTITY_SERIALIZER") = Lf (KId ((b "PG" ++ v) ++ b "_ENTITY_SERIALIZER")).
Proof. unfold W. rewrite word_id; [reflexivity|]. apply keyword_end. reflexivity. Qed.

(** ** Functions *)
Definition leaves (l : list tree) : Prop := exists ws, spellings l = Some ws.

Lemma functions_one k2 k3 ps body r ps' body' :
  parameters ps = Some ps' -> body_of body = Some body' ->
  functions [] ([Lf (KKw (b "static")); Lf k2; Lf (KId k3)] ++ [Gr Paren ps; Gr Brace body] ++ r) =
  match functions [] r with Some fs => Some (Func [spelling k2] k3 ps' body' :: fs) | None => None end.
Proof.
  intros P B. cbn [app functions rev]. unfold function_of. cbn [rev app]. change (is_kw "static" _) with true. cbn match. rewrite P, B. unfold declared. cbn [rev app spellings option_map]. now destruct (functions [] r).
Qed.

(** A parameter: some words, the type, "&" and a name. *)
Lemma param_one pre q ws x pw : spellings pre = Some pw -> spellings q = Some ws ->
  declared (pre ++ q ++ [Lf (KOp (b "&")); Lf (KId x)]) = Some (pw ++ ws ++ [b "&"], x).
Proof.
  intros P Q. rewrite (app_assoc q [_] [_] : q ++ [Lf (KOp (b "&")); Lf (KId x)] = (q ++ [Lf (KOp (b "&"))]) ++ [Lf (KId x)]), app_assoc, declared_snoc.
  - rewrite !spellings_app, P, Q. reflexivity.
  - destruct pre, q; discriminate.
Qed.

Section Parameters.
  Context (q : list tree) (ws : list bytes) (Q : spellings q = Some ws) (C : forallb (fun x => negb (is_op "," x)) q = true).

  Lemma parameters_nonempty l : l <> [] -> parameters l = all_some (map declared (pieces (is_op ",") l)).
  Proof. destruct l; [congruence|reflexivity]. Qed.
  Lemma no_comma pre post : forallb (fun x => negb (is_op "," x)) pre = true -> forallb (fun x => negb (is_op "," x)) post = true ->
    forallb (fun x => negb (is_op "," x)) (pre ++ q ++ post) = true.
  Proof. intros A B. now rewrite !forallb_app, A, C, B. Qed.
  Ltac one := erewrite (param_one _ q ws); [|reflexivity|exact Q].
  Ltac last := rewrite (pieces_none (is_op ",")) by (apply no_comma; reflexivity).

  Lemma params_read : parameters (T "json_context &ctx," ++ q ++ T "&value") = Some [([b "json_context"; b "&"], b "ctx"); (ws ++ [b "&"], b "value")].
  Proof.
    rewrite parameters_nonempty by discriminate. change (T "json_context &ctx," ++ q ++ T "&value") with (T "json_context &ctx" ++ Lf (KOp (b ",")) :: ([] ++ q ++ [Lf (KOp (b "&")); Lf (KId (b "value"))])).
    rewrite pieces_first by reflexivity. last. cbn [map all_some]. one. reflexivity.
  Qed.
  Lemma params_field : parameters (T "json_context &ctx, const std::string &name," ++ q ++ T "&value") =
    Some [([b "json_context"; b "&"], b "ctx"); ([b "const"; b "std"; b "::"; b "string"; b "&"], b "name"); (ws ++ [b "&"], b "value")].
  Proof.
    rewrite parameters_nonempty by discriminate. change (T "json_context &ctx, const std::string &name," ++ q ++ T "&value") with
      (T "json_context &ctx" ++ Lf (KOp (b ",")) :: T "const std::string &name" ++ Lf (KOp (b ",")) :: ([] ++ q ++ [Lf (KOp (b "&")); Lf (KId (b "value"))])).
    rewrite pieces_first by reflexivity. rewrite pieces_first by reflexivity. last. cbn [map all_some]. one. reflexivity.
  Qed.
  Lemma params_write : parameters (T "json_context &ctx, const" ++ q ++ T "&value") =
    Some [([b "json_context"; b "&"], b "ctx"); (b "const" :: ws ++ [b "&"], b "value")].
  Proof.
    rewrite parameters_nonempty by discriminate. change (T "json_context &ctx, const" ++ q ++ T "&value") with (T "json_context &ctx" ++ Lf (KOp (b ",")) :: (T "const" ++ q ++ [Lf (KOp (b "&")); Lf (KId (b "value"))])).
    rewrite pieces_first by reflexivity. last. cbn [map all_some]. one. reflexivity.
  Qed.
  Lemma params_empty : parameters (T "const" ++ q ++ T "&value") = Some [(b "const" :: ws ++ [b "&"], b "value")].
  Proof.
    rewrite parameters_nonempty by discriminate. change (T "&value") with [Lf (KOp (b "&")); Lf (KId (b "value"))]. last. cbn [map all_some]. one. reflexivity.
  Qed.
  Lemma params_clear : parameters (q ++ T "&value") = Some [(ws ++ [b "&"], b "value")].
  Proof.
    rewrite parameters_nonempty by (destruct q; discriminate). change (q ++ T "&value") with ([] ++ q ++ [Lf (KOp (b "&")); Lf (KId (b "value"))]). last. cbn [map all_some]. one. reflexivity.
  Qed.
  Lemma params_equal : parameters (T "const" ++ q ++ T "&a, const" ++ q ++ T "&b") = Some [(b "const" :: ws ++ [b "&"], b "a"); (b "const" :: ws ++ [b "&"], b "b")].
  Proof.
    rewrite parameters_nonempty by discriminate.
    change (T "&a, const" ++ q ++ T "&b") with ([Lf (KOp (b "&")); Lf (KId (b "a"))] ++ Lf (KOp (b ",")) :: (T "const" ++ q ++ [Lf (KOp (b "&")); Lf (KId (b "b"))])).
    rewrite !(app_assoc q), (app_assoc (T "const") (_ ++ _) (_ :: _)).
    rewrite pieces_first; [|apply no_comma; reflexivity|reflexivity]. last. cbn [map all_some]. one. one. reflexivity.
  Qed.
  Lemma params_swap : parameters (q ++ T "&a," ++ q ++ T "&b") = Some [(ws ++ [b "&"], b "a"); (ws ++ [b "&"], b "b")].
  Proof.
    rewrite parameters_nonempty by (destruct q; discriminate).
    change (q ++ T "&a," ++ q ++ T "&b") with ([] ++ q ++ [Lf (KOp (b "&")); Lf (KId (b "a"))] ++ Lf (KOp (b ",")) :: ([] ++ q ++ [Lf (KOp (b "&")); Lf (KId (b "b"))])).
    rewrite (app_assoc q), (app_assoc [] (_ ++ _) (_ :: _)).
    rewrite pieces_first; [|apply no_comma; reflexivity|reflexivity]. last. cbn [map all_some]. one. one. reflexivity.
  Qed.
End Parameters.

(** ** The specialization of [json] *)
Definition ctxP : list bytes * bytes := ([b "json_context"; b "&"], b "ctx").
Definition nameP : list bytes * bytes := ([b "const"; b "std"; b "::"; b "string"; b "&"], b "name").
Definition refP (t : list bytes) (x : string) : list bytes * bytes := (t ++ [b "&"], b x).
Definition crefP (t : list bytes) (x : string) : list bytes * bytes := (b "const" :: t ++ [b "&"], b x).
Definition typeS (c : cls) : list bytes := qualS (c_pkg c) (c_name c ++ b "_type").

Definition class_funcs (c : cls) : list func :=
  let t := typeS c in
  [Func [b "int"] (b "read") [ctxP; refP t "value"] [SReturn (XCall (XName (b "read_object")) [XName (b "ctx"); XName (b "value")])];
   Func [b "int"] (b "read_field") [ctxP; nameP; refP t "value"] (fieldS (c_cases c));
   Func [b "int"] (b "write") [ctxP; crefP t "value"] (outS (c_write c));
   Func [b "bool"] (b "empty") [crefP t "value"] (match c_empty c with [] => [SExpr (XVoid (XName (b "value"))); SReturn (XBool true)] | _ => [SReturn (conjE emptyE (c_empty c))] end);
   Func [b "void"] (b "clear") [refP t "value"] (match c_clear c with [] => [SExpr (XVoid (XName (b "value")))] | _ => map clearS (c_clear c) end);
   Func [b "bool"] (b "equal") [crefP t "a"; crefP t "b"] (match c_equal c with [] => [SExpr (XVoid (XName (b "a"))); SExpr (XVoid (XName (b "b"))); SReturn (XBool true)] | _ => [SReturn (conjE equalE (c_equal c))] end);
   Func [b "void"] (b "swap") [refP t "a"; refP t "b"] (match c_swap c with [] => [SExpr (XVoid (XName (b "a"))); SExpr (XVoid (XName (b "b")))] | _ => map swapS (c_swap c) end);
   Func [b "int"] (b "index") [nameP] (indexS (c_obf c) (c_index c))].

Definition free (l : list bytes) : Prop := Forall (fun m => is_keyword m = false) l.
(** No name is a keyword and the numbers are not negative. *)
Definition names_free (c : cls) : Prop :=
  free (parts (c_pkg c)) /\ free (map snd (c_members c)) /\
  Forall (fun x => is_keyword (snd x) = false /\ 0 <= fst x) (c_cases c) /\
  Forall (fun x => is_keyword (fst x) = false) (c_write c) /\
  free (c_empty c) /\ free (c_clear c) /\ free (c_equal c) /\ free (c_swap c) /\
  Forall (fun x => 0 <= snd x) (c_index c).

Lemma class_functions c : names_free c ->
  let tT := qualT (c_pkg c) (c_name c ++ b "_type") in
  functions [] (
      funT "static int read" (T "json_context &ctx," ++ tT ++ T "&value") (T "return read_object(ctx, value);") ++
      funT "static int read_field" (T "json_context &ctx, const std::string &name," ++ tT ++ T "&value") (fieldT (c_cases c)) ++
      funT "static int write" (T "json_context &ctx, const" ++ tT ++ T "&value") (outT (c_write c)) ++
      funT "static bool empty" (T "const" ++ tT ++ T "&value") (match c_empty c with [] => T "(void) value; return true;" | _ => allT emptyT (c_empty c) end) ++
      funT "static void clear" (tT ++ T "&value") (match c_clear c with [] => T "(void) value;" | _ => concat (map clearT (c_clear c)) end) ++
      funT "static bool equal" (T "const" ++ tT ++ T "&a, const" ++ tT ++ T "&b") (match c_equal c with [] => T "(void) a; (void) b; return true;" | _ => allT equalT (c_equal c) end) ++
      funT "static void swap" (tT ++ T "&a," ++ tT ++ T "&b") (match c_swap c with [] => T "(void) a; (void) b;" | _ => concat (map swapT (c_swap c)) end) ++
      funT "static int index" (T "const std::string &name") (indexT (c_obf c) (c_index c))) = Some (class_funcs c).
Proof.
  intros (_ & _ & C & O & E1 & E2 & E3 & E4 & I) tT.
  assert (Q : spellings tT = Some (typeS c)) by apply qual_spell.
  assert (N : forallb (fun x => negb (is_op "," x)) tT = true) by (now apply qual_leaves).
  pose proof (field_body _ C) as B1. pose proof (write_body _ O) as B2. pose proof (empty_body _ E1) as B3. pose proof (clear_body _ E2) as B4.
  pose proof (equal_body _ E3) as B5. pose proof (swap_body _ E4) as B6. pose proof (index_body (c_obf c) _ I) as B7.
  pose proof (params_read _ _ Q N) as P0. pose proof (params_field _ _ Q N) as P1. pose proof (params_write _ _ Q N) as P2. pose proof (params_empty _ _ Q N) as P3.
  pose proof (params_clear _ _ Q N) as P4. pose proof (params_equal _ _ Q N) as P5. pose proof (params_swap _ _ Q N) as P6.
  assert (B0 : body_of (T "return read_object(ctx, value);") = Some [SReturn (XCall (XName (b "read_object")) [XName (b "ctx"); XName (b "value")])]) by (vm_compute; reflexivity).
  assert (P7 : parameters (T "const std::string &name") = Some [nameP]) by (vm_compute; reflexivity).
  unfold class_funcs. cbn zeta.
  revert B0 B1 B2 B3 B4 B5 B6 B7 P0 P1 P2 P3 P4 P5 P6 P7. unfold funT.
  generalize (T "return read_object(ctx, value);") (fieldT (c_cases c)) (outT (c_write c)) (match c_empty c with [] => T "(void) value; return true;" | _ => allT emptyT (c_empty c) end)
    (match c_clear c with [] => T "(void) value;" | _ => concat (map clearT (c_clear c)) end) (match c_equal c with [] => T "(void) a; (void) b; return true;" | _ => allT equalT (c_equal c) end)
    (match c_swap c with [] => T "(void) a; (void) b;" | _ => concat (map swapT (c_swap c)) end) (indexT (c_obf c) (c_index c)).
  generalize (tT ++ T "&value") (tT ++ T "&a," ++ tT ++ T "&b") (T "const std::string &name").
  generalize (T "const" ++ tT ++ T "&a, const" ++ tT ++ T "&b"). intros p5 p4 p6 p7. revert p5 p6 p7.
  generalize (T "json_context &ctx," ++ p4) (T "json_context &ctx, const std::string &name," ++ p4) (T "json_context &ctx, const" ++ p4) (T "const" ++ p4).
  intros p0 p1 p2 p3 p5 p6 p7 b0 b1 b2 b3 b4 b5 b6 b7 B0 B1 B2 B3 B4 B5 B6 B7 P0 P1 P2 P3 P4 P5 P6 P7.
  change (T "static int read") with [Lf (KKw (b "static")); Lf (KKw (b "int")); Lf (KId (b "read"))].
  change (T "static int read_field") with [Lf (KKw (b "static")); Lf (KKw (b "int")); Lf (KId (b "read_field"))].
  change (T "static int write") with [Lf (KKw (b "static")); Lf (KKw (b "int")); Lf (KId (b "write"))].
  change (T "static bool empty") with [Lf (KKw (b "static")); Lf (KKw (b "bool")); Lf (KId (b "empty"))].
  change (T "static void clear") with [Lf (KKw (b "static")); Lf (KKw (b "void")); Lf (KId (b "clear"))].
  change (T "static bool equal") with [Lf (KKw (b "static")); Lf (KKw (b "bool")); Lf (KId (b "equal"))].
  change (T "static void swap") with [Lf (KKw (b "static")); Lf (KKw (b "void")); Lf (KId (b "swap"))].
  change (T "static int index") with [Lf (KKw (b "static")); Lf (KKw (b "int")); Lf (KId (b "index"))].
  rewrite <- !app_assoc. rewrite <- (app_nil_r [Gr Paren p7; Gr Brace b7]).
  rewrite (functions_one _ _ _ _ _ _ _ P0 B0), (functions_one _ _ _ _ _ _ _ P1 B1), (functions_one _ _ _ _ _ _ _ P2 B2),
    (functions_one _ _ _ _ _ _ _ P3 B3), (functions_one _ _ _ _ _ _ _ P4 B4), (functions_one _ _ _ _ _ _ _ P5 B5),
    (functions_one _ _ _ _ _ _ _ P6 B6), (functions_one _ _ _ _ _ _ _ P7 B7).
  reflexivity.
Qed.

(** ** The structure *)
Section Struct.
  Context (v : bytes).
  Definition elemS (e : celem) : list bytes :=
    match e with
    | EPrim p => [prim_name p]
    | EStr => [b "protogen" ++ v; b "::"; b "string_field"]
    | EMsg pkg name => qualS pkg name
    end.
  Definition ctypeS (t : ctype) : list bytes :=
    match t with
    | CField p => [b "protogen" ++ v; b "::"; b "field"; b "<"; prim_name p; b ">"]
    | CElem e => elemS e
    | CSeq true e => [b "std"; b "::"; b "list"; b "<"] ++ elemS e ++ [b ">"]
    | CSeq false e => [b "std"; b "::"; b "vector"; b "<"] ++ elemS e ++ [b ">"]
    end.

  Lemma elem_spell e : spellings (elemT v e) = Some (elemS e).
  Proof. destruct e as [p| |pkg name]; cbn [elemT elemS]; [unfold W; cbn [spellings option_map]; now rewrite spelling_word|rewrite lib_word; reflexivity|apply qual_spell]. Qed.
  Lemma type_spell t : spellings (typeT v t) = Some (ctypeS t).
  Proof.
    destruct t as [p|e|[] e]; cbn [typeT ctypeS]; [rewrite lib_word, !spellings_app; unfold W; cbn [spellings option_map]; now rewrite spelling_word|apply elem_spell| |].
    - rewrite !spellings_app, elem_spell. reflexivity.
    - rewrite !spellings_app, elem_spell. reflexivity.
  Qed.
  Lemma spelled_free l ws : spellings l = Some ws -> ~ In (b ";") ws -> forallb (fun x => negb (is_op ";" x)) l = true.
  Proof.
    revert ws. induction l as [|[k|] l IH]; intros ws S N; [reflexivity| |discriminate]. cbn [spellings] in S. destruct (spellings l) as [w|] eqn:E; [|discriminate].
    injection S as <-. cbn [forallb]. rewrite (IH w eq_refl) by (intros I; apply N; now right). rewrite andb_true_r. destruct k; try reflexivity.
    cbn [is_op]. apply negb_true_iff. apply same_false. intros ->. apply N. now left.
  Qed.
  Lemma type_semi t : forallb (fun x => negb (is_op ";" x)) (typeT v t) = true.
  Proof.
    assert (K : forall w, negb (is_op ";" (W w)) = true) by (intros w; unfold W, word; now destruct (existsb _ _)).
    assert (E : forall e, forallb (fun x => negb (is_op ";" x)) (elemT v e) = true).
    { intros [p| |pkg name]; cbn [elemT]; [cbn [forallb]; now rewrite K|rewrite forallb_app; cbn [forallb]; now rewrite K|now apply qual_leaves]. }
    destruct t as [p|e|[] e]; cbn [typeT]; rewrite ?forallb_app, ?E; cbn [forallb]; rewrite ?K; reflexivity.
  Qed.
  Lemma type_nonempty t : typeT v t <> [].
  Proof. destruct t as [p|[p| |pkg name]|[] e]; cbn [typeT elemT]; try discriminate. apply qual_nonempty. Qed.

  Lemma members_push u : forallb (fun x => negb (is_op ";" x)) u = true -> forall acc r, members acc (u ++ r) = members (rev u ++ acc) r.
  Proof.
    induction u as [|t u IH]; intros C acc r; [reflexivity|]. cbn [forallb] in C. apply andb_true_iff in C as (C1 & C2). apply negb_true_iff in C1.
    cbn [app members rev]. rewrite C1, (IH C2), <- app_assoc. reflexivity.
  Qed.
  Definition memberS (m : ctype * bytes) : list bytes * bytes := (ctypeS (fst m), snd m).
  Lemma members_class ms : free (map snd ms) -> members [] (concat (map (memberT v) ms)) = Some (map memberS ms).
  Proof.
    intros F. induction ms as [|[t m] ms IH]; [reflexivity|]. inversion F as [|? ? K F']. subst. cbn [map concat]. unfold memberT at 1. cbn [fst snd] in *.
    unfold W. rewrite (word_id m K). change (T ";") with [Lf (KOp (b ";"))].
    assert (R : forall x : list tree, (typeT v t ++ [Lf (KId m)] ++ [Lf (KOp (b ";"))]) ++ x = (typeT v t ++ [Lf (KId m)]) ++ Lf (KOp (b ";")) :: x) by (intros; now rewrite <- !app_assoc).
    rewrite R, members_push by (rewrite forallb_app, type_semi; reflexivity). rewrite app_nil_r. cbn [members].
    change (is_op ";" (Lf (KOp (b ";")))) with true. cbn match. rewrite rev_involutive, declared_snoc by apply type_nonempty. rewrite type_spell, (IH F'). reflexivity.
  Qed.
  Lemma struct_structure x ms : free (map snd ms) ->
    structure (T "struct" ++ [W (x ++ b "_type"); Gr Brace (concat (map (memberT v) ms))]) = Some (DStruct (x ++ b "_type") (map memberS ms)).
  Proof. intros F. rewrite type_word. unfold structure. cbn [app rev]. change (T "struct") with [Lf (KKw (b "struct"))]. cbn [app rev]. change (is_kw "struct" _) with true. cbn match. now rewrite (members_class ms F). Qed.
End Struct.

(** ** Declarations *)
Definition follows (n : nat) (xT : list tree) (xD : list decl) : Prop :=
  forall r, declarations (S n) [] (xT ++ r) = match declarations (S n) [] r with Some ds => Some (xD ++ ds) | None => None end.

Lemma follows_nil n : follows n [] [].
Proof. intros r. cbn [app]. now destruct (declarations (S n) [] r). Qed.
Lemma follows_app n xT yT xD yD : follows n xT xD -> follows n yT yD -> follows n (xT ++ yT) (xD ++ yD).
Proof. intros X Y r. rewrite <- app_assoc, X, Y. destruct (declarations (S n) [] r); [|reflexivity]. now rewrite app_assoc. Qed.
Lemma follows_concat {A} n (f : A -> list tree) (g : A -> list decl) l : (forall x, In x l -> follows n (f x) (g x)) -> follows n (concat (map f l)) (concat (map g l)).
Proof.
  induction l as [|x l IH]; intros H; [apply follows_nil|]. cbn [map concat]. apply follows_app; [apply H; now left|apply IH; intros; apply H; now right].
Qed.
Lemma follows_all n xT xD : follows n xT xD -> declarations (S n) [] xT = Some xD.
Proof. intros F. specialize (F []). rewrite app_nil_r in F. rewrite F. cbn [declarations]. now rewrite app_nil_r. Qed.

Lemma follows_space n c g ds : is_keyword c = false -> declarations n [] g = Some ds -> follows n (T "namespace" ++ [W c; Gr Brace g]) [DSpace c ds].
Proof.
  intros K D r. unfold W. rewrite (word_id c K). change (T "namespace") with [Lf (KKw (b "namespace"))]. cbn [app].
  cbn [declarations is_op]. change (is_kw "namespace" (Lf (KKw (b "namespace")))) with true. cbn match. rewrite D. now destruct (declarations (S n) [] r).
Qed.

Fixpoint nestD (l : list bytes) (x : list decl) : list decl :=
  match l with [] => x | c :: r => [DSpace c (nestD r x)] end.
Lemma follows_nest xT xD : (forall n, follows n xT xD) -> forall l n, free l -> (length l <= n)%nat -> follows n (nestT l xT) (nestD l xD).
Proof.
  intros X. induction l as [|c l IH]; intros n F L; cbn [nestT nestD]; [apply X|]. inversion F as [|? ? K F']. subst. cbn [length] in L.
  destruct n as [|n]; [lia|]. apply follows_space; [exact K|]. apply follows_all, IH; [exact F'|lia].
Qed.

(** A declaration ended by a semicolon: no brace that could be a namespace's. *)
Definition leafy (t : tree) : bool := match t with Lf k => negb (is_op ";" t) | Gr _ _ => false end.
Lemma declarations_push n u : forallb leafy u = true -> forall acc r, declarations (S n) acc (u ++ r) = declarations (S n) (rev u ++ acc) r.
Proof.
  induction u as [|t u IH]; intros C acc r; [reflexivity|]. cbn [forallb] in C. apply andb_true_iff in C as (C1 & C2).
  destruct t as [k|]; [|discriminate]. cbn [leafy] in C1. apply negb_true_iff in C1.
  transitivity (declarations (S n) (Lf k :: acc) (u ++ r)); [|rewrite (IH C2); cbn [rev]; now rewrite <- app_assoc].
  cbn [app declarations]. rewrite C1. reflexivity.
Qed.
Lemma follows_struct n u g d : forallb leafy u = true ->
  (forall r, declarations (S n) (rev u) (Gr Brace g :: r) = declarations (S n) (Gr Brace g :: rev u) r) ->
  structure (u ++ [Gr Brace g]) = Some d -> follows n (u ++ [Gr Brace g] ++ T ";") [d].
Proof.
  intros L N S r. rewrite <- !app_assoc, (declarations_push n u L), app_nil_r. cbn [app]. rewrite N. change (T ";") with [Lf (KOp (b ";"))]. cbn [app].
  cbn [declarations]. change (is_op ";" (Lf (KOp (b ";")))) with true. cbn match. cbn [rev]. rewrite rev_involutive, S. reflexivity.
Qed.

Section Decl.
  Context (v : bytes).

  Lemma struct_follows n x ms : free (map snd ms) ->
    follows n (T "struct" ++ [W (x ++ b "_type"); Gr Brace (concat (map (memberT v) ms))] ++ T ";") [DStruct (x ++ b "_type") (map (memberS v) ms)].
  Proof.
    intros F. pose proof (struct_structure v x ms F) as S. rewrite type_word in *.
    apply (follows_struct n [Lf (KKw (b "struct")); Lf (KId (x ++ b "_type"))]); [reflexivity|reflexivity|exact S].
  Qed.

  Lemma qual_leafy pkg a : forallb leafy (qualT pkg a) = true.
  Proof.
    unfold qualT. assert (K : forall c, forallb leafy (T "::" ++ [W c]) = true).
    { intros c. change (T "::" ++ [W c]) with [Lf (KOp (b "::")); Lf (word c)]. unfold word. now destruct (existsb _ _). }
    rewrite forallb_app, (K a), andb_true_r. now apply forallb_concat.
  Qed.

  Definition jsonD (c : cls) : decl := DSpace (b "protogen" ++ v) [DJson (typeS c) (class_funcs c)].
  Lemma json_follows n c : (1 <= n)%nat -> names_free c -> follows n (jsonT v c) [jsonD c].
  Proof.
    intros N F. unfold jsonT. cbn zeta. destruct n as [|n]; [lia|]. apply follows_space; [apply keyword_start; reflexivity|]. apply follows_all.
    pose proof (class_functions c F) as G. cbn zeta in G. revert G. generalize (class_funcs c). intros fs.
    match goal with |- functions [] ?x = _ -> _ => generalize x end. intros body G.
    set (q := qualT (c_pkg c) (c_name c ++ b "_type")). assert (Q : spellings q = Some (typeS c)) by apply qual_spell.
    assert (L : forallb leafy q = true) by apply qual_leafy.
    assert (E : T "template<> struct json<" ++ q ++ T ">" ++ [Gr Brace body] ++ T ";" = (T "template<> struct json<" ++ q ++ T ">") ++ [Gr Brace body] ++ T ";") by now rewrite <- !app_assoc.
    rewrite E. clear E. apply follows_struct.
    - rewrite !forallb_app, L. reflexivity.
    - intros r. rewrite !rev_app_distr. change (T "template<> struct json<") with [Lf (KKw (b "template")); Lf (KOp (b "<")); Lf (KOp (b ">")); Lf (KKw (b "struct")); Lf (KId (b "json")); Lf (KOp (b "<"))].
      change (T ">") with [Lf (KOp (b ">"))]. cbn [rev app]. cbn [declarations is_op]. destruct (rev q) as [|x y]; cbn [app]; reflexivity.
    - unfold structure. rewrite rev_app_distr. cbn [rev app]. rewrite rev_involutive.
      change (T "template<> struct json<") with [Lf (KKw (b "template")); Lf (KOp (b "<")); Lf (KOp (b ">")); Lf (KKw (b "struct")); Lf (KId (b "json")); Lf (KOp (b "<"))].
      cbn [app]. change (is_kw "template" _ && _ && _ && _ && _ && _) with true. cbn match. rewrite rev_app_distr. change (rev (T ">")) with [Lf (KOp (b ">"))]. cbn [app].
      change (is_op ">" _) with true. cbn match. rewrite rev_involutive, Q, G. reflexivity.
  Qed.

  Definition macroS (c : cls) (x : list bytes) : list (list bytes) :=
    [x; typeS c; [b "protogen" ++ v; b "::"; b "json"; b "<"] ++ typeS c ++ [b ">"]].
  Lemma follows_macro n x g a : macro_args g = Some a -> follows n [Lf (KId x); Gr Paren g] [DMacro x a].
  Proof. intros M r. cbn [app declarations is_op]. rewrite M. now destruct (declarations (S n) [] r). Qed.
  Lemma macro_class c nT x : spellings nT = Some x -> forallb (fun y => negb (is_op "," y)) nT = true ->
    macro_args (nT ++ T "," ++ qualT (c_pkg c) (c_name c ++ b "_type") ++ T "," ++ [W (b "protogen" ++ v)] ++ T "::json<" ++ qualT (c_pkg c) (c_name c ++ b "_type") ++ T ">") = Some (macroS c x).
  Proof.
    intros S N. set (q := qualT (c_pkg c) (c_name c ++ b "_type")). assert (Q : spellings q = Some (typeS c)) by apply qual_spell.
    assert (L : forallb (fun y => negb (is_op "," y)) q = true) by (now apply qual_leaves).
    unfold macro_args. change (T ",") with [Lf (KOp (b ","))]. cbn [app]. rewrite (pieces_first (is_op ",") nT) by (exact N || reflexivity).
    rewrite (pieces_first (is_op ",") q) by (exact L || reflexivity). rewrite pieces_none.
    - cbn [map all_some]. rewrite S, Q, lib_word. change (Lf (KId (b "protogen" ++ v)) :: T "::json<" ++ q ++ T ">") with ([Lf (KId (b "protogen" ++ v))] ++ T "::json<" ++ q ++ T ">").
      rewrite !spellings_app, Q. reflexivity.
    - rewrite lib_word. cbn [forallb]. rewrite !forallb_app, L. reflexivity.
  Qed.

  Definition entityD (c : cls) : list decl :=
    nestD (parts (c_pkg c)) [DMacro ((b "PG" ++ v) ++ b "_ENTITY") (macroS c [c_name c])] ++
    [DMacro ((b "PG" ++ v) ++ b "_ENTITY_SERIALIZER") (macroS c (qualS (c_pkg c) (c_name c)))].
  Lemma entity_follows n c : (length (parts (c_pkg c)) <= n)%nat -> names_free c -> follows n (entityT v c) (entityD c).
  Proof.
    intros L F. unfold entityT, entityD. cbn zeta. apply follows_app.
    - apply follows_nest; [|apply F|exact L]. intros k. rewrite entity_word. apply follows_macro, macro_class.
      + unfold W. cbn [spellings option_map]. now rewrite spelling_word.
      + unfold W, word. now destruct (existsb _ _).
    - rewrite serializer_word. apply follows_macro, macro_class; [apply qual_spell|now apply qual_leaves].
  Qed.

  Definition structD (c : cls) : list decl := nestD (parts (c_pkg c)) [DStruct (c_name c ++ b "_type") (map (memberS v) (c_members c))].
  Definition classD (c : cls) : list decl := structD c ++ [jsonD c] ++ entityD c.
  Lemma class_follows n c : (1 <= n)%nat -> (length (parts (c_pkg c)) <= n)%nat -> names_free c -> follows n (classT v c) (classD c).
  Proof.
    intros N L F. unfold classT, classD. apply follows_app; [|apply follows_app].
    - apply follows_nest; [|apply F|exact L]. intros k. apply struct_follows, F.
    - now apply json_follows.
    - now apply entity_follows.
  Qed.

  Lemma concat_long {A} (l : list (list A)) (x : list A) : In x l -> (length x <= length (concat l))%nat.
  Proof. induction l as [|y l IH]; [easy|]. intros [->|I]; cbn [concat]; rewrite app_length; [lia|]. specialize (IH I). lia. Qed.
  Lemma class_long c : (1 <= length (class_text v c) /\ length (parts (c_pkg c)) <= length (class_text v c))%nat.
  Proof.
    unfold class_text, struct_text, opening. rewrite !app_length.
    assert (O : forall l, (length l <= length (concat (map (fun c => ln (b "namespace " ++ c ++ b " {")) l)))%nat).
    { induction l as [|x l IH]; [easy|]. cbn [map concat length]. unfold ln at 1. rewrite !app_length. change (length [LF]) with 1%nat. lia. }
    specialize (O (parts (c_pkg c))). change (length [LF]) with 1%nat. unfold bytes in *. lia.
  Qed.

  (** The declarations of the text of any classes. *)
  Lemma classes_unit cs : forallb is_word_c v = true -> Forall cls_ok cs -> Forall names_free cs ->
    unit_of (concat (map (class_text v) cs)) = Some (concat (map classD cs)).
  Proof.
    intros V O F. destruct (classes_trees v V cs O) as (ks & K1 & K2). unfold unit_of. rewrite K1, K2. apply follows_all, follows_concat.
    intros c I. rewrite Forall_forall in F. assert (J : (length (class_text v c) <= length (concat (map (class_text v) cs)))%nat) by (apply concat_long, in_map, I).
    destruct (class_long c) as (L1 & L2). apply class_follows; [lia|lia|apply F, I].
  Qed.
End Decl.
