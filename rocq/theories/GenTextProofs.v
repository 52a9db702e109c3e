From Verif Require Import Bytes Num Types Read ProtoLex ProtoParse Cpp CLex CParse CExec HText HParse HExec HNum LexRead Gen CgRead GenExec SpecGenText CLexProofs.
From Coq Require Import Lia.

Definition the_gen : gtext := Eval vm_compute in gen_text cppgen_cc.
Lemma the_gen_is : gen_text cppgen_cc = the_gen.
Proof. vm_cast_no_check (eq_refl the_gen). Qed.

Definition fun_at (n : nat) : hfun := match nth_error (gt_funs the_gen) n with Some h => h | None => HFun [] [] [] [] end.
Definition f_pkg : hfun := Eval vm_compute in fun_at 0.
Definition f_string : hfun := Eval vm_compute in fun_at 3.
Definition f_bool : hfun := Eval vm_compute in fun_at 4.
Definition f_type_fun : hfun := Eval vm_compute in fun_at 2.
Definition f_native : hfun := Eval vm_compute in fun_at 1.
Definition f_transient : hfun := Eval vm_compute in fun_at 5.
Definition f_json : hfun := Eval vm_compute in fun_at 6.
Definition f_guard : hfun := Eval vm_compute in fun_at 7.
Definition each_body (l : list hstmt) (n : nat) : hstmt := match nth_error l n with Some (TEach _ _ _ x) => x | Some (TFor _ _ _ x) => x | _ => TBreak end.

Section Calls.
  Context (cfg : build) (msgs : list message) (loops : nat) (call : bytes -> list gval -> gout gval).
  Notation ex := (gexec cfg msgs (gt_map the_gen) loops call).

  (** nativePackage *)
  Definition pkg_body : hstmt := Eval vm_compute in each_body (hf_body f_pkg) 4.
  Definition pkg_env (n p : bytes) : genv := [(b "name", GS n); (b "package", GS p)].
  Lemma pkg_step : forall c n p, ex pkg_body ((b "c", GC c) :: pkg_env n p) = GOk (None, (b "c", GC c) :: pkg_env (n ++ (if Ascii.eqb c "." then b "::" else [c])) p).
  Proof. intros [[] [] [] [] [] [] [] []] n p; reflexivity. Qed.
  Lemma pkg_loop : forall l n p, geach_char (ex pkg_body) (b "c") l (pkg_env n p) = GOk (None, pkg_env (n ++ package_go l) p).
  Proof.
    induction l as [|c l IH]; intros n p; cbn [geach_char package_go]; [now rewrite app_nil_r|]. rewrite pkg_step. cbn [gbind1].
    change (leave (pkg_env n p) ((b "c", GC c) :: pkg_env (n ++ (if Ascii.eqb c "." then b "::" else [c])) p)) with (pkg_env (n ++ (if Ascii.eqb c "." then b "::" else [c])) p).
    rewrite IH, <- app_assoc. destruct (Ascii.eqb c "."); reflexivity.
  Qed.
  Lemma pkg_fun : forall p, gbody cfg msgs (gt_map the_gen) loops call (hf_body f_pkg) [(b "package", GS p)] = GOk (match p with [] => GP (Some (b " ")) | _ => GS (native_package p) end).
  Proof.
    intros [|c p]; [reflexivity|].
    transitivity (grab o := geach_char (ex pkg_body) (b "c") (c :: p) (pkg_env (b " ::") (c :: p)) in
                  match o with (None, s1) => gbody cfg msgs (gt_map the_gen) loops call (skipn 5 (hf_body f_pkg)) s1 | (Some v, _) => GOk v end); [reflexivity|].
    rewrite pkg_loop. reflexivity.
  Qed.

  (** get_json_name *)
  Definition json_body : hstmt := Eval vm_compute in each_body (hf_body f_json) 1.
  Definition json_env (n : bytes) (f : field) : genv := [(b "name", GS n); (b "field", GF f)].
  Lemma json_step : forall c n f, ex json_body ((b "c", GC c) :: json_env n f) =
    if is_quote c then GThrow (b "option 'name' in the field '" ++ f_name f ++ b "' must not contain quotes") 1 1 else GOk (None, (b "c", GC c) :: json_env n f).
  Proof. intros [[] [] [] [] [] [] [] []] n f; reflexivity. Qed.
  Lemma json_loop : forall l n f, geach_char (ex json_body) (b "c") l (json_env n f) =
    if existsb is_quote l then GThrow (b "option 'name' in the field '" ++ f_name f ++ b "' must not contain quotes") 1 1 else GOk (None, json_env n f).
  Proof.
    induction l as [|c l IH]; intros n f; cbn [geach_char existsb]; [reflexivity|]. rewrite json_step. destruct (is_quote c); cbn [gbind1 orb]; [reflexivity|]. apply IH.
  Qed.

  (** makeGuard *)
  Definition guard_body : hstmt := Eval vm_compute in each_body (hf_body f_guard) 1.
  Definition guard_for : hexpr * hexpr := Eval vm_compute in match nth_error (hf_body f_guard) 1 with Some (TFor _ c [p] _) => (c, p) | _ => (ENull, ENull) end.
  Definition guard_env (l o s : bytes) : genv := [(b "it", GIt l); (b "out", GS o); (b "fileName", GS s)].
  Lemma guard_step : forall c l o s, ex guard_body (guard_env (c :: l) o s) = GOk (None, guard_env (c :: l) (o ++ [if guard_char c then c else "_"%char]) s).
  Proof. intros [[] [] [] [] [] [] [] []] l o s; reflexivity. Qed.
  Lemma guard_loop : forall l k o s, (length l < k)%nat ->
    gloop cfg msgs (gt_map the_gen) call k (fst guard_for) (snd guard_for) (ex guard_body) (guard_env l o s) = GOk (None, guard_env [] (o ++ map (fun c => if guard_char c then c else "_"%char) l) s).
  Proof.
    induction l as [|c l IH]; intros [|k] o s L; try (cbn in L; lia); cbn [gloop map].
    - rewrite app_nil_r. reflexivity.
    - change (geval cfg msgs (gt_map the_gen) call (fst guard_for) (guard_env (c :: l) o s)) with (GOk (GB true)). cbn [gbind1]. rewrite guard_step. cbn [gbind1].
      change (gset cfg msgs (gt_map the_gen) call (snd guard_for) (guard_env (c :: l) (o ++ [if guard_char c then c else "_"%char]) s)) with (GOk (guard_env l (o ++ [if guard_char c then c else "_"%char]) s)).
      cbn [gbind1]. rewrite IH by (cbn in L; lia). rewrite <- app_assoc. reflexivity.
  Qed.

  (** get_option *)
  Definition opt_env (o : omap) (x : bytes) (d : gval) : genv := [(b "options", GO o); (b "name", GS x); (b "value", d)].
  Definition opt_if : hstmt := Eval vm_compute in nth 0 (hf_body f_string) TBreak.
  Definition opt_at : hstmt := Eval vm_compute in nth 1 (hf_body f_string) TBreak.
  Lemma opt_if_is : forall o x d, ex opt_if (opt_env o x d) = match o_find x o with None => GOk (Some d, opt_env o x d) | Some _ => GOk (None, opt_env o x d) end.
  Proof.
    intros o x d. transitivity (if (match o_find x o with Some _ => 1 | None => 0 end) =? 0 then GOk (Some d, opt_env o x d) else GOk (None, opt_env o x d)); [reflexivity|].
    destruct (o_find x o); reflexivity.
  Qed.
  Lemma opt_at_is : forall o x d e, o_find x o = Some e -> ex opt_at (opt_env o x d) = GOk (None, (b "opt", GE e) :: opt_env o x d).
  Proof.
    intros o x d e E. transitivity (grab v := sure (option_map GE (o_find x o)) in grab w := sure (gtyped [b "auto"] v) in GOk (@None gval, (b "opt", w) :: opt_env o x d)); [reflexivity|].
    rewrite E. reflexivity.
  Qed.
  Lemma opt_fun : forall l o x d, gbody cfg msgs (gt_map the_gen) loops call (opt_if :: opt_at :: l) (opt_env o x d) =
    match o_find x o with None => GOk d | Some e => gbody cfg msgs (gt_map the_gen) loops call l ((b "opt", GE e) :: opt_env o x d) end.
  Proof.
    intros l o x d. cbn [gbody]. rewrite opt_if_is. destruct (o_find x o) as [e|] eqn:E; cbn [gbind1]; [|reflexivity]. rewrite (opt_at_is _ _ _ e E). reflexivity.
  Qed.
End Calls.

Section Text.
  Context (cfg : build) (msgs : list message) (loops : nat).

  Lemma package_call : forall n p, call_gen the_gen cfg msgs loops (S n) (b "nativePackage") [GS p] = GOk (GS (native_package p)).
  Proof.
    intros n p. transitivity (grab v := gbody cfg msgs (gt_map the_gen) loops (call_gen the_gen cfg msgs loops n) (hf_body f_pkg) [(b "package", GS p)] in sure (gtyped (hf_ret f_pkg) v)); [reflexivity|].
    rewrite pkg_fun. destruct p; reflexivity.
  Qed.
  Lemma package_text : forall p, source_gen cppgen_cc cfg msgs loops "nativePackage" [GS p] = GOk (GS (native_package p)).
  Proof. intros p. unfold source_gen. rewrite the_gen_is. apply package_call. Qed.

  Lemma guard_text : forall s, (length s < loops)%nat -> source_gen cppgen_cc cfg msgs loops "makeGuard" [GS s] = GOk (GS (make_guard s)).
  Proof.
    intros s L. unfold source_gen. rewrite the_gen_is.
    transitivity (grab v := (grab o := (grab o := gloop cfg msgs (gt_map the_gen) (call_gen the_gen cfg msgs loops 2) loops (fst guard_for) (snd guard_for) (gexec cfg msgs (gt_map the_gen) loops (call_gen the_gen cfg msgs loops 2) guard_body) (guard_env s (b "GUARD_") s) in GOk (fst o, leave [(b "out", GS (b "GUARD_")); (b "fileName", GS s)] (snd o))) in
                               match o with (None, s1) => gbody cfg msgs (gt_map the_gen) loops (call_gen the_gen cfg msgs loops 2) (skipn 2 (hf_body f_guard)) s1 | (Some v, _) => GOk v end) in sure (gtyped (hf_ret f_guard) v)); [reflexivity|].
    rewrite guard_loop by exact L. reflexivity.
  Qed.

  Lemma string_call : forall n o x d, same_as (opt_string o x d) GS (call_gen the_gen cfg msgs loops (S n) (b "get_option") [GO o; GS x; GS d]).
  Proof.
    intros n o x d. unfold opt_string. split; [destruct (o_find x o) as [e|]; [destruct (o_type e)|]; reflexivity|].
    transitivity (grab v := gbody cfg msgs (gt_map the_gen) loops (call_gen the_gen cfg msgs loops n) (opt_if :: opt_at :: skipn 2 (hf_body f_string)) (opt_env o x (GS d)) in sure (gtyped (hf_ret f_string) v)); [reflexivity|].
    rewrite opt_fun. destruct (o_find x o) as [[nm [] v l]|]; [| | | |reflexivity].
    all: cbn [o_type o_line o_value snd gthrow gret].
    2: reflexivity.
    all: transitivity (@GThrow gval ((b "The value for '" ++ x) ++ b "' must be a string") l 1); [reflexivity|]; rewrite <- app_assoc; reflexivity.
  Qed.
  Lemma bool_call : forall n o x d, same_as (opt_bool o x d) GB (call_gen the_gen cfg msgs loops (S n) (b "get_option") [GO o; GS x; GB d]).
  Proof.
    intros n o x d. unfold opt_bool. split; [destruct (o_find x o) as [e|]; [destruct (o_type e)|]; reflexivity|].
    transitivity (grab v := gbody cfg msgs (gt_map the_gen) loops (call_gen the_gen cfg msgs loops n) (opt_if :: opt_at :: skipn 2 (hf_body f_bool)) (opt_env o x (GB d)) in sure (gtyped (hf_ret f_bool) v)); [reflexivity|].
    rewrite opt_fun. destruct (o_find x o) as [[nm [] v l]|]; [| | | |reflexivity].
    all: cbn [o_type o_line o_value snd gthrow gret].
    4: reflexivity.
    all: transitivity (@GThrow gval ((b "The value for '" ++ x) ++ b "' must be a boolean") l 1); [reflexivity|]; rewrite <- app_assoc; reflexivity.
  Qed.

  Lemma string_text : forall o x d, same_as (opt_string o x d) GS (source_gen cppgen_cc cfg msgs loops "get_option" [GO o; GS x; GS d]).
  Proof. intros o x d. unfold source_gen. rewrite the_gen_is. apply string_call. Qed.
  Lemma bool_text : forall o x d, same_as (opt_bool o x d) GB (source_gen cppgen_cc cfg msgs loops "get_option" [GO o; GS x; GB d]).
  Proof. intros o x d. unfold source_gen. rewrite the_gen_is. apply bool_call. Qed.

  Lemma transient_text : forall f, same_as (is_transient f) GB (source_gen cppgen_cc cfg msgs loops "is_transient" [GF f]).
  Proof.
    intros f. unfold source_gen. rewrite the_gen_is. destruct (bool_call 1 (f_options f) (b "transient") false) as [P E]. unfold is_transient. split; [exact P|].
    transitivity (grab v := (grab o := (grab v := call_gen the_gen cfg msgs loops 2 (b "get_option") [GO (f_options f); GS (b "transient"); GB false] in GOk (Some v, [(b "field", GF f)])) in
                             match o with (None, s1) => GUndef | (Some v, _) => GOk v end) in sure (gtyped (hf_ret f_transient) v)); [reflexivity|].
    rewrite E. destruct (snd (opt_bool (f_options f) (b "transient") false)); reflexivity.
  Qed.
  Lemma json_text : forall f, same_as (json_name f) GS (source_gen cppgen_cc cfg msgs loops "get_json_name" [GF f]).
  Proof.
    intros f. unfold source_gen. rewrite the_gen_is. destruct (string_call 1 (f_options f) (b "name") (f_name f)) as [P E]. unfold json_name.
    assert (R : call_gen the_gen cfg msgs loops 3 (b "get_json_name") [GF f] =
      grab v := (grab o := (grab v := call_gen the_gen cfg msgs loops 2 (b "get_option") [GO (f_options f); GS (b "name"); GS (f_name f)] in
                            grab w := sure (gtyped [b "auto"] v) in GOk (@None gval, [(b "name", w); (b "field", GF f)])) in
                 match o with (None, s1) => gbody cfg msgs (gt_map the_gen) loops (call_gen the_gen cfg msgs loops 2) (skipn 1 (hf_body f_json)) s1 | (Some v, _) => GOk v end) in
      sure (gtyped (hf_ret f_json) v)) by reflexivity.
    rewrite R, E. unfold same_as, gbind. destruct (snd (opt_string (f_options f) (b "name") (f_name f))) as [n|m l c| |]; cbn [fst snd]; try (split; [exact P|reflexivity]).
    rewrite P. cbn [app].
    split; [destruct (existsb is_quote n); reflexivity|].
    transitivity (grab v := (grab o := geach_char (gexec cfg msgs (gt_map the_gen) loops (call_gen the_gen cfg msgs loops 2) json_body) (b "c") n (json_env n f) in
                  match o with (None, s1) => gbody cfg msgs (gt_map the_gen) loops (call_gen the_gen cfg msgs loops 2) (skipn 2 (hf_body f_json)) s1 | (Some v, _) => GOk v end) in
       sure (gtyped (hf_ret f_json) v)); [reflexivity|].
    rewrite json_loop. destruct (existsb is_quote n); reflexivity.
  Qed.

  (** The type of a message. *)
  Definition type_expr : hexpr := Eval vm_compute in
    match hf_body f_native with
    | [TIf _ _ (Some (TIf _ _ (Some (TIf _ (TBlock [_; TReturn (Some e)]) _))))] => e
    | _ => ENull
    end.
  Lemma type_expr_is : forall n f k, f_ref f = Some k ->
    geval cfg msgs (gt_map the_gen) (call_gen the_gen cfg msgs loops (S n)) type_expr [(b "field", GF f)] =
    match nth_error msgs k with Some m => GOk (GS (native_package (m_package m) ++ b "::" ++ m_name m)) | None => GUndef end.
  Proof.
    intros n [ty q r rp op nm ix os] k E. cbn [f_ref] in E. subst r.
    transitivity (grab v := (grab v := (grab vs := (grab v := match nth_error msgs k with Some m => GOk (GS (m_package m)) | None => GUndef end in
                                                   grab vs := GOk [] in GOk (v :: vs)) in call_gen the_gen cfg msgs loops (S n) (b "nativePackage") vs) in
                             grab w := GOk (GP (Some (b "::"))) in sure (goperation (b "+") v w)) in
                  grab w := match nth_error msgs k with Some m => GOk (GS (m_name m)) | None => GUndef end in sure (goperation (b "+") v w)); [reflexivity|].
    destruct (nth_error msgs k) as [m|]; [|reflexivity]. cbn [gbind1]. rewrite package_call. cbn [gbind1].
    transitivity (@GOk gval (GS ((native_package (m_package m) ++ b "::") ++ m_name m))); [reflexivity|]. rewrite <- app_assoc. reflexivity.
  Qed.
  Lemma native_call : forall n f, f_type f = FMessage -> call_gen the_gen cfg msgs loops (S (S n)) (b "nativeType") [GF f] =
    match f_ref f with
    | None => GThrow (b "Message type reference is null") 0 0
    | Some k => match nth_error msgs k with Some m => GOk (GS (native_package (m_package m) ++ b "::" ++ m_name m)) | None => GUndef end
    end.
  Proof.
    intros n [ty q [k|] rp op nm ix os] E; cbn [f_type f_ref] in *; subst ty; [|reflexivity].
    set (f := Fld FMessage q (Some k) rp op nm ix os).
    transitivity (grab v := (grab o := (grab o := (grab o := (grab v := geval cfg msgs (gt_map the_gen) (call_gen the_gen cfg msgs loops (S n)) type_expr [(b "field", GF f)] in GOk (Some v, [(b "field", GF f)])) in
                                                   match o with (None, s1) => GOk (None, s1) | (Some v, s1) => GOk (Some v, s1) end) in GOk (fst o, leave [(b "field", GF f)] (snd o))) in
                             match o with (None, s1) => GUndef | (Some v, _) => GOk v end) in sure (gtyped (hf_ret f_native) v)); [reflexivity|].
    rewrite (type_expr_is n f k eq_refl). destruct (nth_error msgs k); reflexivity.
  Qed.

  (** fieldNativeType *)
  Lemma field_text : forall lists f, same_as (field_native_type cfg msgs lists f) (fun t => GS (fst t)) (source_gen cppgen_cc cfg msgs loops "fieldNativeType" [GF f; GB lists]).
  Proof.
    intros lists f. unfold source_gen. rewrite the_gen_is. destruct (f_type f) eqn:E.
    1-15: destruct f as [ty q r [] op nm ix os]; cbn [f_type] in E; subst ty; destruct lists; split; try reflexivity.
    1-26: match goal with |- context [Fld ?T _ _ _ _ _ _ _] =>
            transitivity (@GOk gval (GS ((((b "protogen" ++ b_naming cfg) ++ b "::field<") ++ native_scalar T) ++ b ">"))); [reflexivity|rewrite <- !app_assoc; reflexivity] end.
    assert (R : call_gen the_gen cfg msgs loops 3 (b "fieldNativeType") [GF f; GB lists] =
      grab v := (grab o := (grab s1 := (grab v := call_gen the_gen cfg msgs loops 2 (b "nativeType") [GF f] in
                                       grab w := sure (text v) in GOk [(b "valueType", GS w); (b "field", GF f); (b "useLists", GB lists)]) in GOk (@None gval, s1)) in
                 match o with
                 | (None, s1) => gbody cfg msgs (gt_map the_gen) loops (call_gen the_gen cfg msgs loops 2) (skipn 2 (hf_body f_type_fun)) s1
                 | (Some v, _) => GOk v
                 end) in sure (gtyped (hf_ret f_type_fun) v)).
    { destruct f as [ty q r rp op nm ix os]; cbn [f_type] in E; subst ty. reflexivity. }
    rewrite R, native_call by exact E. unfold field_native_type, value_type, referred, is_seq. rewrite E.
    destruct f as [ty q [k|] rp op nm ix os]; cbn [f_type] in E; subst ty; cbn [f_ref f_repeated orb]; [|split; reflexivity].
    destruct (nth_error msgs k) as [m|]; [|split; reflexivity].
    destruct rp, lists; split; try reflexivity.
  Qed.
End Text.
