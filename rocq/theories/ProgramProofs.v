(** The classes mean what is specified. *)
From Coq Require Import Lia Permutation.
From Verif Require Import Bytes BaseProofs Num Types Read SpecInterp SpecWrite ProtoLex ProtoParse SpecProto SpecTemplate TemplateProofs Cpp Gen SpecGen SpecCpp SpecFile SpecOpts GenText BackMore SpecProgram.

(** ** Literals *)
Lemma lit_plain s : ~ In """"%char s -> ~ In "\"%char s -> ~ In LF s -> lit_go LText s = Some s.
Proof.
  induction s as [|c s IH]; intros A B C; [reflexivity|]. cbn [lit_go lit_step]. unfold text_step.
  rewrite (proj2 (Ascii.eqb_neq c """")), (proj2 (Ascii.eqb_neq c LF)), (proj2 (Ascii.eqb_neq c "\"));
    try (intros ->; firstorder; fail). cbn [orb]. rewrite IH; [reflexivity| | |]; intros X; firstorder.
Qed.

Lemma lit_fine_value l : literal_fine l -> lit_string l = Some l.
Proof.
  intros (A & B & C & D & E). unfold lit_string, cpp_lit. rewrite trigraphs_id by exact E. rewrite lit_plain by assumption.
  cbn [option_map]. now rewrite cstr_id.
Qed.

Lemma hexd_digit z : 0 <= z < 16 -> hex_digit (hexd z) = Some z /\ hexd z <> "?"%char.
Proof.
  intros Z. assert (X : exists n, (n < 16)%nat /\ z = Z.of_nat n) by (exists (Z.to_nat z); lia). destruct X as (n & N & ->).
  do 16 (destruct n as [|n]; [split; [vm_compute; reflexivity|vm_compute; discriminate]|]). lia.
Qed.

Lemma hex_backslash v r some : lit_go (LHex true v) ("\"%char :: r) = (if v <? 256 then option_map (app [chr v]) (lit_go LEsc r) else None) /\
  lit_go (LHex some v) ("\"%char :: r) = (if some then lit_go (LHex true v) ("\"%char :: r) else None).
Proof.
  split.
  - cbn [lit_go lit_step]. change (hex_digit "\") with (@None Z). unfold flush. destruct (v <? 256); [|reflexivity].
    change (text_step "\") with (Some ([] : bytes, LEsc)). cbv iota beta. rewrite app_nil_r. reflexivity.
  - destruct some; reflexivity.
Qed.

Definition masked_with (M : Z) (l : bytes) : bytes := concat (map (fun c => b "\x" ++ hexnum (Z.lxor (code c) M)) l).
Definition veiled (M : Z) (l : bytes) : bytes := map (fun c => chr (Z.lxor (code c) M)) l.

Lemma lit_hexnum x r : 0 <= x < 256 -> lit_go (LHex false 0) (hexnum x ++ r) = lit_go (LHex true x) r.
Proof.
  intros X. unfold hexnum. destruct (x <? 16) eqn:E.
  - apply Z.ltb_lt in E. cbn [app lit_go lit_step]. rewrite (proj1 (hexd_digit x ltac:(lia))). cbv iota beta. change (16 * 0 + x) with x.
    destruct (lit_go (LHex true x) r); reflexivity.
  - apply Z.ltb_ge in E. cbn [app lit_go lit_step]. rewrite (proj1 (hexd_digit (x / 16) ltac:(split; [apply Z.div_pos; lia|apply Z.div_lt_upper_bound; lia]))). cbv iota beta.
    cbn [lit_go lit_step]. rewrite (proj1 (hexd_digit (x mod 16) ltac:(apply Z.mod_pos_bound; lia))). cbv iota beta.
    replace (16 * (16 * 0 + x / 16) + x mod 16) with x by (pose proof (Z.div_mod x 16 ltac:(lia)); lia).
    destruct (lit_go (LHex true x) r); reflexivity.
Qed.

Lemma lit_esc_x r : lit_go LEsc ("x"%char :: r) = lit_go (LHex false 0) r.
Proof. cbn [lit_go lit_step]. change (simple_escape "x") with (@None ascii). change (oct_digit "x") with (@None Z). cbv iota beta. change (Ascii.eqb "x" "x") with true. cbv iota. destruct (lit_go (LHex false 0) r); reflexivity. Qed.

Lemma lit_text_back r : lit_go LText ("\"%char :: r) = lit_go LEsc r.
Proof. cbn [lit_go lit_step]. change (text_step "\") with (Some ([] : bytes, LEsc)). cbv iota beta. destruct (lit_go LEsc r); reflexivity. Qed.

Lemma lit_masked M l : 0 <= M < 256 ->
  (forall v, 0 <= v < 256 -> lit_go (LHex true v) (masked_with M l) = Some (chr v :: veiled M l)) /\
  lit_go LText (masked_with M l) = Some (veiled M l).
Proof.
  intros R. unfold masked_with, veiled. induction l as [|c l (IH & _)].
  - split; [|reflexivity]. intros v V. cbn [map concat lit_go lit_end]. unfold flush. now rewrite (proj2 (Z.ltb_lt v 256)) by lia.
  - cbn [map concat]. pose proof (lxor_byte (code c) M (code_range c) R) as X. rewrite <- app_assoc. change (b "\x" ++ ?r) with ("\"%char :: "x"%char :: r). split.
    + intros v V. rewrite (proj1 (hex_backslash v _ true)). rewrite (proj2 (Z.ltb_lt v 256)) by lia. rewrite lit_esc_x, lit_hexnum by exact X. rewrite IH by exact X. reflexivity.
    + rewrite lit_text_back, lit_esc_x, lit_hexnum by exact X. now rewrite IH.
Qed.

Lemma masked_no_quest M l : 0 <= M < 256 -> ~ In "?"%char (masked_with M l).
Proof.
  intros R H. unfold masked_with in H. apply in_concat in H as (x & H & I). apply in_map_iff in H as (c & <- & _).
  pose proof (lxor_byte (code c) M (code_range c) R) as X. set (y := Z.lxor (code c) M) in *. apply in_app_iff in I as [I|I].
  - vm_compute in I. repeat (destruct I as [I|I]; [discriminate|]). exact I.
  - unfold hexnum in I. destruct (y <? 16) eqn:E.
    + apply Z.ltb_lt in E. destruct I as [I|[]]. exact (proj2 (hexd_digit y ltac:(lia)) I).
    + apply Z.ltb_ge in E. destruct I as [I|[I|[]]].
      * exact (proj2 (hexd_digit (y / 16) ltac:(split; [apply Z.div_pos; lia|apply Z.div_lt_upper_bound; lia])) I).
      * exact (proj2 (hexd_digit (y mod 16) ltac:(apply Z.mod_pos_bound; lia)) I).
Qed.

Lemma no_quest_tri s : ~ In "?"%char s -> no_trigraph s.
Proof. intros H u c v E. exfalso. apply H. rewrite E. apply in_app_iff. right. left. reflexivity. Qed.

Lemma cstr_veiled M l : 0 <= M < 256 -> cstr (veiled M l) = veiled M (before M l).
Proof.
  intros R. induction l as [|c l IH]; [reflexivity|]. unfold veiled in *. cbn [map before cstr].
  pose proof (code_range c) as C. pose proof (lxor_byte (code c) M C R) as X. destruct (code c =? M) eqn:E.
  - apply Z.eqb_eq in E. rewrite E, Z.lxor_nilpotent. reflexivity.
  - apply Z.eqb_neq in E. destruct (Ascii.eqb_spec (chr (Z.lxor (code c) M)) NUL) as [K|K]; [|cbn [map]; now rewrite IH].
    exfalso. apply E. apply Z.lxor_eq. assert (Y : code (chr (Z.lxor (code c) M)) = 0) by (rewrite K; reflexivity). rewrite code_chr_small in Y by exact X. exact Y.
Qed.

Lemma masked_value l : lit_string (masked l) = Some (veiled (name_mask (length l)) (before (name_mask (length l)) l)).
Proof.
  pose proof (name_mask_range (length l)) as R. change (masked l) with (masked_with (name_mask (length l)) l). unfold lit_string, cpp_lit.
  rewrite trigraphs_id by (apply no_quest_tri, masked_no_quest, R). rewrite (proj2 (lit_masked _ l R)). cbn [option_map]. now rewrite cstr_veiled.
Qed.

Lemma reveal_eq s : reveal s = veiled (name_mask (length s)) s.
Proof. unfold reveal, veiled, reveal_mask. now rewrite mask_eq. Qed.

Lemma veiled_length M s : length (veiled M s) = length s.
Proof. apply map_length. Qed.

Lemma reveal_inv s : reveal (reveal s) = s.
Proof.
  rewrite !reveal_eq, veiled_length. set (M := name_mask (length s)). pose proof (name_mask_range (length s)) as R. fold M in R. clearbody M. unfold veiled. rewrite map_map.
  rewrite <- (map_id s) at 2. apply map_ext. intros c. rewrite code_chr_small by (apply lxor_byte; [apply code_range|exact R]).
  rewrite Z.lxor_assoc, Z.lxor_nilpotent, Z.lxor_0_r. apply chr_code.
Qed.

Definition key (obf : bool) (l : bytes) : bytes := if obf then reveal (effective true l) else l.

Lemma veiled_effective l : reveal (veiled (name_mask (length l)) (before (name_mask (length l)) l)) = effective true l.
Proof.
  rewrite reveal_eq, veiled_length. unfold effective, veiled. cbv zeta. rewrite map_map. apply map_ext. intros c.
  rewrite code_chr_small; [reflexivity|]. apply lxor_byte; [apply code_range|apply name_mask_range].
Qed.

Lemma label_means (obf : bool) l : (obf = false -> literal_fine l) -> lit_string (literal_of obf l) = Some (key obf l) /\ label_value (Label obf (literal_of obf l)) = Some (effective obf l).
Proof.
  intros F. destruct obf; cbn [literal_of label_value key].
  - rewrite masked_value. cbn [option_map]. rewrite veiled_effective. split; [|reflexivity]. rewrite <- veiled_effective, reveal_inv. reflexivity.
  - rewrite lit_fine_value by now apply F. split; reflexivity.
Qed.

Lemma key_eqb (obf : bool) l name : bytes_eqb (key obf l) (if obf then reveal name else name) = bytes_eqb (effective obf l) name.
Proof.
  destruct obf; [|reflexivity]. unfold key. destruct (bytes_eqb (effective true l) name) eqn:E.
  - apply bytes_eqb_true in E. rewrite <- E. apply bytes_eqb_refl.
  - apply bytes_eqb_false in E. apply bytes_eqb_false. intros K. apply E. apply (f_equal reveal) in K. now rewrite !reveal_inv in K.
Qed.

(** ** One class *)
Lemma all_some_map {A B} (f : A -> option B) (g : A -> B) l : (forall x, In x l -> f x = Some (g x)) -> all_some (map f l) = Some (map g l).
Proof.
  induction l as [|x l IH]; intros H; [reflexivity|]. cbn [map all_some]. rewrite (H x) by now left. rewrite IH by (intros y Y; apply H; now right). reflexivity.
Qed.

Lemma member_pos_at a x r : ~ In x a -> member_pos (a ++ x :: r) x = Some (length a).
Proof.
  induction a as [|y a IH]; intros H; cbn [app member_pos length].
  - now rewrite bytes_eqb_refl.
  - destruct (bytes_eqb y x) eqn:E; [apply bytes_eqb_true in E; exfalso; apply H; now left|]. rewrite IH by (intros X; apply H; now right). reflexivity.
Qed.

(** The three tables over the persistent fields from position [k] on. *)
Fixpoint cases_at (i : Z) (k : nat) (l : list field) : list (Z * nat) :=
  match l with [] => [] | f :: r => if transient f then cases_at i (S k) r else (i, k) :: cases_at (i + 1) (S k) r end.

Definition keep (l : list field) : list field := filter (fun f => negb (transient f)) l.

Lemma keep_cons f l : keep (f :: l) = if transient f then keep l else f :: keep l.
Proof. unfold keep. cbn [filter]. now destruct (transient f). Qed.

Section Tables.
  Variable p : proto.
  Let obf := flag (pr_options p) (b "obfuscate_strings").
  Let numbers := flag (pr_options p) (b "number_names").

  Lemma write_table l : forall pre, NoDup (map f_name (pre ++ l)) -> (forall f, In f l -> transient f = false -> obf = false -> literal_fine (json_label numbers f)) ->
    all_some (map (fun x => match member_pos (map f_name (pre ++ l)) (fst x), label_value (snd x) with Some k, Some s => Some (k, s) | _, _ => None end)
                  (map (fun f => (f_name f, Label obf (literal_of obf (json_label numbers f)))) (keep l))) = Some (wire_at p (length pre) l).
  Proof.
    induction l as [|f l IH]; intros pre N F; [reflexivity|]. rewrite keep_cons. cbn [wire_at]. specialize (IH (pre ++ [f])). rewrite <- app_assoc in IH. cbn [app] in IH.
    specialize (IH N (fun g G => F g (or_intror G))). rewrite app_length in IH. cbn [length] in IH. replace (length pre + 1)%nat with (S (length pre)) in IH by lia.
    destruct (transient f) eqn:E; [exact IH|]. cbn [map all_some fst snd]. rewrite (proj2 (label_means obf (json_label numbers f) (F f (or_introl eq_refl) E))).
    rewrite map_app. cbn [map]. rewrite member_pos_at.
    - rewrite map_length. rewrite map_app in IH. cbn [map] in IH. rewrite IH. reflexivity.
    - rewrite map_app in N. cbn [map] in N. apply NoDup_remove_2 in N. intros X. apply N. apply in_app_iff. now left.
  Qed.

  Lemma cases_table l : forall pre i, NoDup (map f_name (pre ++ l)) ->
    all_some (map (fun x => option_map (fun k => (fst x, k)) (member_pos (map f_name (pre ++ l)) (snd x)))
                  (map (fun x => (fst x, f_name (snd x))) (numbered i (keep l)))) = Some (cases_at i (length pre) l).
  Proof.
    induction l as [|f l IH]; intros pre i N; [reflexivity|]. rewrite keep_cons. cbn [cases_at].
    assert (N' : NoDup (map f_name ((pre ++ [f]) ++ l))) by (rewrite <- app_assoc; exact N).
    pose proof (fun j => IH (pre ++ [f]) j N') as K. clear IH. rewrite <- app_assoc in K. cbn [app] in K.
    rewrite app_length in K. cbn [length] in K. replace (length pre + 1)%nat with (S (length pre)) in K by lia.
    destruct (transient f) eqn:E; [apply K|]. cbn [numbered map all_some fst snd].
    rewrite map_app. cbn [map]. rewrite member_pos_at.
    - rewrite map_length. rewrite map_app in K. cbn [map] in K. cbn [option_map]. rewrite K. reflexivity.
    - rewrite map_app in N. cbn [map] in N. apply NoDup_remove_2 in N. intros X. apply N. apply in_app_iff. now left.
  Qed.

  Lemma index_table l : forall i, (forall f, In f l -> obf = false -> literal_fine (json_label numbers f)) ->
    all_some (map (fun x => option_map (fun s => (s, snd x)) (lit_string (fst x)))
                  (map (fun x => (literal_of obf (json_label numbers (snd x)), fst x)) (numbered i l))) =
    Some (map (fun x => (key obf (json_label numbers (snd x)), fst x)) (numbered i l)).
  Proof.
    induction l as [|f l IH]; intros i F; [reflexivity|]. cbn [numbered map all_some fst snd].
    rewrite (proj1 (label_means obf (json_label numbers f) (F f (or_introl eq_refl)))). cbn [option_map]. rewrite IH by (intros g G; apply F; now right). reflexivity.
  Qed.

  (** The lookup: the [j]-th name, then the [j]-th case. *)
  Lemma cases_later l : forall i k j, j < i -> case_lookup (cases_at i k l) j = None.
  Proof.
    induction l as [|f l IH]; intros i k j J; [reflexivity|]. cbn [cases_at]. destruct (transient f); [now apply IH|].
    cbn [case_lookup]. rewrite (proj2 (Z.eqb_neq i j)) by lia. apply IH. lia.
  Qed.

  Lemma index_later l name : forall i, index_lookup (map (fun x => (key obf (json_label numbers (snd x)), fst x)) (numbered i l)) name = -1 \/
    i <= index_lookup (map (fun x => (key obf (json_label numbers (snd x)), fst x)) (numbered i l)) name.
  Proof.
    induction l as [|f l IH]; intros i; [now left|]. cbn [numbered map index_lookup fst snd]. destruct (bytes_eqb _ name); [right; lia|].
    destruct (IH (i + 1)); [now left|right; lia].
  Qed.

  Lemma select_at l name : forall i k, 0 <= i ->
    (let idx := index_lookup (map (fun x => (key obf (json_label numbers (snd x)), fst x)) (numbered i (keep l))) (if obf then reveal name else name) in
     if idx <? 0 then None else case_lookup (cases_at i k l) idx) = member_named (wire_at p k l) name.
  Proof.
    cbv zeta. induction l as [|f l IH]; intros i k I; [reflexivity|]. rewrite keep_cons. cbn [cases_at wire_at]. destruct (transient f); [now apply IH|].
    cbn [numbered map index_lookup fst snd member_named]. rewrite key_eqb. fold (wire p f). change (effective obf (json_label numbers f)) with (wire p f).
    destruct (bytes_eqb (wire p f) name).
    - rewrite (proj2 (Z.ltb_ge i 0)) by lia. cbn [case_lookup]. now rewrite Z.eqb_refl.
    - rewrite <- (IH (i + 1) (S k)) by lia. cbn [case_lookup].
      destruct (index_later (keep l) (if obf then reveal name else name) (i + 1)) as [-> |K]; [reflexivity|].
      rewrite (proj2 (Z.ltb_ge _ 0)) by lia. now rewrite (proj2 (Z.eqb_neq i _)) by lia.
  Qed.
End Tables.

Lemma existsb_bytes x l : existsb (bytes_eqb x) l = true <-> In x l.
Proof.
  rewrite existsb_exists. split; [intros (y & I & E); apply bytes_eqb_true in E; now subst|intros I; exists x; split; [exact I|apply bytes_eqb_refl]].
Qed.

Lemma keyword_no w : ~ In w cpp_keywords -> is_keyword w = false.
Proof. intros H. apply not_true_is_false. unfold is_keyword. now rewrite existsb_bytes. Qed.

Lemma nodupb_spec l : nodupb l = true <-> NoDup l.
Proof.
  induction l as [|x l IH]; [split; [constructor|reflexivity]|]. cbn [nodupb]. rewrite andb_true_iff, negb_true_iff, IH. split.
  - intros (A & B). constructor; [|exact B]. intros I. apply existsb_bytes in I. congruence.
  - inversion_clear 1. split; [|assumption]. apply not_true_is_false. now rewrite existsb_bytes.
Qed.

Lemma names_same l n : (if list_eq_dec (list_eq_dec ascii_dec) l l then true else false) && n = n.
Proof. destruct (list_eq_dec (list_eq_dec ascii_dec) l l) as [|N]; [reflexivity|congruence]. Qed.

Lemma map_snd_members (msgs : list message) lists l : map snd (map (fun f => (member_type msgs lists f, f_name f)) l) = map f_name l.
Proof. rewrite map_map. reflexivity. Qed.

Lemma class_means p h env T m :
  let o := pr_options p in
  let obf := flag o (b "obfuscate_strings") in let lists := flag o (b "cpp_use_lists") in let numbers := flag o (b "number_names") in
  message_cpp p m ->
  (forall f, In f (m_fields m) -> member_ty h env (member_type (pr_messages p) lists f) = Some (field_ty h T f)) ->
  exists g, class_ty h env (class_of (pr_messages p) obf lists numbers m) = Some (TMsg (map (field_ty h T) (m_fields m)) g) /\
    g_write g = wire_at p 0 (m_fields m) /\ forall name, select_member g name = member_named (g_write g) name.
Proof.
  intros o obf lists numbers (N & K & KM & _ & F) H. unfold class_ty, class_of. cbn [c_members c_name c_empty c_clear c_equal c_swap c_write c_index c_cases c_obf]. cbv zeta.
  rewrite map_snd_members. cbn [forallb]. rewrite !names_same. cbn [negb].
  assert (E1 : existsb is_keyword (map f_name (m_fields m)) = false).
  { apply not_true_is_false. rewrite existsb_exists. intros (w & I & E). apply in_map_iff in I as (f & <- & I). rewrite (keyword_no _ (K f I)) in E. discriminate. }
  rewrite E1, (keyword_no _ KM), (proj2 (nodupb_spec _) N). cbn [orb negb].
  assert (E2 : all_some (map (fun x => member_ty h env (fst x)) (map (fun f => (member_type (pr_messages p) lists f, f_name f)) (m_fields m))) = Some (map (field_ty h T) (m_fields m)))
    by (rewrite map_map; apply all_some_map; exact H).
  rewrite E2. clear E2.
  pose proof (write_table p (m_fields m) [] N) as W. cbn [app length] in W. fold o obf numbers in W. unfold written. fold (keep (m_fields m)). rewrite W by (intros f I T0 O; exact (F O f I T0)). clear W.
  pose proof (cases_table p (m_fields m) [] 0 N) as C. cbn [app length] in C. rewrite C. clear C.
  pose proof (index_table p (keep (m_fields m)) 0) as X. fold o obf numbers in X.
  rewrite X; [|intros f I O; apply filter_In in I as (I & E); apply F; [exact O|exact I|now apply negb_true_iff]]. clear X.
  eexists. split; [reflexivity|]. cbn [g_write]. split; [reflexivity|]. intros name. unfold select_member, gen_index. cbn [g_obf g_index g_cases].
  pose proof (select_at p (m_fields m) name 0 O ltac:(lia)) as S. cbv zeta in S. fold o obf numbers in S. rewrite <- S.
  destruct (keep (m_fields m)) as [|x r]; [reflexivity|]. reflexivity.
Qed.

(** ** Types of the members *)
Lemma env_find_means p order T env j m : means p order T env -> NoDup (concat (map structs (pr_messages p))) -> In j order ->
  nth_error (pr_messages p) j = Some m -> env_find env (m_package m) (m_name m) = Some (T j).
Proof.
  intros M N. induction M as [|k (q, t) order env (m0 & M0 & E) M IH]; intros I J; [destruct I|]. inversion E; subst. cbn [env_find].
  destruct (bytes_eqb (m_package m0) (m_package m) && bytes_eqb (m_name m0) (m_name m)) eqn:B.
  - apply andb_true_iff in B as (B1 & B2). apply bytes_eqb_true in B1, B2. f_equal. f_equal. clear - N M0 J B1 B2.
    (* the same structure name: the same message *)
    assert (S : structs m0 = structs m) by (unfold structs; congruence).
    revert k j M0 J. induction (pr_messages p) as [|x l IH]; intros [|k] [|j] M0 J; try discriminate; [reflexivity| | |].
    + exfalso. cbn in M0. injection M0 as ->. cbn [map concat] in N. rewrite S in N. cbn [nth_error] in J. apply nth_error_In in J.
      cbn [structs app] in N. inversion_clear N as [|? ? N1 _]. apply N1. right. apply in_concat. exists (structs m). split; [now apply in_map|now left].
    + exfalso. cbn in J. injection J as ->. cbn [map concat] in N. rewrite <- S in N. cbn [nth_error] in M0. apply nth_error_In in M0.
      cbn [structs app] in N. inversion_clear N as [|? ? N1 _]. apply N1. right. apply in_concat. exists (structs m0). split; [now apply in_map|now left].
    + f_equal. apply IH; [|exact M0|exact J]. cbn [map concat structs app] in N. inversion_clear N as [|? ? _ N2]. now inversion_clear N2.
  - destruct I as [-> |I]; [|now apply IH]. exfalso. assert (m0 = m) by congruence. subst. rewrite !bytes_eqb_refl in B. discriminate.
Qed.

Lemma member_means p h order T env f m :
  let lists := flag (pr_options p) (b "cpp_use_lists") in
  refs_ok (pr_messages p) -> wanted (pr_messages p) h -> bytes_cpp p h -> NoDup (concat (map structs (pr_messages p))) -> means p order T env ->
  In m (pr_messages p) -> In f (m_fields m) -> (forall j, f_ref f = Some j -> In j order) ->
  member_ty h env (member_type (pr_messages p) lists f) = Some (field_ty h T f).
Proof.
  intros lists R (W1 & W2 & W3 & W4) B N M I J K. destruct (R m f I J) as (R1 & R2).
  assert (A1 : f_repeated f = true -> h_array h = true) by (intros X; apply W1; exists m, f; auto).
  assert (A3 : numeric f -> h_number h = true) by (intros X; apply W3; exists m, f; auto).
  assert (A4 : f_type f = FString -> h_string h = true) by (intros X; apply W4; exists m, f; auto).
  unfold numeric in A3. unfold bytes_cpp, uses in B.
  assert (A2 : f_type f = FBytes -> h_base64 h = true \/ h_array h = true /\ h_number h = true) by (intros X; apply B; exists m, f; auto).
  unfold member_type, is_bytes, field_ty, value_elem. clear B W1 W2 W3 W4.
  destruct (f_type f) eqn:Y;
    try (unfold member_ty, elem_ty; destruct (f_repeated f); [rewrite A1 by reflexivity|]; cbn [is_uint8 andb prim_of option_map];
         try (rewrite A3 by (repeat split; discriminate)); try (rewrite A4 by reflexivity); reflexivity).
  - (* bytes *) unfold member_ty, elem_ty. cbn [is_uint8 andb negb]. destruct (h_base64 h); [reflexivity|]. cbn [andb].
    destruct (A2 eq_refl) as [X|(X1 & X2)]; [discriminate|]. rewrite X1, X2. reflexivity.
  - (* message *) destruct (f_ref f) as [j|]; [|exfalso; now apply R2]. pose proof (R1 j eq_refl) as L. destruct (nth_error (pr_messages p) j) as [m'|] eqn:E; [|apply nth_error_None in E; lia].
    pose proof (env_find_means p order T env j m' M N (K j eq_refl) E) as X. unfold member_ty, elem_ty; destruct (f_repeated f); [rewrite A1 by reflexivity|]; cbn [is_uint8 andb]; rewrite X; reflexivity.
Qed.

(** ** All classes *)
Definition solves_on (p : proto) (h : headers) (u : list nat) (T : nat -> ty) : Prop :=
  forall k m, In k u -> nth_error (pr_messages p) k = Some m ->
    exists g, T k = TMsg (map (field_ty h T) (m_fields m)) g /\ g_write g = wire_at p 0 (m_fields m) /\
      forall name, select_member g name = member_named (g_write g) name.

Lemma field_ty_ext h T T' f : (forall j, f_ref f = Some j -> T j = T' j) -> field_ty h T f = field_ty h T' f.
Proof. intros H. unfold field_ty. destruct (f_type f); try reflexivity. destruct (f_ref f) as [j|]; [now rewrite (H j eq_refl)|reflexivity]. Qed.

Lemma classes_means p h order : refs_ok (pr_messages p) -> wanted (pr_messages p) h -> well_ordered (pr_messages p) order ->
  (forall m, In m (pr_messages p) -> message_cpp p m) -> NoDup (concat (map structs (pr_messages p))) -> bytes_cpp p h ->
  forall v u T env, order = u ++ v -> means p u T env -> solves_on p h u T ->
  exists T' env', classes_ty h env (classes_of p v) = Some env' /\ means p order T' env' /\ solves_on p h order T'.
Proof.
  intros R W (O1 & O2 & O3) C N B. induction v as [|k v IH]; intros u T env E M S.
  - rewrite app_nil_r in E. subst. exists T, env. auto.
  - assert (K : In k order) by (rewrite E; apply in_app_iff; right; now left). pose proof (proj1 (O1 k) K) as L.
    destruct (nth_error (pr_messages p) k) as [m|] eqn:F; [|apply nth_error_None in F; lia]. pose proof (nth_error_In _ _ F) as I.
    assert (KU : ~ In k u) by (rewrite E in O2; apply NoDup_remove_2 in O2; intros X; apply O2; apply in_app_iff; now left).
    destruct (class_means p h env T m (C m I)) as (g & G1 & G2 & G3).
    { intros f J. apply (member_means p h u T env f m); try assumption. intros j Q. apply (O3 u k v E). exists m, f. auto. }
    set (t := TMsg (map (field_ty h T) (m_fields m)) g) in *. set (T' := fun j => if Nat.eqb j k then t else T j).
    assert (TU : forall j, In j u -> T' j = T j) by (intros j J; unfold T'; destruct (Nat.eqb_spec j k); [subst; contradiction|reflexivity]).
    assert (TK : T' k = t) by (unfold T'; now rewrite Nat.eqb_refl).
    assert (REF : forall i m' f j, In i (u ++ [k]) -> nth_error (pr_messages p) i = Some m' -> In f (m_fields m') -> f_ref f = Some j -> In j u).
    { intros i m' f j Q1 Q2 Q3 Q4. apply in_app_iff in Q1 as [Q1|[<-|[]]].
      - apply in_split in Q1 as (u1 & u2 & Q1). rewrite Q1 in E. rewrite <- app_assoc in E. cbn [app] in E.
        rewrite Q1. apply in_app_iff. left. apply (O3 u1 i (u2 ++ k :: v) E). exists m', f. auto.
      - apply (O3 u k v E). exists m', f. auto. }
    destruct (IH (u ++ [k]) T' (env ++ [(m_package m, m_name m, t)])) as (T2 & env2 & X1 & X2 & X3).
    + rewrite <- app_assoc. exact E.
    + apply Forall2_app.
      * clear - M TU. unfold means in *. induction M as [|i e u env (m0 & A & Q) M IHM]; constructor.
        -- exists m0. split; [exact A|]. rewrite TU by now left. exact Q.
        -- apply IHM. intros j J. apply TU. now right.
      * constructor; [|constructor]. exists m. split; [exact F|]. now rewrite TK.
    + intros i m' Q1 Q2. assert (XT : map (field_ty h T) (m_fields m') = map (field_ty h T') (m_fields m')).
      { apply map_ext_in. intros f J. apply field_ty_ext. intros j Q. symmetry. apply TU. exact (REF i m' f j Q1 Q2 J Q). }
      apply in_app_iff in Q1 as [Q1|[<-|[]]].
      * rewrite TU by exact Q1. rewrite <- XT. exact (S i m' Q1 Q2).
      * assert (m' = m) by congruence. subst m'. rewrite TK. unfold t. rewrite <- XT. exists g. auto.
    + exists T2, env2. split; [|auto]. unfold classes_of. cbn [map concat]. rewrite F. cbn [app classes_ty].
      unfold t in X1, G1. rewrite G1. exact X1.
Qed.

(** ** Names *)
Lemma in_pkg_full pkg n : in_pkg pkg n = full_name pkg n.
Proof. reflexivity. Qed.

Lemma prefixes_in x p : forall acc, In x (prefixes acc p) <-> x = rev acc ++ p \/ exists u r, p = u ++ "."%char :: r /\ x = rev acc ++ u.
Proof.
  induction p as [|c p IH]; intros acc; cbn [prefixes].
  - cbn [In]. rewrite app_nil_r. split; [intros [<-|[]]; now left|]. intros [-> |(u & r & E & _)]; [now left|]. destruct u; discriminate.
  - assert (G : In x (prefixes (c :: acc) p) <-> x = rev acc ++ c :: p \/ exists u r, c :: p = c :: u ++ "."%char :: r /\ x = rev acc ++ c :: u).
    { rewrite IH. cbn [rev]. split.
      - intros [-> |(u & r & -> & ->)]; [left; now rewrite <- app_assoc|right; exists u, r; split; [reflexivity|now rewrite <- app_assoc]].
      - intros [-> |(u & r & E & ->)]; [left; now rewrite <- app_assoc|right; exists u, r; split; [now injection E|now rewrite <- app_assoc]]. }
    destruct (Ascii.eqb_spec c ".") as [-> |D]; cbn [In]; rewrite G; clear IH G.
    + split.
      * intros [<-|[-> |(u & r & E & ->)]]; [right; exists [], p; now rewrite app_nil_r|now left|right; exists ("."%char :: u), r; auto].
      * intros [-> |(u & r & E & ->)]; [auto|]. destruct u as [|d u]; [left; now rewrite app_nil_r|]. injection E as <- E. right. right. exists u, r. split; [now f_equal|reflexivity].
    + split.
      * intros [-> |(u & r & E & ->)]; [now left|right; exists (c :: u), r; auto].
      * intros [-> |(u & r & E & ->)]; [auto|]. destruct u as [|d u]; [injection E as ? _; contradiction|]. injection E as <- E. right. exists u, r. split; [now f_equal|reflexivity].
Qed.

Lemma order_perm p order : well_ordered (pr_messages p) order ->
  exists ms, Permutation ms (pr_messages p) /\ classes_of p order =
    map (class_of (pr_messages p) (flag (pr_options p) (b "obfuscate_strings")) (flag (pr_options p) (b "cpp_use_lists")) (flag (pr_options p) (b "number_names"))) ms.
Proof.
  intros (O1 & O2 & _). assert (P : Permutation order (seq 0 (length (pr_messages p)))).
  { apply NoDup_Permutation; [exact O2|apply seq_NoDup|]. intros k. rewrite O1, in_seq. lia. }
  exists (concat (map (fun k => match nth_error (pr_messages p) k with Some m => [m] | None => [] end) order)). split.
  - transitivity (concat (map (fun k => match nth_error (pr_messages p) k with Some m => [m] | None => [] end) (seq 0 (length (pr_messages p))))).
    + rewrite <- !flat_map_concat_map. now apply Permutation_flat_map.
    + clear. induction (pr_messages p) as [|m l IH]; [constructor|]. cbn [length seq map concat nth_error app]. constructor.
      rewrite <- seq_shift, map_map. cbn [nth_error]. exact IH.
  - unfold classes_of. clear. induction order as [|k order IH]; [reflexivity|]. cbn [map concat]. destruct (nth_error (pr_messages p) k); cbn [app map]; rewrite IH; reflexivity.
Qed.

Lemma names_fine p h order : well_ordered (pr_messages p) order -> cpp_fine p h -> names_ok (classes_of p order) = true.
Proof.
  intros O ((C & N & NS) & _). destruct (order_perm p order O) as (ms & P & ->).
  assert (X : forall o1 o2 o3, flat_map struct_names (map (class_of (pr_messages p) o1 o2 o3) ms) = concat (map structs ms)).
  { intros o1 o2 o3. rewrite flat_map_concat_map, map_map. reflexivity. }
  unfold names_ok. cbv zeta. rewrite X. apply andb_true_iff. split; [apply andb_true_iff; split|].
  - apply nodupb_spec. eapply Permutation_NoDup; [|exact N]. rewrite <- !flat_map_concat_map. apply Permutation_flat_map. now symmetry.
  - apply forallb_forall. intros ns I. apply negb_true_iff, not_true_is_false. rewrite existsb_bytes. intros J.
    apply in_flat_map in I as (c & I & K). apply in_map_iff in I as (m & <- & I). apply in_concat in J as (l & J & Q). apply in_map_iff in J as (m' & <- & J).
    refine (NS m m' ns (Permutation_in _ P I) (Permutation_in _ P J) _ Q). unfold namespaces in K. cbn [class_of c_pkg] in K.
    unfold encloses. destruct (m_package m) as [|a r] eqn:E; [destruct K|]. split; [discriminate|]. apply prefixes_in in K as [K|(u & v & K & K')]; [left; exact K|].
    right. exists v. cbn [rev app] in K'. now rewrite K'.
  - apply forallb_forall. intros c I. apply in_map_iff in I as (m & <- & I). cbn [class_of c_pkg]. destruct (m_package m) as [|a r] eqn:E; [reflexivity|].
    apply negb_true_iff, not_true_is_false. rewrite existsb_exists. intros (w & J & K). destruct (C m (Permutation_in _ P I)) as (_ & _ & _ & Q & _).
    pose proof (parts_ok (m_package m)) as PP. unfold parts in PP. rewrite E in PP. specialize (Q (components [] (a :: r)) w). rewrite E in Q. apply (Q PP) in J.
    rewrite (keyword_no _ J) in K. discriminate.
Qed.

Theorem program_means p h order : refs_ok (pr_messages p) -> wanted (pr_messages p) h -> well_ordered (pr_messages p) order -> cpp_fine p h ->
  exists T env, solves p h T /\ program_ty h (classes_of p order) = Some env /\ means p order T env.
Proof.
  intros R W O C. pose proof (names_fine p h order O C) as N. destruct C as ((C1 & C2 & _) & C4).
  destruct (classes_means p h order R W O C1 C2 C4 order [] (fun _ => TStr) []) as (T & env & A & B & D); [reflexivity|constructor|intros k m []|].
  exists T, env. split; [|split; [|exact B]].
  - intros k m E. apply D; [|exact E]. apply O. apply nth_error_Some. congruence.
  - unfold program_ty. now rewrite N.
Qed.

(** ** The hypotheses of the runtime theorems *)
Lemma along_order msgs order (P : nat -> Prop) : well_ordered msgs order ->
  (forall k m, nth_error msgs k = Some m -> (forall f j, In f (m_fields m) -> f_ref f = Some j -> P j) -> P k) ->
  forall k, (k < length msgs)%nat -> P k.
Proof.
  intros (O1 & O2 & O3) H. assert (G : forall v u, order = u ++ v -> (forall k, In k u -> P k) -> forall k, In k order -> P k).
  { induction v as [|i v IH]; intros u E U k K; [rewrite app_nil_r in E; subst; auto|].
    apply (IH (u ++ [i])); [now rewrite <- app_assoc| |exact K]. intros j J. apply in_app_iff in J as [J|[<-|[]]]; [auto|].
    assert (L : (i < length msgs)%nat) by (apply O1; rewrite E; apply in_app_iff; right; now left).
    destruct (nth_error msgs i) as [m|] eqn:F; [|apply nth_error_None in F; lia]. apply (H i m F). intros f j Q1 Q2. apply U. apply (O3 u i v E). exists m, f. auto. }
  intros k K. apply (G order []); [reflexivity|intros ? []|now apply O1].
Qed.

Lemma field_ty_prop (P : ty -> Prop) h T f : P TB64 -> P TStr -> (forall q, P (TField q)) -> (forall q, P (TRep (TPrim q))) -> P (TRep TStr) -> (forall t, P t -> P (TRep t)) ->
  (forall j, f_ref f = Some j -> P (T j)) -> P (field_ty h T f).
Proof.
  intros A B C D E F G. unfold field_ty. destruct (f_type f); try (destruct (f_repeated f); auto; fail); try (destruct (h_base64 h); auto; fail).
  destruct (f_ref f) as [j|]; destruct (f_repeated f); auto.
Qed.

Lemma solves_lookup p h T order : well_ordered (pr_messages p) order -> solves p h T -> forall k, (k < length (pr_messages p))%nat -> lookup_ok (T k).
Proof.
  intros O S. apply (along_order _ order (fun k => lookup_ok (T k)) O). intros k m E H. destruct (S k m E) as (g & -> & _ & G). cbn [lookup_ok]. split; [exact G|].
  induction (m_fields m) as [|f l IH]; cbn [map]; [exact I|]. split; [|apply IH; intros f' j Q; apply H; now right].
  apply (field_ty_prop lookup_ok); try (intros; exact I); [intros t X; exact X|]. intros j Q. exact (H f j (or_introl eq_refl) Q).
Qed.

Lemma wire_at_fst p l : forall k, (forall j, In j (map fst (wire_at p k l)) -> (k <= j < k + length l)%nat) /\ NoDup (map fst (wire_at p k l)).
Proof.
  induction l as [|f l IH]; intros k; cbn [wire_at length]; [split; [intros j []|constructor]|]. destruct (IH (S k)) as (A & B).
  destruct (transient f); cbn [map fst].
  - split; [intros j J; specialize (A j J); lia|exact B].
  - split; [intros j [<-|J]; [lia|specialize (A j J); lia]|]. constructor; [intros J; specialize (A k J); lia|exact B].
Qed.

Lemma wire_at_snd p l : forall k, map snd (wire_at p k l) = map (wire p) (filter (fun f => negb (transient f)) l).
Proof.
  induction l as [|f l IH]; intros k; cbn [wire_at filter]; [reflexivity|]. destruct (transient f); cbn [negb map snd]; rewrite IH; reflexivity.
Qed.

Lemma solves_tables strict p h T order : refs_ok (pr_messages p) -> well_ordered (pr_messages p) order -> solves p h T -> wire_fine strict p ->
  forall k, (k < length (pr_messages p))%nat -> tables_ok strict (T k).
Proof.
  intros R O S W. apply (along_order _ order (fun k => tables_ok strict (T k)) O). intros k m E H. destruct (S k m E) as (g & -> & G & _).
  destruct (W m (nth_error_In _ _ E)) as (W1 & W2). cbn [tables_ok]. rewrite G. destruct (wire_at_fst p (m_fields m) 0) as (A & B).
  pose proof (wire_at_snd p (m_fields m) 0) as C. fold (written m) in C.
  split.
  - refine (conj B (conj _ (conj _ _))).
    + rewrite C. exact W1.
    + intros j label I. split; [|rewrite map_length; apply (in_map fst) in I; specialize (A j I); lia].
      apply (in_map snd) in I. rewrite C in I. apply in_map_iff in I as (f & F & I). cbn [snd] in F. rewrite <- F. now apply W2.
    + intros q I. apply in_map_iff in I as (f & F & I). revert F. apply (field_ty_prop (fun t => t <> TPrim q)); try discriminate. intros j Q.
      destruct (R m f (nth_error_In _ _ E) I) as (L & _). specialize (L j Q). destruct (nth_error (pr_messages p) j) as [m'|] eqn:M; [|apply nth_error_None in M; lia].
      destruct (S j m' M) as (g' & -> & _). discriminate.
  - clear - H. induction (m_fields m) as [|f l IH]; cbn [map]; [exact I|]. split; [|apply IH; intros f' j Q; apply H; now right].
    apply (field_ty_prop (tables_ok strict)); try (intros; exact I); [intros t X; exact X|]. intros j Q. exact (H f j (or_introl eq_refl) Q).
Qed.

(** ** Names (C33, C34) *)
Lemma before_all M l : ~ In (chr M) l -> 0 <= M < 256 -> before M l = l.
Proof.
  induction l as [|c l IH]; intros H R; [reflexivity|]. cbn [before]. destruct (Z.eqb_spec (code c) M) as [<-|N].
  - exfalso. apply H. left. symmetry. apply chr_code.
  - rewrite IH; [reflexivity| |exact R]. intros X. apply H. now right.
Qed.

Lemma before_some M l : In (chr M) l -> 0 <= M < 256 -> (length (before M l) < length l)%nat.
Proof.
  induction l as [|c l IH]; intros H R; [destruct H|]. cbn [before]. destruct (Z.eqb_spec (code c) M) as [<-|N]; [cbn; lia|].
  destruct H as [-> |H]; [exfalso; apply N; now rewrite code_chr_small|]. cbn [length]. specialize (IH H R). lia.
Qed.

Lemma effective_same l : effective true l = l <-> ~ In (chr (name_mask (length l))) l.
Proof.
  pose proof (name_mask_range (length l)) as R. split.
  - intros E I. apply (f_equal (@length ascii)) in E. unfold effective in E. cbv zeta in E. rewrite map_length in E. pose proof (before_some _ l I R). lia.
  - intros H. unfold effective. cbv zeta. rewrite before_all by assumption. transitivity (map (fun c : ascii => c) l); [|apply map_id]. apply map_ext. intros c.
    rewrite Z.lxor_assoc, Z.lxor_nilpotent, Z.lxor_0_r. apply chr_code.
Qed.
