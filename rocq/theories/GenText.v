(** The generator: what it prints and declares. *)
From Coq Require Import Lia.
From Verif Require Import Bytes BaseProofs Num Types Read ProtoLex ProtoParse Printer Codes Cpp Gen SpecPrint PrinterProofs SpecGen SpecCpp SpecFile SortProofs.

Lemma gbind_eq {A B} (m : G A) (k : A -> G B) t a t2 r : m = (t, GOk a) -> k a = (t2, r) -> gbind m k = (t ++ t2, r).
Proof. intros -> E. unfold gbind. cbn [fst snd]. rewrite E. reflexivity. Qed.

Lemma gret_eq {A} (a : A) : gret a = ([], GOk a).
Proof. reflexivity. Qed.

Lemma gput_eq fmt vars t : print fmt vars = Some t -> gput fmt vars = (t, GOk tt).
Proof. intros E. unfold gput. now rewrite E. Qed.

Lemma geach_eq {A B} (f : A -> G B) (t : A -> bytes) (y : A -> B) l : (forall x, In x l -> f x = (t x, GOk (y x))) ->
  geach f l = (concat (map t l), GOk (map y l)).
Proof.
  induction l as [|x l IH]; intros H; [reflexivity|]. cbn [geach map concat].
  erewrite gbind_eq; [|apply H; now left|]. 2:{ erewrite gbind_eq; [|apply IH; intros z Z; apply H; now right|apply gret_eq]. reflexivity. }
  now rewrite app_nil_r.
Qed.

(** ** Text of the templates *)
Ltac flat := unfold ln, call, quoted, lib; repeat rewrite <- app_assoc.
Ltac tpl := intros; apply gput_eq; flat; vm_compute; reflexivity.

Lemma g_read_empty t : gput CODE_JSON__READ_FIELD__EMPTY [t] = (read_text t [], GOk tt).
Proof. unfold read_text. tpl. Qed.
Lemma g_read_header t : gput CODE_JSON__READ_FIELD__HEADER [t] =
  (ln (b "    static int read_field( json_context &ctx, const std::string &name, " ++ t ++ b " &value )") ++ ln (b "    {") ++
   ln (b "        int idx = index(name);") ++ ln (b "        if (idx < 0) return PGR_NIL;") ++ ln (b "        switch (idx) {"), GOk tt).
Proof. tpl. Qed.
Definition read_item (i : Z) (n : bytes) : bytes :=
  ln (b "            case " ++ dec i ++ b ": return " ++ call (b "value") (b "read") n (b "ctx, value." ++ n) ++ b ";").
Lemma g_read_item i n : gput CODE_JSON__READ_FIELD__ITEM [dec i; n] = (read_item i n, GOk tt).
Proof. unfold read_item. generalize (dec i) as d. tpl. Qed.
Lemma g_read_footer : gput CODE_JSON__READ_FIELD__FOOTER [] =
  (ln (b "            default: return PGR_NIL;") ++ ln (b "        }") ++ ln (b "    }"), GOk tt).
Proof. tpl. Qed.

Lemma g_write_empty t : gput CODE_JSON__WRITE__EMPTY [t] = (write_text t [], GOk tt).
Proof. unfold write_text. tpl. Qed.
Lemma g_write_header t x : gput CODE_JSON__WRITE__HEADER [t; x] =
  (ln (b "    static int write( json_context &ctx, const " ++ t ++ b " &value )") ++ ln (b "    {") ++
   ln (b "        bool f = true;") ++ ln (b "        (*ctx.os) << '{';"), GOk tt).
Proof. tpl. Qed.
Definition write_item (n : bytes) (l : bytes) : bytes :=
  ln (b "        if (ctx.params.serialize_null || !" ++ call (b "value") (b "empty") n (b "value." ++ n) ++
      b ") { (*ctx.os) << (f?""\"""":"",\"""") << " ++ l ++ b " << ""\"":""; " ++
      call (b "value") (b "write") n (b "ctx, value." ++ n) ++ b "; f=false; }").
Lemma g_write_item n l : gput CODE_JSON__WRITE__ITEM [n; l] = (write_item n l, GOk tt).
Proof. unfold write_item. tpl. Qed.
Lemma g_write_footer : gput CODE_JSON__WRITE__FOOTER [] =
  (ln (b "        (*ctx.os) << '}';") ++ ln (b "        return PGR_OK;") ++ ln (b "    }"), GOk tt).
Proof. tpl. Qed.

Lemma g_index_empty obf : gput CODE_JSON__INDEX__EMPTY [] = (index_text obf [], GOk tt).
Proof. unfold index_text. tpl. Qed.
Lemma g_index_header (obf : bool) : gput (if obf then CODE_JSON__INDEX__HEADER_OBF else CODE_JSON__INDEX__HEADER) [] =
  (ln (b "    static int index( const std::string &name )") ++ ln (b "    {") ++
   ln (if obf then b "        std::string temp = reveal(name);" else b "        const std::string &temp = name;") ++
   ln (b "        static const std::unordered_map<std::string, int> FIELDS = {"), GOk tt).
Proof. destruct obf; tpl. Qed.
Definition index_item (l : bytes) (i : Z) : bytes := ln (b "            {" ++ quoted l ++ b ", " ++ dec i ++ b "},").
Lemma g_index_item l i : gput CODE_JSON__INDEX__ITEM [l; dec i] = (index_item l i, GOk tt).
Proof. unfold index_item. generalize (dec i) as d. tpl. Qed.
Lemma g_index_footer : gput CODE_JSON__INDEX__FOOTER [] =
  (ln (b "        };") ++ ln (b "        auto it = FIELDS.find(temp);") ++
   ln (b "        return (it == FIELDS.end()) ? -1 : it->second;") ++ ln (b "    }"), GOk tt).
Proof. tpl. Qed.

Lemma g_struct n : gput (TAB :: b "struct $1$_type" ++ LF :: TAB :: b "{" ++ [LF]) [n] =
  (ln (b "    struct " ++ n ++ b "_type") ++ ln (b "    {"), GOk tt).
Proof. tpl. Qed.
Lemma g_member t n : gput (TAB :: TAB :: b "$1$ $2$;" ++ [LF]) [t; n] = (ln (b "        " ++ t ++ b " " ++ n ++ b ";"), GOk tt).
Proof. tpl. Qed.
Lemma g_struct_end : gput (TAB :: b "};" ++ [LF]) [] = (ln (b "    };"), GOk tt).
Proof. tpl. Qed.
Lemma g_model_header v t : gput CODE_JSON_MODEL__HEADER [v; t] =
  (ln (b "namespace protogen" ++ v ++ b " {") ++ ln (b "template<> struct json<" ++ t ++ b ">") ++ ln (b "{") ++
   ln (b "    static int read( json_context &ctx, " ++ t ++ b " &value ) { return read_object(ctx, value); }"), GOk tt).
Proof. tpl. Qed.
Lemma g_model_footer v : gput CODE_JSON_MODEL__FOOTER [v] = (ln (b "};") ++ ln (b "} // protogen" ++ v), GOk tt).
Proof. tpl. Qed.
Lemma g_entity n t v : gput CODE_ENTITY [n; t; v] =
  (ln (b "PG" ++ v ++ b "_ENTITY(" ++ n ++ b "," ++ t ++ b "," ++ lib v ++ b "json<" ++ t ++ b ">)"), GOk tt).
Proof. tpl. Qed.
Lemma g_entity_json n t v : gput CODE_ENTITY_JSON [n; t; v] =
  (ln (b "PG" ++ v ++ b "_ENTITY_SERIALIZER(" ++ n ++ b "," ++ t ++ b "," ++ lib v ++ b "json<" ++ t ++ b ">)"), GOk tt).
Proof. tpl. Qed.
Lemma g_title n : gput (LF :: b "//" ++ LF :: b "// $1$" ++ LF :: b "//" ++ [LF]) [n] =
  ([LF] ++ ln (b "//") ++ ln (b "// " ++ n) ++ ln (b "//"), GOk tt).
Proof. tpl. Qed.

(** The four loops over all fields. *)
Section All.
  Variables (e h i f : bytes) (text : bytes -> list bytes -> bytes) (head item foot : bytes -> bytes).
  Hypothesis E : forall t, gput e [t] = (text t [], GOk tt).
  Hypothesis H : forall t, gput h [t] = (head t, GOk tt).
  Hypothesis I : forall n, gput i [n] = (item n, GOk tt).
  Hypothesis F : forall t, gput f [] = (foot t, GOk tt).
  Hypothesis T : forall t n l, text t (n :: l) = head t ++ concat (map item (n :: l)) ++ foot t.
  Lemma gen_all_eq m t : gen_all e h i f m t = (text t (map f_name (m_fields m)), GOk (map f_name (m_fields m))).
  Proof.
    unfold gen_all, no_fields. destruct (m_fields m) as [|x l] eqn:L.
    - erewrite gbind_eq; [|apply E|apply gret_eq]. now rewrite app_nil_r.
    - erewrite gbind_eq; [|apply H|]. 2:{ erewrite gbind_eq; [|apply (geach_eq _ (fun x => item (f_name x)) f_name)|].
        - reflexivity.
        - intros y _. erewrite gbind_eq; [|apply I|apply gret_eq]. now rewrite app_nil_r.
        - erewrite gbind_eq; [|apply (F t)|apply gret_eq]. reflexivity. }
      cbn [map]. rewrite T. rewrite app_nil_r. cbn [map concat]. rewrite map_map. reflexivity.
  Qed.
End All.

Lemma gen_empty_eq m t : gen_empty m t = (empty_text t (map f_name (m_fields m)), GOk (map f_name (m_fields m))).
Proof.
  apply (gen_all_eq _ _ _ _ _ (fun t => ln (b "    static bool empty( const " ++ t ++ b " &value )") ++ ln (b "    {") ++ ln (b "        return"))
    (fun m => ln (b "            " ++ call (b "value") (b "empty") m (b "value." ++ m) ++ b " &&")) (fun _ => ln (b "            true;") ++ ln (b "    }"))).
  all: try (unfold empty_text; tpl). intros. unfold empty_text. now rewrite <- !app_assoc.
Qed.
Lemma gen_clear_eq m t : gen_clear m t = (clear_text t (map f_name (m_fields m)), GOk (map f_name (m_fields m))).
Proof.
  apply (gen_all_eq _ _ _ _ _ (fun t => ln (b "    static void clear( " ++ t ++ b " &value )") ++ ln (b "    {"))
    (fun m => ln (b "        " ++ call (b "value") (b "clear") m (b "value." ++ m) ++ b ";")) (fun _ => ln (b "    }"))).
  all: try (unfold clear_text; tpl). intros. unfold clear_text. now rewrite <- !app_assoc.
Qed.
Lemma gen_equal_eq m t : gen_equal m t = (equal_text t (map f_name (m_fields m)), GOk (map f_name (m_fields m))).
Proof.
  apply (gen_all_eq _ _ _ _ _ (fun t => ln (b "    static bool equal( const " ++ t ++ b " &a, const " ++ t ++ b " &b )") ++ ln (b "    {") ++ ln (b "        return"))
    (fun m => ln (b "            " ++ call (b "a") (b "equal") m (b "a." ++ m ++ b ", b." ++ m) ++ b " &&")) (fun _ => ln (b "            true;") ++ ln (b "    }"))).
  all: try (unfold equal_text; tpl). intros. unfold equal_text. now rewrite <- !app_assoc.
Qed.
Lemma gen_swap_eq m t : gen_swap m t = (swap_text t (map f_name (m_fields m)), GOk (map f_name (m_fields m))).
Proof.
  apply (gen_all_eq _ _ _ _ _ (fun t => ln (b "    static void swap( " ++ t ++ b " &a, " ++ t ++ b " &b )") ++ ln (b "    {"))
    (fun m => ln (b "        " ++ call (b "a") (b "swap") m (b "a." ++ m ++ b ", b." ++ m) ++ b ";")) (fun _ => ln (b "    }"))).
  all: try (unfold swap_text; tpl). intros. unfold swap_text. now rewrite <- !app_assoc.
Qed.

(** ** Options *)
Lemma opt_bool_eq o n : is_bool o n -> opt_bool o n false = ([], GOk (flag o n)).
Proof. unfold is_bool, opt_bool, flag. destruct (o_find n o) as [e|]; [intros ->|]; reflexivity. Qed.

Lemma is_transient_eq f : is_bool (f_options f) (b "transient") -> is_transient f = ([], GOk (transient f)).
Proof. apply opt_bool_eq. Qed.

Lemma quotes n : ~ In "'"%char n -> ~ In """"%char n -> existsb is_quote n = false.
Proof.
  intros A B. destruct (existsb is_quote n) eqn:E; [|reflexivity]. apply existsb_exists in E as (c & I & Q). unfold is_quote in Q.
  apply orb_true_iff in Q as [Q|Q]; apply Ascii.eqb_eq in Q; subst; contradiction.
Qed.

Lemma json_name_eq f : name_fine f -> json_name f = ([], GOk (given_name f)).
Proof.
  intros (T & A & B). unfold json_name, opt_string, given_name in *. destruct (o_find (b "name") (f_options f)) as [e|].
  - rewrite T. unfold gbind, gret. cbn [fst snd app]. rewrite quotes by assumption. reflexivity.
  - unfold gbind, gret. cbn [fst snd app]. rewrite quotes by assumption. reflexivity.
Qed.

Lemma field_label_eq numbers f : name_fine f -> field_label numbers f = ([], GOk (json_label numbers f)).
Proof. intros H. unfold field_label. rewrite json_name_eq by exact H. reflexivity. Qed.

(** ** Loops over persistent fields *)
Lemma gpersist_eq {B} (g : Z -> field -> G B) (t : Z -> field -> bytes) (y : Z -> field -> B) l : Forall field_fine l ->
  (forall i f, name_fine f -> g i f = (t i f, GOk (y i f))) -> forall i,
  gpersist g i l = (concat (map (fun x => t (fst x) (snd x)) (numbered i (filter (fun f => negb (transient f)) l))),
                    GOk (map (fun x => y (fst x) (snd x)) (numbered i (filter (fun f => negb (transient f)) l)))).
Proof.
  intros F H. induction F as [|f l [B1 B2] _ IH]; intros i; [reflexivity|]. cbn [gpersist filter]. rewrite is_transient_eq by exact B1.
  unfold gbind at 1. cbn [fst snd app]. destruct (transient f) eqn:T; cbn [negb].
  - rewrite IH. reflexivity.
  - cbn [numbered map concat fst snd]. erewrite gbind_eq; [|apply H; auto|]. 2:{ erewrite gbind_eq; [|apply IH|apply gret_eq]. reflexivity. }
    now rewrite app_nil_r.
Qed.

Lemma any_persistent_eq l : Forall field_fine l -> any_persistent l = ([], GOk (match filter (fun f => negb (transient f)) l with [] => false | _ => true end)).
Proof.
  induction 1 as [|f l [B1 B2] _ IH]; [reflexivity|]. cbn [any_persistent filter]. rewrite is_transient_eq by exact B1. unfold gbind. cbn [fst snd app].
  destruct (transient f); cbn [negb]; [now rewrite IH|reflexivity].
Qed.

(** The condition of the loops. *)
Lemma skip_eq m : no_fields m || negb (match written m with [] => false | _ => true end) = match written m with [] => true | _ => false end.
Proof. unfold no_fields, written. destruct (m_fields m) as [|f l]; [reflexivity|]. cbn [orb]. now destruct (filter _ (f :: l)). Qed.

(** ** Names of types *)
Lemma components_text p : forall acc, concat (map (fun c => c ++ b "::") (components acc p)) = rev acc ++ package_go p ++ b "::".
Proof.
  induction p as [|c p IH]; intros acc; cbn [components package_go].
  - cbn [map concat]. now rewrite app_nil_r.
  - destruct (Ascii.eqb c ".").
    + cbn [map concat]. rewrite IH. cbn [rev app]. rewrite <- !app_assoc. reflexivity.
    + rewrite IH. cbn [rev app]. now rewrite <- !app_assoc.
Qed.

Lemma native_qualified pkg name : native_package pkg ++ b "::" ++ name = qualified pkg name.
Proof.
  unfold native_package, qualified, parts. destruct pkg as [|c p]; [reflexivity|].
  rewrite components_text. cbn [rev app]. now rewrite <- !app_assoc.
Qed.

Lemma native_type_eq cfg msgs lists f : ref_fine msgs f ->
  field_native_type cfg msgs lists f = ([], GOk (type_text (b_naming cfg) (member_type msgs lists f), member_type msgs lists f)).
Proof.
  intros R. unfold field_native_type, value_type, member_type, value_elem, is_bytes, is_seq, scalar, native_scalar, lib.
  destruct (f_type f) eqn:T; try (destruct (f_repeated f), lists; cbn; unfold lib; rewrite <- ?app_assoc; reflexivity).
  destruct (R T) as (k & m & RK & M). unfold referred. rewrite RK, M. unfold gbind, gret. cbn [fst snd app]. rewrite native_qualified.
  destruct (f_repeated f), lists; reflexivity.
Qed.

(** ** Namespaces *)
Lemma namespace_eq (o : bool) p : forall acc, namespace_go o acc (p ++ b ".") =
  (concat (map (fun c => ln ((if o then b "namespace " else b "} // namespace ") ++ c ++ (if o then b " {" else []))) (components acc p)), GOk tt).
Proof.
  assert (P : forall n, gput (if o then b "namespace $1$ {" ++ [LF] else b "} // namespace $1$" ++ [LF]) [n] =
    (ln ((if o then b "namespace " else b "} // namespace ") ++ n ++ (if o then b " {" else [])), GOk tt)).
  { destruct o; tpl. }
  induction p as [|c p IH]; intros acc.
  - cbn [app components]. change (b ".") with ["."%char]. cbn [namespace_go]. change (Ascii.eqb "." ".") with true. cbv iota.
    erewrite gbind_eq; [|apply P|apply gret_eq]. reflexivity.
  - cbn [app namespace_go components]. destruct (Ascii.eqb c ".").
    + erewrite gbind_eq; [|apply P|apply IH]. reflexivity.
    + apply IH.
Qed.

Lemma gen_namespace_open m : gen_namespace m true = (opening (m_package m), GOk tt).
Proof. unfold gen_namespace, opening, parts. destruct (m_package m) as [|c p]; [reflexivity|]. apply namespace_eq. Qed.
Lemma gen_namespace_close m : gen_namespace m false = (closing (m_package m), GOk tt).
Proof.
  unfold gen_namespace, closing, parts. destruct (m_package m) as [|c p]; [reflexivity|]. rewrite namespace_eq.
  erewrite map_ext; [reflexivity|]. intros x. cbn [app]. now rewrite app_nil_r.
Qed.

(** ** Obfuscated names *)
Lemma mask_eq n : rol8 147 (Z.of_nat n mod 8) = name_mask n.
Proof.
  unfold name_mask. rewrite <- (Nat2Z.id n) at 2. rewrite <- (Nat2Z.id 8) at 1. change (Z.of_nat 8) with 8.
  rewrite <- Z2Nat.inj_mod by lia. pose proof (Z.mod_pos_bound (Z.of_nat n) 8 ltac:(lia)) as B.
  set (k := Z.of_nat n mod 8) in *. clearbody k.
  assert (C : k = 0 \/ k = 1 \/ k = 2 \/ k = 3 \/ k = 4 \/ k = 5 \/ k = 6 \/ k = 7) by lia.
  destruct C as [-> |[-> |[-> |[-> |[-> |[-> |[-> | ->]]]]]]]; reflexivity.
Qed.

Lemma hex_byte_eq z : 0 <= z < 256 -> hex_byte z = hexnum z.
Proof.
  intros H. assert (A : forallb (fun n => bytes_eqb (hex_byte (Z.of_nat n)) (hexnum (Z.of_nat n))) (seq 0 256) = true) by (vm_compute; reflexivity).
  rewrite forallb_forall in A. specialize (A (Z.to_nat z)). rewrite in_seq in A. specialize (A ltac:(lia)). rewrite Z2Nat.id in A by lia. now apply bytes_eqb_true in A.
Qed.

Lemma lxor_byte x y : 0 <= x < 256 -> 0 <= y < 256 -> 0 <= Z.lxor x y < 256.
Proof.
  intros X Y. assert (N : 0 <= Z.lxor x y) by (apply Z.lxor_nonneg; lia). split; [exact N|].
  destruct (Z.eq_dec (Z.lxor x y) 0) as [-> |NZ]; [lia|]. change 256 with (2 ^ 8). apply Z.log2_lt_pow2; [lia|].
  pose proof (Z.log2_lxor x y ltac:(lia) ltac:(lia)) as L.
  assert (LX : Z.log2 x <= 7) by (change 7 with (Z.log2 255); apply Z.log2_le_mono; lia).
  assert (LY : Z.log2 y <= 7) by (change 7 with (Z.log2 255); apply Z.log2_le_mono; lia). lia.
Qed.

Lemma name_mask_range n : 0 <= name_mask n < 256.
Proof.
  unfold name_mask. pose proof (Nat.mod_upper_bound n 8 ltac:(lia)) as B. set (k := (n mod 8)%nat) in *. clearbody k.
  do 8 (destruct k as [|k]; [cbn; lia|]). lia.
Qed.

Lemma obfuscate_eq l : obfuscate l = masked l.
Proof.
  unfold obfuscate, masked. rewrite mask_eq. f_equal. apply map_ext. intros c. rewrite hex_byte_eq; [reflexivity|].
  apply lxor_byte; [apply code_range|apply name_mask_range].
Qed.

Lemma label_text_eq (obf : bool) l : Gen.label_text obf l = ([], GOk (SpecCpp.label_text (Label obf (literal_of obf l)))).
Proof.
  unfold Gen.label_text, literal_of. destruct obf.
  - rewrite obfuscate_eq. generalize (masked l) as x. intros x.
    assert (P : print (b "reveal(""$1$"")") [x] = Some (SpecCpp.label_text (Label true x))) by (unfold SpecCpp.label_text; flat; vm_compute; reflexivity).
    rewrite P. reflexivity.
  - assert (P : print (b """$1$""") [l] = Some (SpecCpp.label_text (Label false l))) by (unfold SpecCpp.label_text; flat; vm_compute; reflexivity).
    rewrite P. reflexivity.
Qed.

(** ** The functions of the class *)
Lemma numbered_snd {A} (l : list A) : forall i, map snd (numbered i l) = l.
Proof. induction l as [|x l IH]; intros i; [reflexivity|]. cbn [numbered map snd]. now rewrite IH. Qed.

Lemma numbered_map {A B} (g : A -> B) (l : list A) i : map (fun x => g (snd x)) (numbered i l) = map g l.
Proof. rewrite <- (map_map snd g), numbered_snd. reflexivity. Qed.

Section Message.
  Variable cfg : build.
  Variable msgs : list message.
  Variables obf lists numbers : bool.
  Let v := b_naming cfg.

  Lemma gen_read_eq m t : Forall field_fine (m_fields m) ->
    gen_read_field m t (match written m with [] => false | _ => true end) =
    (read_text t (map (fun x => (fst x, f_name (snd x))) (numbered 0 (written m))), GOk (map (fun x => (fst x, f_name (snd x))) (numbered 0 (written m)))).
  Proof.
    intros F. unfold gen_read_field. rewrite skip_eq. destruct (written m) as [|f0 r0] eqn:W.
    - erewrite gbind_eq; [|apply g_read_empty|apply gret_eq]. now rewrite app_nil_r.
    - rewrite <- W. erewrite gbind_eq; [|apply g_read_header|]. 2:{ erewrite gbind_eq; [|eapply (gpersist_eq _ (fun i f => read_item i (f_name f)) (fun i f => (i, f_name f))); [exact F|]|].
        - reflexivity.
        - intros i f _. erewrite gbind_eq; [|apply g_read_item|apply gret_eq]. now rewrite app_nil_r.
        - erewrite gbind_eq; [|apply g_read_footer|apply gret_eq]. reflexivity. }
      fold (written m). f_equal. rewrite W. cbn [numbered map]. unfold read_text. cbn [map concat fst snd].
      rewrite map_map. cbn [fst snd]. rewrite <- !app_assoc, app_nil_r. reflexivity.
  Qed.

  Lemma gen_write_eq m t : Forall field_fine (m_fields m) ->
    gen_write cfg obf numbers m t (match written m with [] => false | _ => true end) =
    (write_text t (map (fun f => (f_name f, Label obf (literal_of obf (json_label numbers f)))) (written m)),
     GOk (map (fun f => (f_name f, Label obf (literal_of obf (json_label numbers f)))) (written m))).
  Proof.
    intros F. unfold gen_write. rewrite skip_eq. destruct (written m) as [|f0 r0] eqn:W.
    - erewrite gbind_eq; [|apply g_write_empty|apply gret_eq]. now rewrite app_nil_r.
    - rewrite <- W. erewrite gbind_eq; [|apply g_write_header|]. 2:{ erewrite gbind_eq; [|eapply (gpersist_eq _ (fun i f => write_item (f_name f) (SpecCpp.label_text (Label obf (literal_of obf (json_label numbers f)))))
          (fun i f => (f_name f, Label obf (literal_of obf (json_label numbers f))))); [exact F|]|].
        - reflexivity.
        - intros i f NF. erewrite gbind_eq; [|now apply field_label_eq|]. 2:{ erewrite gbind_eq; [|apply label_text_eq|]. 2:{ erewrite gbind_eq; [|apply g_write_item|apply gret_eq]. reflexivity. } reflexivity. }
          cbn [app]. rewrite app_nil_r. unfold literal_of. now rewrite obfuscate_eq.
        - erewrite gbind_eq; [|apply g_write_footer|apply gret_eq]. reflexivity. }
      fold (written m). rewrite (numbered_map (fun f => write_item (f_name f) (SpecCpp.label_text (Label obf (literal_of obf (json_label numbers f)))))).
      rewrite (numbered_map (fun f => (f_name f, Label obf (literal_of obf (json_label numbers f))))).
      rewrite W. cbn [numbered map]. unfold write_text. cbn [map concat fst snd].
      rewrite map_map. cbn [fst snd]. rewrite <- !app_assoc, app_nil_r. reflexivity.
  Qed.

  Lemma gen_index_eq m : Forall field_fine (m_fields m) ->
    gen_index_fn obf numbers m (match written m with [] => false | _ => true end) =
    (index_text (match written m with [] => false | _ => obf end) (map (fun x => (literal_of obf (json_label numbers (snd x)), fst x)) (numbered 0 (written m))),
     GOk (map (fun x => (literal_of obf (json_label numbers (snd x)), fst x)) (numbered 0 (written m)))).
  Proof.
    intros F. unfold gen_index_fn. rewrite skip_eq. destruct (written m) as [|f0 r0] eqn:W.
    - erewrite gbind_eq; [|apply (g_index_empty false)|apply gret_eq]. now rewrite app_nil_r.
    - rewrite <- W. erewrite gbind_eq; [|apply g_index_header|]. 2:{ erewrite gbind_eq; [|eapply (gpersist_eq _ (fun i f => index_item (literal_of obf (json_label numbers f)) i)
          (fun i f => (literal_of obf (json_label numbers f), i))); [exact F|]|].
        - reflexivity.
        - intros i f NF. erewrite gbind_eq; [|now apply field_label_eq|]. 2:{ cbv zeta. rewrite obfuscate_eq. fold (literal_of obf (json_label numbers f)). erewrite gbind_eq; [|apply g_index_item|apply gret_eq]. reflexivity. }
          cbn [app]. now rewrite app_nil_r.
        - erewrite gbind_eq; [|apply g_index_footer|apply gret_eq]. reflexivity. }
      fold (written m). f_equal. rewrite W. cbn [numbered map]. unfold index_text. cbn [map concat fst snd].
      rewrite map_map. cbn [fst snd]. rewrite <- !app_assoc, app_nil_r. reflexivity.
  Qed.

  Lemma gen_model_eq m : Forall (ref_fine msgs) (m_fields m) ->
    gen_model cfg msgs lists m = (struct_text v (class_of msgs obf lists numbers m), GOk (map (fun f => (member_type msgs lists f, f_name f)) (m_fields m))).
  Proof.
    intros R. unfold gen_model. erewrite gbind_eq; [|apply gen_namespace_open|].
    2:{ erewrite gbind_eq; [|apply g_struct|].
      2:{ erewrite gbind_eq; [|apply (geach_eq _ (fun f => ln (b "        " ++ type_text v (member_type msgs lists f) ++ b " " ++ f_name f ++ b ";")) (fun f => (member_type msgs lists f, f_name f)))|].
        - reflexivity.
        - intros f I. rewrite Forall_forall in R. erewrite gbind_eq; [|apply native_type_eq; auto|]. 2:{ cbn [fst snd]. erewrite gbind_eq; [|apply g_member|apply gret_eq]. reflexivity. }
          cbn [app]. now rewrite app_nil_r.
        - erewrite gbind_eq; [|apply g_struct_end|]. 2:{ erewrite gbind_eq; [|apply gen_namespace_close|apply gret_eq]. reflexivity. } reflexivity. }
      reflexivity. }
    unfold struct_text, class_of. cbn [c_pkg c_name c_members]. rewrite map_map. cbn [fst snd]. repeat rewrite <- app_assoc. rewrite app_nil_r. reflexivity.
  Qed.

  Lemma gen_wrapper_eq m : Forall field_fine (m_fields m) ->
    gen_wrapper cfg obf numbers m (map (fun f => (member_type msgs lists f, f_name f)) (m_fields m)) =
    (json_text v (class_of msgs obf lists numbers m), GOk (class_of msgs obf lists numbers m)).
  Proof.
    intros F. unfold gen_wrapper. replace (native_package (m_package m) ++ b "::" ++ m_name m ++ b "_type") with (qualified (m_package m) (m_name m) ++ b "_type")
      by (rewrite <- native_qualified, <- !app_assoc; reflexivity).
    set (t := qualified (m_package m) (m_name m) ++ b "_type"). cbv zeta.
    erewrite gbind_eq; [|now apply any_persistent_eq|]. fold (written m).
    2:{ erewrite gbind_eq; [|apply g_model_header|].
      2:{ erewrite gbind_eq; [|now apply gen_read_eq|]. 2:{ erewrite gbind_eq; [|now apply gen_write_eq|]. 2:{ erewrite gbind_eq; [|apply gen_empty_eq|].
        2:{ erewrite gbind_eq; [|apply gen_clear_eq|]. 2:{ erewrite gbind_eq; [|apply gen_equal_eq|]. 2:{ erewrite gbind_eq; [|apply gen_swap_eq|].
        2:{ erewrite gbind_eq; [|now apply gen_index_eq|]. 2:{ erewrite gbind_eq; [|apply g_model_footer|apply gret_eq]. reflexivity. }
          reflexivity. } reflexivity. } reflexivity. } reflexivity. } reflexivity. } reflexivity. } reflexivity. }
      reflexivity. }
    assert (O : obf && negb (no_fields m) && match written m with [] => false | _ => true end = match written m with [] => false | _ => obf end).
    { unfold written, no_fields in *. destruct (m_fields m); [destruct obf; reflexivity|]. destruct (filter _ _), obf; reflexivity. }
    fold (written m). rewrite O. cbn [app]. unfold json_text, class_of. cbn [c_pkg c_name c_cases c_write c_empty c_clear c_equal c_swap c_obf c_index]. fold t.
    repeat rewrite <- app_assoc. rewrite app_nil_r. reflexivity.
  Qed.

  Lemma gen_entity_eq m : gen_entity cfg m = (entity_text v (class_of msgs obf lists numbers m), GOk tt).
  Proof.
    unfold gen_entity. rewrite native_qualified. set (t := qualified (m_package m) (m_name m)). cbv zeta.
    erewrite gbind_eq; [|apply gen_namespace_open|]. 2:{ erewrite gbind_eq; [|apply g_entity|].
      2:{ erewrite gbind_eq; [|apply gen_namespace_close|]. 2:{ apply g_entity_json. } reflexivity. } reflexivity. }
    unfold entity_text, class_of. cbn [c_pkg c_name]. fold t. repeat rewrite <- app_assoc. reflexivity.
  Qed.

  Lemma gen_message_eq m : message_fine m -> Forall (ref_fine msgs) (m_fields m) ->
    gen_message cfg msgs obf lists numbers m = (class_text v (class_of msgs obf lists numbers m), GOk (class_of msgs obf lists numbers m)).
  Proof.
    intros [L F] R. unfold gen_message. rewrite (proj2 (Z.ltb_ge _ _)) by lia.
    erewrite gbind_eq; [|apply g_title|].
    2:{ erewrite gbind_eq; [|now apply gen_model_eq|]. 2:{ erewrite gbind_eq; [|now apply gen_wrapper_eq|]. 2:{ erewrite gbind_eq; [|apply gen_entity_eq|apply gret_eq]. reflexivity. } reflexivity. } reflexivity. }
    unfold class_text. change (c_name (class_of msgs obf lists numbers m)) with (m_name m). repeat rewrite <- app_assoc. rewrite app_nil_r. reflexivity.
  Qed.
End Message.
