(** Facts about the samples of the examples: their tables, and a printer of JSON
    values with a chosen white space, used to exhibit documents. *)
From Verif Require Import Bytes BaseProofs Num Dbl Types Stream Tokenizer Write Read
  SpecJson SpecStr SpecNum SpecInterp SpecDbl SpecWrite LexJson Samples ReadSim WriteProofs.

Lemma plain_index l : forall s name,
  index_lookup (combine l (map Z.of_nat (seq s (length l)))) name =
  match member_named (combine (seq s (length l)) l) name with Some k => Z.of_nat k | None => -1 end.
Proof.
  induction l as [|x l IH]; intros s name; [reflexivity|]. cbn [length seq map combine index_lookup member_named].
  destruct (bytes_eqb x name); [reflexivity|]. apply IH.
Qed.

Lemma member_named_range l : forall s name k,
  member_named (combine (seq s (length l)) l) name = Some k -> (s <= k < s + length l)%nat.
Proof.
  induction l as [|x l IH]; intros s name k; [discriminate|]. cbn [length seq combine member_named].
  destruct (bytes_eqb x name); [intros [= <-]; lia|]. intros H. apply IH in H. lia.
Qed.

Lemma plain_cases n : forall s k, (s <= k < s + n)%nat ->
  case_lookup (map (fun k => (Z.of_nat k, k)) (seq s n)) (Z.of_nat k) = Some k.
Proof.
  induction n as [|n IH]; intros s k H; [lia|]. cbn [seq map case_lookup].
  destruct (Z.eqb_spec (Z.of_nat s) (Z.of_nat k)) as [E|E]; [f_equal; lia|]. apply IH. lia.
Qed.

Lemma plain_select l name : select_member (plain_tables l) name = member_named (g_write (plain_tables l)) name.
Proof.
  unfold select_member, gen_index, plain_tables. cbn [g_index g_obf g_cases g_write].
  rewrite plain_index. destruct (member_named _ name) as [k|] eqn:M; [|reflexivity].
  destruct (Z.ltb_spec (Z.of_nat k) 0); [lia|]. apply plain_cases. apply member_named_range in M. lia.
Qed.

Lemma plain_lookup_ok ms l : Forall lookup_ok ms -> lookup_ok (TMsg ms (plain_tables l)).
Proof. intros H. apply lookup_ok_msg. split; [apply plain_select|exact H]. Qed.

Lemma inner_lookup_ok : lookup_ok inner_ty.
Proof. apply plain_lookup_ok. repeat constructor. Qed.
Lemma outer_lookup_ok : lookup_ok outer_ty.
Proof. apply plain_lookup_ok. repeat constructor; apply inner_lookup_ok. Qed.

(** ** Printing *)
Lemma jval_ind2 (P : jval -> Prop) : P JNull -> (forall x, P (JBool x)) -> (forall s, P (JNum s)) ->
  (forall s, P (JStr s)) -> (forall l, Forall P l -> P (JArr l)) ->
  (forall l, Forall (fun m => P (snd m)) l -> P (JObj l)) -> forall j, P j.
Proof.
  intros H1 H2 H3 H4 H5 H6. fix F 1. intros [|x|s|s|l|l]; [exact H1|apply H2|apply H3|apply H4| |].
  - apply H5. induction l; constructor; [apply F|exact IHl].
  - apply H6. induction l; constructor; [apply F|exact IHl].
Qed.

Section Print.
  Variable w : bytes.
  Definition jp_str (s : bytes) : bytes := [chr 34] ++ s ++ [chr 34].
  Fixpoint jprint (j : jval) : bytes :=
    match j with
    | JNull => b "null"
    | JBool true => b "true"
    | JBool false => b "false"
    | JNum s => s
    | JStr s => jp_str s
    | JArr l =>
        [chr 91] ++
        (fix go (l : list jval) : bytes :=
           match l with
           | [] => w
           | [x] => w ++ jprint x ++ w
           | x :: r => w ++ jprint x ++ w ++ [chr 44] ++ go r
           end) l ++ [chr 93]
    | JObj l =>
        [chr 123] ++
        (fix go (l : list (bytes * jval)) : bytes :=
           match l with
           | [] => w
           | [(k, x)] => w ++ jp_str k ++ w ++ [chr 58] ++ w ++ jprint x ++ w
           | (k, x) :: r => w ++ jp_str k ++ w ++ [chr 58] ++ w ++ jprint x ++ w ++ [chr 44] ++ go r
           end) l ++ [chr 125]
    end.

  Definition plain_char (c : ascii) : bool := negb (code c =? 34) && negb (code c =? 92) && (32 <=? code c).
  Definition num_ok (s : bytes) : bool :=
    match s with c :: r => digit_char c && (negb (Ascii.eqb c "0") || match r with [] => true | _ => false end)
                           && forallb digit_char r | [] => false end.
  Fixpoint jok (j : jval) : bool :=
    match j with
    | JNum s => match s with "-"%char :: r => num_ok r | _ => num_ok s end
    | JStr s => forallb plain_char s
    | JArr l => forallb jok l
    | JObj l => (fix go (l : list (bytes * jval)) : bool :=
                   match l with [] => true | (k, x) :: r => forallb plain_char k && jok x && go r end) l
    | _ => true
    end.

  Lemma jp_str_ok s : forallb plain_char s = true -> jstring true (jp_str s) s.
  Proof.
    intros H. exists s. split; [reflexivity|]. induction s as [|c s IH]; constructor.
    - cbn [forallb] in H. apply andb_prop in H as [H _]. unfold plain_char in H.
      rewrite !andb_true_iff, !negb_true_iff, !Z.eqb_neq, Z.leb_le in H.
      split; [tauto|]. split; [tauto|]. tauto.
    - cbn [forallb] in H. apply andb_prop in H as [_ H]. auto.
  Qed.

  Lemma num_ok_int s : num_ok s = true -> int_part s.
  Proof.
    destruct s as [|c r]; [discriminate|]. cbn [num_ok]. rewrite !andb_true_iff. intros ((A & B) & C).
    destruct (Ascii.eqb_spec c "0").
    - subst. destruct r; [now left|discriminate].
    - right. exists c, r. auto.
  Qed.

  Lemma num_json s : jok (JNum s) = true -> json_number s.
  Proof.
    intros H. assert (X : (exists r, s = b "-" ++ r /\ num_ok r = true) \/ num_ok s = true).
    { cbn [jok] in H. destruct s as [|c r]; [right; exact H|].
      destruct c as [[] [] [] [] [] [] [] []]; try (right; exact H). left. exists r. auto. }
    destruct X as [(r & -> & X)|X].
    - exists (b "-"), r, [], []. rewrite !app_nil_r. split; [reflexivity|]. split; [auto|].
      split; [now apply num_ok_int|]. split; now left.
    - exists [], s, [], []. rewrite !app_nil_r. split; [reflexivity|]. split; [auto|].
      split; [now apply num_ok_int|]. split; now left.
  Qed.

  Hypothesis W : ws w.

  Lemma jprint_ok (j : jval) : jok j = true -> jtext true j (jprint j).
  Proof.
    induction j as [|x|s|s|l IHl|l IHl] using jval_ind2; intros H.
    - constructor.
    - destruct x; constructor.
    - constructor. now apply num_json.
    - constructor. now apply jp_str_ok.
    - destruct l as [|x l]; [exact (jt_arr0 true w W)|]. cbn [jprint]. constructor.
      revert x H IHl. induction l as [|y l IH]; intros x H Q; inversion Q; subst;
        cbn [jok forallb] in H; apply andb_prop in H as [Hx H].
      + apply je_one; auto.
      + apply je_more; auto.
    - destruct l as [|[k x] l]; [exact (jt_obj0 true w W)|]. cbn [jprint]. constructor.
      revert k x H IHl. induction l as [|[k' y] l IH]; intros k x H Q; inversion Q; subst; cbn [jok] in H;
        apply andb_prop in H as [Hx H]; apply andb_prop in Hx as [Hk Hx].
      + apply jm_one; auto. now apply jp_str_ok.
      + apply jm_more; auto. now apply jp_str_ok.
  Qed.
End Print.

Lemma jprint_doc w j : ws w -> jok j = true -> jdoc true j (w ++ jprint w j ++ w).
Proof. intros W K. exists w, w, (jprint w j). repeat split; auto. now apply jprint_ok. Qed.

(** ** Samples and serialization *)
Definition cleanb (l : bytes) : bool :=
  forallb (fun c => (32 <=? code c) && negb (code c =? 34) && negb (code c =? 92)) l.
Lemma cleanb_clean strict l : cleanb l = true -> clean strict l.
Proof.
  unfold cleanb, clean. rewrite forallb_forall, Forall_forall. intros H c I. specialize (H c I).
  rewrite !andb_true_iff, !negb_true_iff, Z.leb_le, !Z.eqb_neq in H. destruct H as ((A & B) & C).
  split; [exact B|]. split; [exact C|]. destruct strict; lia.
Qed.

Lemma map_combine {A B} (l : list A) (m : list B) : length l = length m ->
  map fst (combine l m) = l /\ map snd (combine l m) = m.
Proof.
  revert m; induction l as [|x l IH]; intros [|y m] H; try discriminate; [auto|].
  injection H as H. destruct (IH m H) as [E1 E2]. simpl. now rewrite E1, E2.
Qed.

Lemma plain_tables_ok strict ms l : length l = length ms -> NoDup l -> forallb cleanb l = true ->
  (forall p, ~ In (TPrim p) ms) -> Forall (tables_ok strict) ms -> tables_ok strict (TMsg ms (plain_tables l)).
Proof.
  intros L N C P T. apply tables_ok_msg. split; [|exact T]. cbn [plain_tables g_write].
  destruct (map_combine (seq 0 (length l)) l) as [A B]; [apply seq_length|]. rewrite A, B.
  split; [apply seq_NoDup|]. split; [exact N|]. split; [|exact P]. intros k label I. split.
  - apply cleanb_clean. rewrite forallb_forall in C. apply C. eapply in_combine_r; eauto.
  - apply in_combine_l in I. apply in_seq in I. lia.
Qed.

Ltac nodup := repeat (constructor; [cbn; intuition discriminate|]); constructor.

Lemma inner_tables_ok strict : tables_ok strict inner_ty.
Proof.
  apply plain_tables_ok; try reflexivity; [nodup| |repeat constructor].
  intros p [H|[H|[]]]; discriminate.
Qed.
Lemma outer_tables_ok strict : tables_ok strict outer_ty.
Proof.
  apply plain_tables_ok; try reflexivity; [nodup| |].
  - intros p H. repeat destruct H as [H|H]; try discriminate. destruct H.
  - pose proof (inner_tables_ok strict). repeat (apply Forall_cons; [first [exact H|exact I]|]). apply Forall_nil.
Qed.

Lemma plain_in l k label : In (k, label) (g_write (plain_tables l)) -> nth_error l k = Some label.
Proof.
  unfold plain_tables. cbn [g_write].
  assert (G : forall l s, In (k, label) (combine (seq s (length l)) l) -> (s <= k)%nat /\ nth_error l (k - s) = Some label).
  { clear l. induction l as [|x l IH]; intros s; [intros []|]. cbn [length seq combine].
    intros [[= -> ->]|I]; [split; [lia|]; now rewrite Nat.sub_diag|].
    apply IH in I as [A B]. split; [lia|]. replace (k - s)%nat with (S (k - S s)) by lia. exact B. }
  intros I. apply G in I as [_ I]. now rewrite Nat.sub_0_r in I.
Qed.

Lemma plain_all_written ms l : length l = length ms -> Forall all_written ms ->
  all_written (TMsg ms (plain_tables l)).
Proof.
  intros L F. cbn [all_written]. split.
  - intros k K. cbn [plain_tables g_write]. destruct (map_combine (seq 0 (length l)) l) as [A _]; [apply seq_length|].
    rewrite A. apply in_seq. lia.
  - clear L. induction F; [exact I|]. split; assumption.
Qed.
Lemma inner_all_written : all_written inner_ty.
Proof. apply plain_all_written; [reflexivity|]. repeat constructor. Qed.
Lemma outer_all_written : all_written outer_ty.
Proof.
  apply plain_all_written; [reflexivity|]. pose proof inner_all_written.
  repeat (apply Forall_cons; [first [assumption|exact I]|]). apply Forall_nil.
Qed.

Ltac each_member :=
  let k := fresh "k" in let t := fresh "t" in let x := fresh "x" in let M := fresh "M" in let X := fresh "X" in
  intros k ? t x _ M X;
  repeat (destruct k as [|k]; [injection M as <-; injection X as <-|]); [..|destruct k; discriminate].

Lemma outer_jsonable : jsonable false true outer_ty outer_val.
Proof.
  constructor. each_member.
  - constructor; [reflexivity|exact I].
  - constructor. each_member; [|constructor]. constructor; [reflexivity|exact I].
  - apply js_str; [discriminate|]. repeat (constructor; [left; discriminate|]). constructor.
  - constructor.
  - constructor. intros x [<-|[<-|[]]]; (apply js_str; [discriminate|]);
      repeat (constructor; [left; discriminate|]); constructor.
Qed.

Lemma jsonable_lax ea t v : jsonable ea true t v -> jsonable ea false t v.
Proof.
  intros H. induction H as [| | | |n s W F| |t l _ IH|ms g vs _ IH].
  - now apply js_prim.
  - apply js_unset.
  - now apply js_field.
  - now apply js_null.
  - apply js_str; auto. eapply Forall_impl; [|exact F]. intros c. unfold okc. lia.
  - apply js_b64.
  - now apply js_rep.
  - now apply js_msg.
Qed.

Lemma outer_faithful : faithful false outer_ty outer_val.
Proof.
  constructor; [reflexivity|]. each_member.
  - left. constructor; [reflexivity|]. right; left; reflexivity.
  - left. constructor; [reflexivity|]. each_member.
    + left. constructor; [reflexivity|exact I].
    + right. split; [reflexivity|discriminate].
  - left. constructor.
  - left. constructor.
  - left. constructor. intros x [<-|[<-|[]]]; constructor.
Qed.
