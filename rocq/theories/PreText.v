(** The text of a generated class is lines without directives. *)
From Coq Require Import Lia.
From Verif Require Import Bytes BaseProofs Num Types SpecProto SpecTemplate Template Cpp TemplateProofs SpecPrint SpecCpp SpecFile IntProofs Unit PreProofs.

Definition word (s : bytes) : Prop := Forall (fun c => word_char c = true) s.

Lemma word_mild c : word_char c = true -> mild c /\ c <> "#"%char /\ blank c = false.
Proof.
  intros H. assert (N : forall d, word_char d = false -> c <> d) by (intros d D ->; congruence). unfold mild.
  repeat split; try (apply N; reflexivity). unfold blank. apply orb_false_iff. split; apply Ascii.eqb_neq, N; reflexivity.
Qed.
Lemma seg_word s : word s -> seg s.
Proof. intros W. apply seg_mild. eapply Forall_impl; [|exact W]. intros c C. now apply word_mild. Qed.

(** Characters that only occur in names, numbers and types. *)
Definition namec (c : ascii) : Prop := mild c /\ c <> "#"%char.
Lemma word_namec s : word s -> Forall namec s.
Proof. intros W. eapply Forall_impl; [|exact W]. intros c C. destruct (word_mild c C) as (A & B & _). now split. Qed.
Lemma namec_seg s : Forall namec s -> seg s.
Proof. intros F. apply seg_mild. eapply Forall_impl; [|exact F]. now intros c (A & _). Qed.
Definition namecb (c : ascii) : bool := mildb c && negb (Ascii.eqb c "#").
Lemma namecb_ok s : forallb namecb s = true -> Forall namec s.
Proof.
  intros H. apply Forall_forall. intros c I. rewrite forallb_forall in H. specialize (H c I). apply andb_true_iff in H as [H1 H2]. apply negb_true_iff, Ascii.eqb_neq in H2. split; [|exact H2].
  unfold mildb in H1. apply negb_true_iff in H1. cbn [existsb] in H1. repeat (apply orb_false_iff in H1 as [? H1]).
  repeat match goal with X : Ascii.eqb _ _ = false |- _ => apply Ascii.eqb_neq in X end. repeat split; assumption.
Qed.

Lemma span_tail p (s u v : bytes) : span p s = (u, v) -> s = u ++ v.
Proof.
  revert u v. induction s as [|c s IH]; intros u v H; cbn [span] in H; [now injection H as <- <-|].
  destruct (p c); [|now injection H as <- <-]. destruct (span p s) as (x, y). injection H as <- <-. cbn [app]. now rewrite (IH x y eq_refl).
Qed.
Lemma no_hash l : ~ In "#"%char l -> directive l = None.
Proof.
  intros N. unfold directive, past_blanks. destruct (span blank l) as (u, v) eqn:E. apply span_tail in E. cbn [snd]. destruct v as [|c r]; [reflexivity|].
  destruct (Ascii.eqb_spec c "#") as [-> |]; [|reflexivity]. destruct N. rewrite E. apply in_app_iff. right. now left.
Qed.
Lemma namec_hash s : Forall namec s -> ~ In "#"%char s.
Proof. intros F I. rewrite Forall_forall in F. now destruct (F _ I) as (_ & X). Qed.

Lemma dec_namec z : Forall namec (dec z).
Proof.
  assert (D : forall n, 0 <= n -> Forall namec (dec n)).
  { intros n N. apply word_namec. unfold dec. rewrite (proj2 (Z.ltb_ge n 0)) by lia. destruct (dec_nat_spec n N) as (_ & F & _). rewrite forallb_forall in F. apply Forall_forall. intros c C.
    specialize (F c C). unfold is_digit in F. unfold word_char. lia. }
  destruct (Z.ltb_spec z 0) as [L|L]; [|now apply D]. unfold dec. rewrite (proj2 (Z.ltb_lt z 0) L). constructor; [now apply Forall_inv with (l := []), namecb_ok|].
  specialize (D (- z) ltac:(lia)). unfold dec in D. rewrite (proj2 (Z.ltb_ge (- z) 0)) in D by lia. exact D.
Qed.

(** ** Packages *)
Definition pkg_word (p : bytes) : Prop := Forall (fun c => word_char c = true \/ c = "."%char) p.
Lemma components_word p : forall acc, pkg_word p -> word acc -> Forall word (components acc p).
Proof.
  induction p as [|c p IH]; intros acc P A; cbn [components].
  - constructor; [now apply Forall_rev|constructor].
  - inversion P as [|? ? H P']; subst. destruct (Ascii.eqb_spec c ".") as [-> |N].
    + constructor; [now apply Forall_rev|]. apply IH; [exact P'|constructor].
    + apply IH; [exact P'|]. constructor; [tauto|exact A].
Qed.
Lemma parts_word p : pkg_word p -> Forall word (parts p).
Proof. intros P. destruct p; [constructor|]. unfold parts. apply components_word; [exact P|constructor]. Qed.

Definition elem_word (e : celem) : Prop := match e with EMsg pkg name => pkg_word pkg /\ word name | _ => True end.
Definition type_word (t : ctype) : Prop := match t with CField _ => True | CElem e => elem_word e | CSeq _ e => elem_word e end.
Definition label_fine (l : label) : Prop := match l with Label _ s => lit_text s end.

Record class_fine (c : cls) : Prop := {
  cf_pkg : pkg_word (c_pkg c);
  cf_name : word (c_name c);
  cf_members : forall t n, In (t, n) (c_members c) -> type_word t /\ word n;
  cf_cases : forall k n, In (k, n) (c_cases c) -> word n;
  cf_write : forall n l, In (n, l) (c_write c) -> word n /\ label_fine l;
  cf_empty : Forall word (c_empty c);
  cf_clear : Forall word (c_clear c);
  cf_equal : Forall word (c_equal c);
  cf_swap : Forall word (c_swap c);
  cf_index : forall s k, In (s, k) (c_index c) -> lit_text s }.

Ltac fixed_seg := apply segb_ok; reflexivity.
Ltac segs := repeat match goal with |- seg (_ ++ _) => apply seg_app end;
  match goal with
  | H : seg ?x |- seg ?x => exact H
  | H : word ?x |- seg ?x => exact (seg_word x H)
  | |- seg (dec ?z) => exact (namec_seg _ (dec_namec z))
  | |- seg (b _) => fixed_seg
  | |- _ => idtac
  end.
Ltac line := apply tidy_ln, neat_seg; [segs|try reflexivity].
Ltac lines := repeat first [match goal with |- tidy (_ ++ _) => apply tidy_app end | line].

Section Class.
  Context (v : bytes) (V : word v).

  Lemma qualified_namec p n : pkg_word p -> word n -> Forall namec (qualified p n).
  Proof.
    intros P N. unfold qualified. apply Forall_app. split; [now apply namecb_ok|]. apply Forall_app. split; [|now apply word_namec].
    pose proof (parts_word p P) as Q. induction Q as [|w l W _ IH]; [constructor|]. cbn [map concat]. rewrite !Forall_app. split; [split; [now apply word_namec|now apply namecb_ok]|exact IH].
  Qed.
  Lemma lib_namec : Forall namec (lib v).
  Proof. unfold lib. rewrite !Forall_app. split; [now apply namecb_ok|]. split; [now apply word_namec|now apply namecb_ok]. Qed.
  Lemma prim_namec p : Forall namec (prim_name p).
  Proof. apply namecb_ok. destruct p as [s z| | |]; try reflexivity. destruct s; destruct z as [|z|z]; try reflexivity; do 7 (try reflexivity; destruct z as [z|z|]); reflexivity. Qed.
  Lemma elem_namec e : elem_word e -> Forall namec (elem_text v e).
  Proof.
    destruct e as [p| |p n]; cbn [elem_text elem_word]; intros E; [apply prim_namec| |now apply qualified_namec].
    apply Forall_app. split; [apply lib_namec|now apply namecb_ok].
  Qed.
  Lemma type_namec t : type_word t -> Forall namec (type_text v t).
  Proof.
    destruct t as [p|e|l e]; cbn [type_text type_word]; intros T.
    - rewrite !Forall_app. split; [apply lib_namec|]. split; [now apply namecb_ok|]. split; [apply prim_namec|now apply namecb_ok].
    - now apply elem_namec.
    - destruct l; rewrite !Forall_app; (split; [now apply namecb_ok|]; split; [now apply elem_namec|now apply namecb_ok]).
  Qed.

  Lemma opening_tidy p : pkg_word p -> tidy (opening p).
  Proof.
    intros P. unfold opening. apply tidy_concat. intros c C. pose proof (parts_word p P) as Q. rewrite Forall_forall in Q. specialize (Q c C). line.
  Qed.
  Lemma closing_tidy p : pkg_word p -> tidy (closing p).
  Proof.
    intros P. unfold closing. apply tidy_concat. intros c C. pose proof (parts_word p P) as Q. rewrite Forall_forall in Q. specialize (Q c C).
    apply tidy_ln. change (b "} // namespace " ++ c) with (b "} " ++ b "//" ++ (b " namespace " ++ c)).
    assert (S : seg (b " namespace " ++ c)) by segs. destruct S as (A & _ & _ & D).
    apply neat_comment; [fixed_seg|reflexivity|exact A| |exact D].
    rewrite in_app_iff. intros [I|I]; [revert I; cbv; intuition discriminate|]. unfold word in Q. rewrite Forall_forall in Q. specialize (Q _ I). discriminate Q.
  Qed.
  Lemma call_seg o f m a : seg o -> seg f -> seg m -> seg a -> seg (call o f m a).
  Proof. intros O F M A. unfold call. segs. Qed.
  Lemma quoted_seg s : lit_text s -> seg (quoted s).
  Proof. exact (seg_quoted s). Qed.
  Lemma label_seg l : label_fine l -> seg (label_text l).
  Proof. destruct l as [[|] s]; cbn [label_fine label_text]; intros L; pose proof (quoted_seg s L); segs. Qed.

  Lemma struct_tidy c : class_fine c -> tidy (struct_text v c).
  Proof.
    intros C. unfold struct_text. pose proof (opening_tidy _ (cf_pkg c C)). pose proof (closing_tidy _ (cf_pkg c C)). pose proof (cf_name c C).
    lines; try assumption. apply tidy_concat. intros (t, n) I. destruct (cf_members c C t n I) as [T N]. cbn [fst snd]. pose proof (type_namec t T) as TN. pose proof (namec_seg _ TN).
    apply tidy_ln, neat_seg; [segs|]. apply no_hash. rewrite !in_app_iff. pose proof (namec_hash _ TN). pose proof (namec_hash _ (word_namec _ N)).
    intros [Q|[Q|[Q|[Q|Q]]]]; try tauto; revert Q; cbv; intuition discriminate.
  Qed.

  Context (t : bytes) (T : seg t).
  Lemma read_tidy cs : (forall k n, In (k, n) cs -> word n) -> tidy (read_text t cs).
  Proof.
    intros C. unfold read_text. destruct cs as [|x cs]; lines. apply tidy_concat. intros (k, n) I. cbn [fst snd]. specialize (C k n I).
    assert (seg (call (b "value") (b "read") n (b "ctx, value." ++ n))) by (apply call_seg; segs). line.
  Qed.
  Lemma write_tidy cs : (forall n l, In (n, l) cs -> word n /\ label_fine l) -> tidy (write_text t cs).
  Proof.
    intros C. unfold write_text. destruct cs as [|x cs]; lines. apply tidy_concat. intros (n, l) I. cbn [fst snd]. destruct (C n l I) as [N L]. pose proof (label_seg l L).
    assert (seg (call (b "value") (b "empty") n (b "value." ++ n))) by (apply call_seg; segs).
    assert (seg (call (b "value") (b "write") n (b "ctx, value." ++ n))) by (apply call_seg; segs). line.
  Qed.
  Lemma empty_tidy l : Forall word l -> tidy (empty_text t l).
  Proof.
    intros C. unfold empty_text. destruct l as [|x l]; lines. apply tidy_concat. intros n I. rewrite Forall_forall in C. specialize (C n I).
    assert (seg (call (b "value") (b "empty") n (b "value." ++ n))) by (apply call_seg; segs). line.
  Qed.
  Lemma clear_tidy l : Forall word l -> tidy (clear_text t l).
  Proof.
    intros C. unfold clear_text. destruct l as [|x l]; lines. apply tidy_concat. intros n I. rewrite Forall_forall in C. specialize (C n I).
    assert (seg (call (b "value") (b "clear") n (b "value." ++ n))) by (apply call_seg; segs). line.
  Qed.
  Lemma equal_tidy l : Forall word l -> tidy (equal_text t l).
  Proof.
    intros C. unfold equal_text. destruct l as [|x l]; lines. apply tidy_concat. intros n I. rewrite Forall_forall in C. specialize (C n I).
    assert (seg (call (b "a") (b "equal") n (b "a." ++ n ++ b ", b." ++ n))) by (apply call_seg; segs). line.
  Qed.
  Lemma swap_tidy l : Forall word l -> tidy (swap_text t l).
  Proof.
    intros C. unfold swap_text. destruct l as [|x l]; lines. apply tidy_concat. intros n I. rewrite Forall_forall in C. specialize (C n I).
    assert (seg (call (b "a") (b "swap") n (b "a." ++ n ++ b ", b." ++ n))) by (apply call_seg; segs). line.
  Qed.
  Lemma index_tidy obf l : (forall s k, In (s, k) l -> lit_text s) -> tidy (index_text obf l).
  Proof.
    intros C. unfold index_text. destruct l as [|x l]; [lines|]. destruct obf; lines.
    all: apply tidy_concat; intros (s, k) I; cbn [fst snd]; pose proof (quoted_seg s (C s k I)); line.
  Qed.
End Class.

Lemma comment_neat s : word s -> neat (b "// " ++ s).
Proof.
  intros W. change (b "// " ++ s) with ([] ++ b "//" ++ (b " " ++ s)). assert (S : seg (b " " ++ s)) by segs. destruct S as (A & _ & _ & D).
  apply neat_comment; [now apply segb_ok|reflexivity|exact A| |exact D].
  rewrite in_app_iff. intros [I|I]; [revert I; cbv; intuition discriminate|]. unfold word in W. rewrite Forall_forall in W. specialize (W _ I). discriminate W.
Qed.
Lemma blank_neat : neat [].
Proof. apply neat_seg; [now apply segb_ok|reflexivity]. Qed.
Lemma slashes_neat : neat (b "//").
Proof. change (b "//") with ([] ++ b "//" ++ []). apply neat_comment; [now apply segb_ok|reflexivity|intros []|intros []|intros w E; destruct w; discriminate]. Qed.

Lemma class_tidy v c : word v -> class_fine c -> tidy (class_text v c).
Proof.
  intros V C. pose proof (cf_name c C) as N. unfold class_text. apply tidy_app; [exact (tidy_ln [] blank_neat)|].
  apply tidy_app; [exact (tidy_ln _ slashes_neat)|]. apply tidy_app; [apply tidy_ln, comment_neat, N|]. apply tidy_app; [exact (tidy_ln _ slashes_neat)|].
  pose proof (namec_seg _ (qualified_namec _ _ (cf_pkg c C) N)) as Q. apply tidy_app; [now apply struct_tidy|]. apply tidy_app.
  - unfold json_text. cbv zeta. assert (T : seg (qualified (c_pkg c) (c_name c) ++ b "_type")) by segs.
    repeat match goal with |- tidy (_ ++ _) => apply tidy_app end; try (line; fail).
    + apply read_tidy; [exact T|]. apply (cf_cases c C).
    + apply write_tidy; [exact T|]. apply (cf_write c C).
    + apply empty_tidy; [exact T|]. apply (cf_empty c C).
    + apply clear_tidy; [exact T|]. apply (cf_clear c C).
    + apply equal_tidy; [exact T|]. apply (cf_equal c C).
    + apply swap_tidy; [exact T|]. apply (cf_swap c C).
    + apply index_tidy. apply (cf_index c C).
    + apply tidy_ln. change (b "} // protogen" ++ v) with (b "} " ++ b "//" ++ (b " protogen" ++ v)). assert (S : seg (b " protogen" ++ v)) by segs. destruct S as (A & _ & _ & D).
      apply neat_comment; [fixed_seg|reflexivity|exact A| |exact D].
      rewrite in_app_iff. intros [I|I]; [revert I; cbv; intuition discriminate|]. unfold word in V. rewrite Forall_forall in V. specialize (V _ I). discriminate V.
  - unfold entity_text. cbv zeta. pose proof (namec_seg _ (lib_namec v V)) as L. pose proof (opening_tidy _ (cf_pkg c C)). pose proof (closing_tidy _ (cf_pkg c C)). lines; assumption.
Qed.
