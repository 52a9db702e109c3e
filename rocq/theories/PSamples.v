(** Sample schemas for the examples beside the theorems on the compiler. *)
From Verif Require Import Bytes BaseProofs IntProofs ProtoLex ProtoParse SpecProto SpecSchema PRenderProofs.

Lemma plain_name_b w : identb w && negb (existsb (bytes_eqb w) reserved_words) = true -> plain_name w.
Proof.
  rewrite andb_true_iff, negb_true_iff. intros [A B]. split; [now apply identb_spec|]. intros I.
  assert (X : existsb (bytes_eqb w) reserved_words = true).
  { apply existsb_exists. exists w. split; [exact I|apply bytes_eqb_refl]. }
  congruence.
Qed.

Lemma plain_dotted_2 u v : identb u = true -> identb v = true ->
  negb (existsb (bytes_eqb (u ++ "."%char :: v)) reserved_words) = true -> plain_dotted (u ++ "."%char :: v).
Proof.
  rewrite negb_true_iff. intros A B C. split; [apply dot_more; [|apply dot_one]; now apply identb_spec|]. intros I.
  assert (X : existsb (bytes_eqb (u ++ "."%char :: v)) reserved_words = true).
  { apply existsb_exists. eexists. split; [exact I|apply bytes_eqb_refl]. }
  congruence.
Qed.

Lemma plain_one w : plain_name w -> plain_dotted w.
Proof. intros [A B]. split; [now apply dot_one|exact B]. Qed.

Ltac plain := apply plain_name_b; vm_compute; reflexivity.

Definition sample : list sdecl :=
  [ SDSyntax;
    SDPackage (b "a.b");
    SDOption (b "opt", SBool true);
    SDMessage (b "M")
      [ SIField (SField SRepeated SInt32 (b "xs") 1 [(b "transient", SBool true); (b "name", SStr (b "x y"))]);
        SIOption (b "opt", SInt (b "007"));
        SIField (SField SPlain (SMessage (b "N")) (b "n") 536870910 []);
        SIField (SField SOptional SString (b "message") 19500 []) ];
    SDMessage (b "N") [];
    SDOption (b "opt", SBool false) ].

Definition sample_text : bytes :=
  b "syntax = " ++ [chr 34] ++ b "proto3" ++ [chr 34] ++ b ";// head" ++ [LF] ++
  b "package a.b;option opt=true;message M/**/{ repeated int32 xs=1[transient=true,name=" ++
  [chr 34] ++ b "x y" ++ [chr 34] ++ b "];option opt=007;N n=536870910;optional string message=19500;}message N{}option opt=false;".

Lemma lit_chars s : forallb (fun c => negb (Ascii.eqb c LF) && negb (Ascii.eqb c NUL) && negb (code c =? 34)) s = true ->
  Forall lit_char s.
Proof.
  rewrite forallb_forall. intros K. apply Forall_forall. intros c I. apply K in I. unfold lit_char.
  destruct (Ascii.eqb_spec c LF); [discriminate|]. destruct (Ascii.eqb_spec c NUL); [discriminate|].
  destruct (Z.eqb_spec (code c) 34); [discriminate|]. auto.
Qed.

Lemma digit_chars s : forallb is_digit s = true -> Forall pdigit s.
Proof.
  rewrite forallb_forall. intros K. apply Forall_forall. intros c I. apply K in I. unfold is_digit, pdigit in *. lia.
Qed.

Lemma sample_decls : Forall decl_ok sample.
Proof.
  unfold sample. repeat apply Forall_cons; try apply Forall_nil.
  - exact I.
  - apply (plain_dotted_2 (b "a") (b "b")); vm_compute; reflexivity.
  - split; [apply plain_one; plain|exact I].
  - split; [left; plain|]. split.
    + repeat apply Forall_cons; try apply Forall_nil; cbn [item_ok].
      * split; [exact I|]. split; [left; plain|]. split; [vm_compute; intuition discriminate|].
        repeat apply Forall_cons; try apply Forall_nil; (split; [apply plain_one; plain|]); [exact I|].
        apply lit_chars. vm_compute. reflexivity.
      * split; [apply plain_one; plain|]. split; [discriminate|]. apply digit_chars. vm_compute. reflexivity.
      * split; [apply plain_one; plain|]. split; [left; plain|]. split; [vm_compute; intuition discriminate|apply Forall_nil].
      * split; [exact I|]. split; [right; left; reflexivity|]. split; [vm_compute; intuition discriminate|apply Forall_nil].
    + cbn. repeat constructor; cbn; intuition discriminate.
  - split; [left; plain|]. split; [apply Forall_nil|constructor].
  - split; [apply plain_one; plain|exact I].
Qed.

Lemma sample_ok : schema_ok sample.
Proof.
  split; [exact sample_decls|]. intros pkg name items f w H1 H2 H3. cbn in H1. destruct H1 as [H1|[H1|[]]]; injection H1 as <- <- <-; cbn in H2;
    [|contradiction]. destruct H2 as [<-|[<-|[<-|[]]]]; try discriminate H3. injection H3 as <-.
  exists 1%nat. split.
  - exists (b "a.b"), (b "N"), []. split; reflexivity.
  - intros j p n i L N. destruct j as [|j]; [|lia]. cbn in N. injection N as <- <- _. vm_compute. discriminate.
Qed.

(** The tokens of [sample] and their layout in [sample_text]. *)
Fixpoint lays (l : list (bytes * piece)) : bytes :=
  match l with [] => [] | (s, p) :: l' => s ++ spelling p ++ lays l' end.

(** A checker of layouts, enough for the examples: separators are spaces, line feeds, or
    given with their proof. *)
Definition followb (p : piece) (next : bytes) : bool :=
  match p, next with
  | PcWord _, c :: _ => negb (word_code (code c)) && negb (code c =? 46)
  | PcNum _, c :: _ => negb (digit_code (code c))
  | _, _ => true
  end.
Lemma followb_spec p next : followb p next = true -> may_follow p next.
Proof.
  destruct p as [w|ds|s|a], next as [|c r]; cbn; auto; unfold word_code, letter_code, digit_code, pletter, pdigit; lia.
Qed.

Fixpoint follows (l : list (bytes * piece)) (next : bytes) : bool :=
  match l with [] => true | (_, p) :: l' => followb p (lays l' ++ next) && follows l' next end.

Lemma lays_laid l next : Forall (fun x => sep false (fst x)) l -> Forall piece_ok (map snd l) -> follows l next = true ->
  laid false (map snd l) (lays l) next.
Proof.
  intros A. revert next. induction A as [|[s p] l S _ IH]; intros next O H; [constructor|].
  cbn [follows map snd lays] in *. apply andb_prop in H. destruct H as [H1 H2]. inversion O; subst.
  apply laid_cons; auto. now apply followb_spec.
Qed.

(** Separators in front of the tokens of [sample_text]. *)
Definition sample_seps : list bytes :=
  [[]; b " "; b " "; [];
   b "// head" ++ [LF]; b " "; [];
   []; b " "; []; []; [];
   []; b " "; b "/**/";
   b " "; b " "; b " "; []; [];
   []; []; []; []; []; []; []; []; []; [];
   []; b " "; []; []; [];
   []; b " "; []; []; [];
   []; b " "; b " "; []; []; [];
   [];
   []; b " "; []; [];
   []; b " "; []; []; []].

Lemma sample_laid next : (next = [] \/ exists c r, next = c :: r /\ blank c) -> laid false (schema_pieces sample) sample_text next.
Proof.
  intros N.
  assert (E1 : map snd (combine sample_seps (schema_pieces sample)) = schema_pieces sample) by (vm_compute; reflexivity).
  assert (E2 : lays (combine sample_seps (schema_pieces sample)) = sample_text) by (vm_compute; reflexivity).
  rewrite <- E1, <- E2. apply lays_laid.
  - assert (K : Forall (sep false) sample_seps).
    { unfold sample_seps. repeat apply Forall_cons; try apply Forall_nil; try apply sep_nil;
        try (apply (sep_blank false " "%char []); [cbn; auto|apply sep_nil]).
      - change (b "// head" ++ [LF]) with (b "//" ++ b " head" ++ LF :: []). apply sep_line; [|apply sep_nil].
        vm_compute. intuition discriminate.
      - change (b "/**/") with (b "/*" ++ [] ++ b "*/" ++ []). apply sep_block; [|apply sep_nil].
        intros (u & v & E). destruct u as [|? [|? ?]]; discriminate E. }
    revert K. generalize (schema_pieces sample). generalize sample_seps.
    intros l. induction l as [|s l IH]; intros [|p ps] K; cbn [combine]; try apply Forall_nil.
    inversion K; subst. apply Forall_cons; auto.
  - rewrite E1. apply schema_pieces_ok, sample_decls.
  - destruct N as [->|(c & r & -> & B)]; [vm_compute; reflexivity|].
    unfold blank in B. cbn [In] in B.
    assert (Hc : c = " "%char \/ c = "009"%char \/ c = "010"%char \/ c = "013"%char).
    { destruct B as [B|[B|[B|[B|[]]]]]; rewrite <- (chr_code c), <- B; vm_compute; auto. }
    destruct Hc as [->|[->|[->| ->]]]; vm_compute; reflexivity.
Qed.
