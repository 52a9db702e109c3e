(** Every schema has a layout, so the theorems over layouts are not vacuous. *)
From Verif Require Import Bytes BaseProofs IntProofs SpecNum ProtoLex SpecProto.

(** One space before every token. *)
Definition render (ps : list piece) : bytes := flat_map (fun p => " "%char :: spelling p) ps.

Lemma follow_blank p c r : blank c -> may_follow p (c :: r).
Proof.
  unfold blank, may_follow, pletter, pdigit. intros H. cbn [In] in H. destruct p; auto; [split; [|split]|]; lia.
Qed.

Lemma render_laid stray ps next : Forall piece_ok ps -> (next = [] \/ exists c r, next = c :: r /\ blank c) ->
  laid stray ps (render ps) next.
Proof.
  intros H N. induction H as [|p ps O _ IH]; [constructor|].
  change (render (p :: ps)) with ([" "%char] ++ spelling p ++ render ps). apply laid_cons; auto.
  - apply sep_blank; [cbn; auto|constructor].
  - destruct ps as [|p2 ps].
    + cbn [render flat_map app]. destruct N as [->|(c & r & -> & B)]; [destruct p; exact I|now apply follow_blank].
    + cbn [render flat_map app]. apply follow_blank. cbn. auto.
Qed.

Definition identb (w : bytes) : bool :=
  match w with [] => false | c :: r => letter_code (code c) && forallb (fun d => word_code (code d)) r end.
Lemma identb_spec w : identb w = true -> ident w.
Proof.
  destruct w as [|c r]; [discriminate|]. cbn [identb ident]. rewrite andb_true_iff, forallb_forall. intros [A B]. split.
  - unfold letter_code, pletter in *. lia.
  - apply Forall_forall. intros d I. apply B in I. unfold word_code, letter_code, digit_code, pletter, pdigit in *. lia.
Qed.
Lemma reserved_ident w : In w reserved_words -> ident w.
Proof.
  intros H. apply identb_spec. assert (A : forallb identb reserved_words = true) by (vm_compute; reflexivity).
  rewrite forallb_forall in A. auto.
Qed.

Lemma word_ok w : In w reserved_words -> piece_ok (PcWord w).
Proof. intros H. apply dot_one, reserved_ident, H. Qed.
Ltac word := solve [apply word_ok; cbn [reserved_words map In]; repeat (first [left; reflexivity|right])].
Ltac sym := cbn [piece_ok]; vm_compute; repeat (first [left; reflexivity|right]).

Lemma member_ok w : member_name w -> piece_ok (PcWord w).
Proof. intros [[A _]|[-> | ->]]; [now apply dot_one|word|word]. Qed.

Lemma num_ok z : 0 <= z -> piece_ok (PcNum (dec z)).
Proof.
  intros H. unfold dec. destruct (Z.ltb_spec z 0); [lia|]. cbn [piece_ok]. split; [now apply dec_nat_nonempty|].
  destruct (dec_nat_spec z H) as (_ & A & _). rewrite forallb_forall in A. apply Forall_forall. intros c I. apply A in I.
  unfold is_digit, pdigit in *. lia.
Qed.

Lemma value_pieces_ok v : value_ok v -> Forall piece_ok (value_pieces v).
Proof.
  destruct v as [[]|w|ds|s]; cbn [value_ok value_pieces]; intros H; (apply Forall_cons; [|apply Forall_nil]);
    [word|word|apply H|exact H|exact H].
Qed.

Lemma opt_pieces_ok o : opt_ok o -> Forall piece_ok (opt_pieces o).
Proof.
  intros [[A _] B]. unfold opt_pieces. cbn [app]. constructor; [exact A|]. constructor; [sym|now apply value_pieces_ok].
Qed.

Lemma opts_pieces_ok l : Forall opt_ok l -> Forall piece_ok (opts_pieces l).
Proof.
  induction 1 as [|o l O _ IH]; [constructor|]. destruct l as [|o2 l].
  - now apply opt_pieces_ok.
  - change (opts_pieces (o :: o2 :: l)) with (opt_pieces o ++ [PcSym ","] ++ opts_pieces (o2 :: l)).
    apply Forall_app. split; [now apply opt_pieces_ok|]. constructor; [sym|exact IH].
Qed.

Lemma field_pieces_ok f : field_ok f -> Forall piece_ok (field_pieces f).
Proof.
  intros (A & B & [C _] & D). unfold field_pieces. apply Forall_app. split.
  - destruct (sf_mod f); cbn [mod_pieces]; [constructor|constructor; [word|constructor]|constructor; [word|constructor]].
  - cbn [app]. constructor; [|constructor; [now apply member_ok|constructor; [sym|constructor; [apply num_ok; lia|]]]].
    + revert A. destruct (sf_type f) as [| | | | | | | | | | | | | | |w]; cbn [type_word type_ok]; intros A; try word. apply A.
    + apply Forall_app. split; [|constructor; [sym|constructor]]. unfold bracket_pieces. destruct (sf_opts f); [constructor|].
      constructor; [sym|]. apply Forall_app. split; [now apply opts_pieces_ok|]. constructor; [sym|constructor].
Qed.

Lemma option_pieces_ok o : opt_ok o -> Forall piece_ok (option_pieces o).
Proof.
  intros H. unfold option_pieces. cbn [app]. constructor; [word|]. apply Forall_app. split; [now apply opt_pieces_ok|].
  constructor; [sym|constructor].
Qed.

Lemma head_pieces_ok name items : member_name name -> Forall item_ok items -> Forall piece_ok (message_head name items).
Proof.
  intros A B. unfold message_head. cbn [app]. constructor; [word|]. constructor; [now apply member_ok|]. constructor; [sym|].
  induction B as [|i items I _ IH]; [constructor|]. cbn [flat_map]. apply Forall_app. split; [|exact IH].
  destruct i; [now apply field_pieces_ok|now apply option_pieces_ok].
Qed.

Lemma schema_pieces_ok l : Forall decl_ok l -> Forall piece_ok (schema_pieces l).
Proof.
  induction 1 as [|d l O _ IH]; [constructor|]. unfold schema_pieces in *. cbn [flat_map]. apply Forall_app. split; [|exact IH].
  destruct d as [|w|o|name items]; cbn [decl_pieces decl_ok] in *.
  - constructor; [word|]. constructor; [sym|]. constructor; [|constructor; [sym|constructor]].
    cbn [piece_ok]. apply Forall_forall. intros c I. assert (K : forallb (fun c => negb (Ascii.eqb c LF) && negb (Ascii.eqb c NUL) && negb (code c =? 34)) (b "proto3") = true) by (vm_compute; reflexivity).
    rewrite forallb_forall in K. apply K in I. unfold lit_char.
    destruct (Ascii.eqb_spec c LF); [discriminate|]. destruct (Ascii.eqb_spec c NUL); [discriminate|].
    destruct (Z.eqb_spec (code c) 34); [discriminate|]. auto.
  - constructor; [word|]. constructor; [apply O|]. constructor; [sym|constructor].
  - now apply option_pieces_ok.
  - destruct O as (A & B & _). apply Forall_app. split; [now apply head_pieces_ok|]. constructor; [sym|constructor].
Qed.

(** Every schema can be written. *)
Lemma schema_layout l : Forall decl_ok l -> exists text, laid false (schema_pieces l) text [].
Proof. intros H. exists (render (schema_pieces l)). apply render_laid; [now apply schema_pieces_ok|now left]. Qed.
