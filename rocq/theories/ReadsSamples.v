(** Concrete files for C60. *)
From Verif Require Import Bytes BaseProofs Num IntProofs SpecProto SpecPos SpecSchema ProtoLex ProtoParse PRenderProofs PSamples SpecReads ReadsCode ReadsLift ReadsGrammar ReadsMessages.

Lemma one_meaning text : exists v, meaning text v /\ forall v', meaning text v' -> v' = v.
Proof. destruct (meaning_total text) as (v & V). exists v. split; [exact V|]. intros v' V'. exact (meaning_fun _ _ _ V' V). Qed.

Lemma accepts_iff text file : (exists p, parse text file = POk p) <-> (exists l, written text l /\ schema_ok l).
Proof.
  rewrite schema_iff. split; intros (l & H); exists l; now apply meaning_written.
Qed.

Lemma written_result text file l : written text l -> schema_ok l -> exists p, parse text file = POk p /\ proto_is p l /\ pr_file p = file.
Proof. intros W O. apply schema_result. apply meaning_written. auto. Qed.

(** message M { int32 a = 4294967303 [ x = 1 y = true , ] ; M m = 2 ;  (no bracket closes) *)
Definition loose_pieces : list piece :=
  [PcWord (b "message"); PcWord (b "M"); PcSym "{";
   PcWord (b "int32"); PcWord (b "a"); PcSym "="; PcNum (b "4294967303");
   PcSym "["; PcWord (b "x"); PcSym "="; PcNum (b "1"); PcWord (b "y"); PcSym "="; PcWord (b "true"); PcSym ","; PcSym "]"; PcSym ";";
   PcWord (b "M"); PcWord (b "m"); PcSym "="; PcNum (b "2"); PcSym ";"].
Definition loose_items : list sitem :=
  [SIField (SField SPlain SInt32 (b "a") 7 [(b "x", SInt (b "1")); (b "y", SBool true)]);
   SIField (SField SPlain (SMessage (b "M")) (b "m") 2 [])].
Definition loose_decls : list sdecl := [SDMessage (b "M") loose_items].
Definition loose_text : bytes := render loose_pieces ++ b " /* end".

Ltac plainb := apply plain_name_b; vm_compute; reflexivity.

Lemma loose_ok : schema_ok loose_decls.
Proof.
  split.
  - constructor; [|constructor]. split; [left; plainb|]. split; [|vm_compute; repeat constructor; cbn; intuition discriminate].
    constructor; [|constructor; [|constructor]].
    + split; [exact Logic.I|]. split; [left; plainb|]. split; [cbn; unfold number_ok; lia|].
      constructor; [|constructor; [|constructor]]; (split; [apply plain_one; plainb|]); [apply one_ok|exact Logic.I].
    + split; [apply plain_one; plainb|]. split; [left; plainb|]. split; [cbn; unfold number_ok; lia|constructor].
  - apply missing_resolved. vm_compute. reflexivity.
Qed.

Lemma loose_spelled : spelled_open loose_decls loose_pieces.
Proof.
  set (o1 := (b "x", SInt (b "1")) : sopt). set (o2 := (b "y", SBool true) : sopt).
  set (f1 := SField SPlain SInt32 (b "a") 7 [o1; o2]). set (f2 := SField SPlain (SMessage (b "M")) (b "m") 2 []).
  pose proof (bs_some [o1; o2] _ (os_bare o1 [o2] _ (os_comma o2 [] [] os_nil))) as B.
  assert (N : number_of (b "4294967303") = 7) by (vm_compute; reflexivity).
  pose proof (it_cons _ _ _ _ (is_field f1 (b "4294967303") _ N B) (it_cons _ [] _ [] (is_field f2 (b "2") [] eq_refl bs_none) it_nil)) as J.
  exact (so_open [] [] (b "M") loose_items _ sp_nil J).
Qed.

Lemma loose_written : written loose_text loose_decls /\ schema_ok loose_decls /\ (exists p, parse loose_text [] = POk p).
Proof.
  assert (W : written loose_text loose_decls).
  { exists loose_pieces, (render loose_pieces), (b " /* end"). split; [reflexivity|]. split.
    - apply render_laid; [|right; eexists _, _; split; [reflexivity|cbn; auto]].
      assert (N : forall ds, ds <> [] -> forallb (fun c => (48 <=? code c) && (code c <=? 57)) ds = true -> piece_ok (PcNum ds)).
      { intros ds A B. split; [exact A|]. apply Forall_forall. intros c I. rewrite forallb_forall in B. specialize (B c I). unfold pdigit. lia. }
      unfold loose_pieces. repeat apply Forall_cons; try (apply word_ok; inres); try (apply dot_one, identb_spec; vm_compute; reflexivity);
        try (apply N; [discriminate|vm_compute; reflexivity]); try in9. constructor.
    - split; [|exact loose_spelled]. left. exists [" "%char]. split; [apply sep_blank; [cbn; auto|constructor]|].
      right; right. exists (b " end"). split; [reflexivity|]. intros (u & v & E).
      assert (X : In "/"%char (b " end")) by (rewrite E; apply in_or_app; right; right; left; reflexivity).
      vm_compute in X. intuition discriminate. }
  split; [exact W|]. split; [exact loose_ok|]. apply accepts_iff. exists loose_decls. split; [exact W|exact loose_ok].
Qed.

Definition wrong_text : bytes := b "message M {" ++ [LF] ++ b " int32 a 1; }".

Lemma wrong_meanings :
  meaning wrong_text (VError (b "Expected '='") 2 10) /\ meaning (b "message M { N n = 1; }") (VError (b "Unable to find message 'N'") 0 0) /\
  meaning (b "package a") (VError (b "Invalid package") 1 9) /\ meaning (b "// x") VLoop /\
  parse (b "message M { int32 a = 1 [b = 1;] }") [] = PThrow (b "Missing option name") 1 31.
Proof.
  split; [apply (error_iff _ []); vm_compute; reflexivity|]. split; [apply (error_iff _ []); vm_compute; reflexivity|].
  split; [apply (error_iff _ []); vm_compute; reflexivity|]. split; [|vm_compute; reflexivity].
  apply (mn_loop _ [] (b "// x") [] AtDecl).
  - split; [reflexivity|]. exists []. split; [constructor|reflexivity].
  - apply (el_line _ [] (b " x")); [reflexivity|constructor|]. vm_compute. intuition discriminate.
Qed.
