(** Witnesses for the refuted properties of the parser. *)
From Verif Require Import Bytes BaseProofs IntProofs Num ProtoLex ProtoParse SpecProto SpecSchema PRunProofs PTermProofs PSchemaProofs
  PAcceptProofs PRenderProofs PSamples.

Lemma comment_loops : exists text, forall F file, parse_with F text file = PFuel.
Proof.
  exists (b "// x"). intros F file.
  apply (text_loops false [] [] (b "// x") file); [constructor|constructor|].
  apply (el_line _ [] (b " x")); [reflexivity|constructor|]. vm_compute. intuition discriminate.
Qed.

(** One message with one field. *)
Definition one_field (z : Z) : list sdecl := [SDMessage (b "M") [SIField (SField SPlain SInt32 (b "a") z [])]].
Definition one_text (z : Z) : bytes := b "message M{int32 a=" ++ dec z ++ b ";}".

Lemma one_laid z : number_ok z -> Forall decl_ok (one_field z) /\ resolved (messages_of [] (one_field z)) /\
  laid false (schema_pieces (one_field z)) (one_text z) [].
Proof.
  intros N. assert (D : Forall decl_ok (one_field z)).
  { unfold one_field. repeat apply Forall_cons; try apply Forall_nil. split; [left; plain|]. split.
    - repeat apply Forall_cons; try apply Forall_nil. split; [exact I|]. split; [left; plain|]. split; [exact N|apply Forall_nil].
    - cbn. repeat constructor. auto. }
  split; [exact D|]. split.
  - intros pkg name items f w [H|[]] H2 H3. injection H as <- <- <-. destruct H2 as [<-|[]]. discriminate H3.
  - set (l := combine [[]; b " "; []; []; b " "; []; []; []; []] (schema_pieces (one_field z))).
    replace (one_text z) with (lays l).
    2:{ unfold l, one_text. change (schema_pieces (one_field z)) with
          [PcWord (b "message"); PcWord (b "M"); PcSym "{"; PcWord (b "int32"); PcWord (b "a"); PcSym "="; PcNum (dec z); PcSym ";"; PcSym "}"].
        cbn [combine lays spelling app]. reflexivity. }
    change (schema_pieces (one_field z)) with (map snd l). apply lays_laid.
    + unfold l. cbn [combine schema_pieces one_field flat_map decl_pieces message_head item_pieces field_pieces mod_pieces bracket_pieces app
        sf_mod sf_opts sf_type sf_name sf_number].
      repeat apply Forall_cons; try apply Forall_nil; cbn [fst]; try apply sep_nil;
        (apply (sep_blank false " "%char []); [cbn; auto|apply sep_nil]).
    + change (map snd l) with (schema_pieces (one_field z)). now apply schema_pieces_ok.
    + unfold l. change (schema_pieces (one_field z)) with
        [PcWord (b "message"); PcWord (b "M"); PcSym "{"; PcWord (b "int32"); PcWord (b "a"); PcSym "="; PcNum (dec z); PcSym ";"; PcSym "}"].
      cbn [combine follows lays spelling app]. reflexivity.
Qed.

Lemma one_accepted z file : number_ok z -> exists p m f, parse (one_text z) file = POk p /\ pr_messages p = [m] /\
  m_fields m = [f] /\ f_index f = z.
Proof.
  intros N. destruct (one_laid z N) as (D & R & L).
  destruct (accepts false (one_field z) _ (one_field z) (one_text z) [] file (op_all _) L (conj D R) D) as (p & E & [P _] & _).
  { apply fr_sep. constructor. }
  rewrite app_nil_r in E. cbn [messages_of one_field] in P.
  inversion P as [|m ? ms ? M P2]. inversion P2. destruct M as (_ & _ & F & _). cbn [item_fields flat_map app] in F.
  inversion F as [|f ? fs ? G F2]. inversion F2. destruct G as (_ & _ & _ & _ & _ & G & _).
  exists p, m, f. repeat split; auto; congruence.
Qed.

Lemma reserved_accepted z file : 19000 < z < 19999 -> exists p m f, parse (one_text z) file = POk p /\ pr_messages p = [m] /\
  m_fields m = [f] /\ f_index f = z.
Proof. intros H. apply one_accepted. unfold number_ok. lia. Qed.

Lemma largest_rejected file : parse (one_text (2 ^ 29 - 1)) file = PThrow (b "Invalid field index") 1 19.
Proof. vm_compute. reflexivity. Qed.

Lemma wraps_accepted file : exists p m f g, parse (b "message M{int32 a=4294967297;int32 b=4294967298;}") file = POk p /\
  pr_messages p = [m] /\ m_fields m = [f; g] /\ f_index f = 1 /\ f_index g = 2.
Proof. vm_compute. do 4 eexists. repeat split. Qed.
