(** C46: trailing commas are rejected in known members. *)
From Verif Require Import Bytes Num Dbl Types Stream Tokenizer Write Read SpecJson SpecInterp SpecBad
  ReadSim BadProofs Samples SampleProofs.

(** [bad_at _ (trailing_comma _) t x]: reading [x] for [t] reaches, inside known
    members and elements only, a non-empty object or array of the type with a comma
    before its closing brace or bracket.  Whatever follows, [deserialize] fails. *)
Theorem C46_rejected : forall strict t v w x po,
  bad_at strict (trailing_comma strict) t x -> ws w -> has_ty t v = true -> lookup_ok t ->
  exists v' po', deserialize t v (w ++ x) po = Some (false, v', po').
Proof. exact C46_lemma. Qed.
Print Assumptions C46_rejected.

(** In the value [x] of an unknown member ([itext]) such commas are accepted: the
    result is that of the document without the member. *)
Theorem C46_ignored_accepted : forall strict ms g vs l1 u1 name kt x l2 tail w0 w1 w2 w3 w4 rest po,
  members_prefix strict l1 u1 -> jstring strict kt name -> member_named (g_write g) name = None ->
  itext strict x ->
  ((l2 = [] /\ tail = []) \/ exists u, tail = [chr 44] ++ u /\ jmembers strict l2 u) ->
  ws w0 -> ws w1 -> ws w2 -> ws w3 -> ws w4 ->
  has_ty (TMsg ms g) (VMsg vs) = true -> lookup_ok (TMsg ms g) ->
  exists po', deserialize (TMsg ms g) (VMsg vs)
    (w0 ++ [chr 123] ++ u1 ++ (w1 ++ kt ++ w2 ++ [chr 58] ++ w3 ++ x ++ w4 ++ tail) ++ [chr 125] ++ rest) po
    = Some (good (fst (interp (TMsg ms g) (VMsg vs) (JObj (l1 ++ l2)))),
            snd (interp (TMsg ms g) (VMsg vs) (JObj (l1 ++ l2))), po').
Proof. exact C46_ignored_lemma. Qed.
Print Assumptions C46_ignored_accepted.

(** {"inner":{"flag":true,}} *)
Example C46_example : lookup_ok outer_ty /\
  bad_at true (trailing_comma true) outer_ty (b "{""inner"":{""flag"":true,}}").
Proof.
  split; [apply outer_lookup_ok|].
  apply (bad_member true _ _ _ [] [] [] [] [] (b "inner") (b """inner""") 1%nat inner_ty
           (b "{""flag"":true,}}")); try reflexivity.
  - constructor.
  - apply (jp_str_ok (b "inner")). reflexivity.
  - apply bad_here.
    apply (tc_object true _ _ [(b "flag", JBool true)] (b """flag"":true,") [] (b "}")).
    + apply (mp_cons true [] [] [] [] (b "flag") (b """flag""") (JBool true) (b "true") [] []); try reflexivity;
        [apply (jp_str_ok (b "flag")); reflexivity|constructor|constructor].
    + discriminate.
    + reflexivity.
Qed.

(** {"zz":[1,]} *)
Example C46_ignored_example : itext true (b "[1,]") /\
  member_named (g_write (plain_tables [b "flag"; b "ratio"])) (b "zz") = None /\
  deserialize inner_ty (dflt inner_ty) (b "{""zz"":[1,],""flag"":true}") None
  = Some (true, VMsg [VField false (VBool true); VField true (VDbl (DZero false))], None) /\
  deserialize (TRep (TPrim (PInt true 32))) (VList []) (b "[1,]") None
  = Some (false, VList [VPrim (VInt 1)], None).
Proof.
  split; [|split; [reflexivity|vm_compute; auto]].
  apply (it_arr true (b "1,")). apply (ie_more true [] [] (b "1") []); try reflexivity.
  - apply (it_scalar true (JNum (b "1"))); [|exact I]. constructor.
    exists [], (b "1"), [], []. split; [reflexivity|]. split; [now left|].
    split; [|split; now left]. right. exists "1"%char, []. repeat split. discriminate.
  - now constructor.
Qed.
