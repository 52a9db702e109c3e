(** C71: what a program calls, read and executed as C++: serialize and deserialize of a message (PG_X_Y_Z_ENTITY in json.hh, struct message in
    protogen.hh) and serialize_array and deserialize_array (json-array.hh). *)
From Verif Require Import Bytes Num Dbl Types Stream Tokenizer Write Read LexView HdrText HText CExec HParse HExec HTok SpecHTok HJson SpecRange
  SpecJson SpecInterp SpecWrite SpecHJson Samples SampleProofs HApi SpecHApi HApiProofs HApiGlue.

(** The text has a result for every input that ints can count and every value to read into: that of the model. The input is a std::string, a
    std::vector<char> (both as they were) or an istream over the characters. *)
Theorem C71_deserialize : forall ty0 v inp po, ty_wf ty0 -> has_ty ty0 v = true -> Z.of_nat (length inp) <= 2147483646 ->
  exists r v' po', deserialize ty0 v inp po = Some (r, v', po') /\
    (forall member x, holds inp x -> api_gives member ty0 "deserialize" v po x r v' po' x) /\
    (exists i, forall member, api_gives member ty0 "deserialize" v po (AV (HObj (in_val (mk_istream inp)))) r v' po' (AV (HObj (in_val i)))).
Proof. exact api_deserialize. Qed.
Print Assumptions C71_deserialize.

(** The same for the output: what it had before, and then what the model gives; the value is as it was. *)
Theorem C71_serialize : forall ty0 v po, has_ty ty0 v = true -> Z.of_nat (longest v) <= 9223372036854775807 ->
  exists r o po', serialize ty0 v po = (r, o, po') /\
    forall member x x', given member o x x' -> api_gives member ty0 "serialize" v po x r v po' x'.
Proof. exact api_serialize. Qed.
Print Assumptions C71_serialize.

(** There and back (as C04): x.serialize( s ) and then y.deserialize( s ). *)
Theorem C71_back : forall ms g v po, ty_wf (TMsg ms g) -> tables_ok false (TMsg ms g) -> lookup_ok (TMsg ms g) ->
  jsonable (po_ea po) false (TMsg ms g) v -> faithful (po_sn po) (TMsg ms g) v -> has_ty (TMsg ms g) v = true ->
  Z.of_nat (longest v) <= 9223372036854775807 ->
  exists o, (forall x x', given true o x x' -> api_gives true (TMsg ms g) "serialize" v po x true v (clear_params po) x') /\
    forall po2, Z.of_nat (length o) <= 2147483646 -> exists po2', forall x, holds o x ->
      api_gives true (TMsg ms g) "deserialize" (dflt (TMsg ms g)) po2 x true (persist (TMsg ms g) v) po2' x.
Proof. exact api_back. Qed.
Print Assumptions C71_back.

(** ** Examples *)
Example C71_applies : ty_wf outer_ty /\ tables_ok false outer_ty /\ lookup_ok outer_ty /\ jsonable false false outer_ty outer_val /\
  faithful false outer_ty outer_val /\ has_ty outer_ty outer_val = true /\ Z.of_nat (longest outer_val) <= 9223372036854775807 /\
  longest outer_val = 5%nat /\ exists ms g, outer_ty = TMsg ms g.
Proof.
  split; [repeat constructor; discriminate|]. split; [apply outer_tables_ok|]. split; [apply outer_lookup_ok|].
  split; [apply jsonable_lax, outer_jsonable|]. split; [apply outer_faithful|]. split; [reflexivity|]. split; [vm_compute; discriminate|].
  split; [reflexivity|eexists _, _; reflexivity].
Qed.
Example C71_objects : holds (b "{}") (AV (HS (b "{}"))) /\ given true (b "{}") (AStd (b ">")) (AStd (b ">{}")) /\
  given false (b "[]") (AGot []) (AGot (b "[]")).
Proof. repeat constructor. Qed.

Definition sample : ty := TMsg [TField (PInt true 32); TStr] (GC [(0%nat, b "n"); (1%nat, b "s")] false [(b "n", 0); (b "s", 1)] [(0, 0%nat); (1, 1%nat)]).
Definition value : val := VMsg [VField false (VInt (-7)); VStr false [chr 195; chr 169]].
Definition old : params := Par false false (EI PGERR_INVALID_NAME (b "old") 3 4).
(** What a call returns, and the three objects of the caller. *)
Definition run (A : atext) (member : bool) (f : string) (v : val) (po : option params) (x : aval) : option (aval * amem) :=
  let t := if member then sample else TRep sample in
  let ser ea sn := json_text 40 40 ea sn the_texts t in
  match (if member then acall 40 40 the_texts A ser (a_entity A) (Some (0%nat, [])) 2 (b f) [RP (2%nat, []); params_arg po] (objects v po x)
         else acall 40 40 the_texts A ser (a_array A) None 2 (b f ++ b "_array") [RP (0%nat, []); RP (2%nat, []); params_arg po] (objects v po x)) with
  | Some (r, m) => Some (r, firstn 3 m)
  | None => None
  end.
Example C71_texts : api = the_api.
Proof. exact api_is. Qed.
Example C71_executed :
  run the_api true "deserialize" (dflt sample) (Some old) (AV (HS (b " {""s"":""z"",""n"":5}")))
    = Some (AV (HB true), objects (VMsg [VField false (VInt 5); VStr false (b "z")]) (Some (Par false false err_clear)) (AV (HS (b " {""s"":""z"",""n"":5}")))) /\
  run the_api true "serialize" value (Some old) (AStd (b ">"))
    = Some (AV (HB true), objects value (Some (Par false false err_clear)) (AStd (b ">{""n"":-7,""s"":""" ++ [chr 195; chr 169] ++ b """}"))) /\
  run the_api true "serialize" value None (AChars (b ">"))
    = Some (AV (HB true), objects value None (AChars (b ">{""n"":-7,""s"":""" ++ [chr 195; chr 169] ++ b """}"))) /\
  run the_api false "deserialize" (VList []) (Some old) (AChars (b "[{""n"":1},?]"))
    = Some (AV (HB false), objects (VList [VMsg [VField false (VInt 1); VStr true []]])
              (Some (Par false false (EI PGERR_INVALID_OBJECT (b "objects must start with '{'") 1 10))) (AChars (b "[{""n"":1},?]"))).
Proof. vm_compute. repeat split. Qed.

(** Other texts do other things: parameters that are not taken over, an error of before that stays, an error that is lost, a failure that is
    reported as none, characters left out. *)
Definition changes (old new text : bytes) : bytes := instead (length old) old new text.
Definition other (old new : string) : atext :=
  ATx (hfunctions (inner_block (macro_body (changes (b old) (b new) json_hh) "PG_X_Y_Z_ENTITY") entity_path) ++ hfunctions (inner_block (header protogen_hh) message_path))
      (a_array the_api) (a_error the_api) (a_params the_api) (a_context the_api) (a_token the_api) (a_tok the_api) (a_in the_api) (a_out the_api).
Definition other_array (old new : string) : atext :=
  ATx (a_entity the_api) (hfunctions (inner_block (header (changes (b old) (b new) json_array_hh)) [ns]))
      (a_error the_api) (a_params the_api) (a_context the_api) (a_token the_api) (a_tok the_api) (a_in the_api) (a_out the_api).
Definition before : params := Par true true (EI PGERR_INVALID_NAME (b "old") 3 4).
Definition code_of (x : option (aval * amem)) : option (aval * option hval) :=
  match x with Some (r, [_; AO [_; _; (_, AV (HObj ((_, e) :: _)))]; _]) => Some (r, Some e) | Some (r, _) => Some (r, None) | None => None end.
Definition third (x : option (aval * amem)) : option aval := match x with Some (_, m) => nth_error m 2 | None => None end.
Example C71_tells :
  code_of (run the_api true "deserialize" (dflt sample) (Some before) (AV (HS (b "{}")))) = Some (AV (HB true), Some (HI IErr 0)) /\
  code_of (run (other "params->error.clear();" "") true "deserialize" (dflt sample) (Some before) (AV (HS (b "{}")))) = Some (AV (HB true), Some (HI IErr 6)) /\
  code_of (run the_api true "deserialize" (dflt sample) (Some before) (AV (HS (b "[")))) = Some (AV (HB false), Some (HI IErr 5)) /\
  code_of (run (other "if (params != nullptr) params->error = std::move(ctx.params.error);" "") true "deserialize" (dflt sample) (Some before) (AV (HS (b "["))))
    = Some (AV (HB false), Some (HI IErr 0)) /\
  code_of (run (other "return false;" "return true;") true "deserialize" (dflt sample) (Some before) (AV (HS (b "[")))) = Some (AV (HB true), Some (HI IErr 5)) /\
  third (run the_api false "serialize" (VList [value]) (Some before) (AV (HS []))) = Some (AV (HS (b "[{""n"":-7,""s"":""\u00e9""}]"))) /\
  third (run (other_array "ctx.params = *params;
    }
    int result" "}
    int result") false "serialize" (VList [value]) (Some before) (AV (HS []))) = Some (AV (HS (b "[{""n"":-7,""s"":""" ++ [chr 195; chr 169] ++ b """}]"))) /\
  run (other_array "ctx.os = &out;" "") false "serialize" (VList [value]) (Some before) (AGot []) = None.
Proof. vm_compute. repeat split. Qed.
