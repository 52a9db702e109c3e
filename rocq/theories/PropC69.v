(** C69: what the text of json<T>::read (json-number.hh, json-string.hh, json-base64.hh, json-array.hh) and of read_object (json.hh) does, read and
    executed as C++, for every type and every value to read into. *)
From Verif Require Import Bytes Num Dbl Types Stream Tokenizer Write Read LexView HdrText HText CExec HParse HExec HTok SpecHTok HJson SpecRange SpecHJson HJsonGlue.

(** Every result of the model is the result of the text. *)
Theorem C69_read : forall n ty0 t v r v' t', ty_wf ty0 -> has_ty ty0 v = true -> fits (tk_in t) -> read n ty0 t v = Some (r, v', t') ->
  text_reads ty0 t v r v' t'.
Proof. exact json_read. Qed.
Print Assumptions C69_read.

(** The model has a result for every input that ints can count, so the text has it. *)
Theorem C69_reads : forall ty0 t v, ty_wf ty0 -> has_ty ty0 v = true -> wf_is (tk_in t) -> fits (tk_in t) ->
  exists n r v' t', read n ty0 t v = Some (r, v', t') /\ text_reads ty0 t v r v' t'.
Proof. exact json_reads. Qed.
Print Assumptions C69_reads.

(** From the input on: the first token and json<T>::read as the text has them, and [deserialize] made of their result. *)
Theorem C69_input : forall ty0 v inp po, ty_wf ty0 -> has_ty ty0 v = true -> Z.of_nat (length inp) <= 2147483646 ->
  exists t r v' t',
    text_gives OTok "next" [] (TK (Tok T_NONE [] 0 0) (mk_istream inp) (p_err (ctx_params po))) (HL RCur []) t /\
    text_reads ty0 t v r v' t' /\
    deserialize ty0 v inp po =
      Some (match r with PGR_OK => true | _ => false end, v',
            match r with PGR_OK => clear_params po | _ => params_set_err (clear_params po) (tk_err t') end).
Proof. exact json_input. Qed.
Print Assumptions C69_input.

(** ** Examples *)
Definition inner : ty := TMsg [TStr; TB64] (GC [(0%nat, b "s"); (1%nat, b "b")] false [(b "s", 0); (b "b", 1)] [(0, 0%nat); (1, 1%nat)]).
Definition sample : ty :=
  TMsg [TPrim (PInt true 32); TField PBool; TRep (TField (PInt false 8)); inner; TRep inner]
    (GC [(0%nat, b "n"); (1%nat, b "f"); (2%nat, b "l"); (3%nat, b "m"); (4%nat, b "k")] false
        [(b "n", 0); (b "f", 1); (b "l", 2); (b "m", 3); (b "k", 4)] [(0, 0%nat); (1, 1%nat); (2, 2%nat); (3, 3%nat); (4, 4%nat)]).
Definition text : bytes := b "{""n"":-7,""x"":[{}],""f"":true,""l"":[1,300],""m"":{""b"":""YWI="",""s"":""z""},""k"":[{},{""s"":""w""}]} ]".
Example C69_applies : ty_wf sample /\ has_ty sample (dflt sample) = true /\ Z.of_nat (length text) <= 2147483646.
Proof.
  split; [|split; [reflexivity|vm_compute; discriminate]].
  repeat constructor; discriminate.
Qed.

(** What a run leaves: the result, the value, the rest of the input, the code of the error. *)
Definition run (X : htext) (inp : bytes) : option (hres * hvar * option hval * hval) :=
  match tk_make 100 (mk_istream inp) err_clear with
  | Some t =>
      match json_text 40 40 true true X sample (b "read") [HV HCtx; HL (RVar (b "x")) []] (mem [(b "x", VarVal (HM (dflt sample)))] t []) with
      | Some (r, s) => match s_vars s, s_err s with [(_, v)], HObj ((_, e) :: _) => Some (r, v, assoc (s_in s) (b "beg_"), e) | _, _ => None end
      | _ => None
      end
  | None => None
  end.
Example C69_texts : runtime = the_texts.
Proof. exact runtime_is. Qed.
Example C69_executed :
  run the_texts text =
    Some (HV (HI IInt 0),
          VarVal (HM (VMsg [VPrim (VInt (-7)); VField false (VBool true); VList [VField false (VInt 1); VField false (VInt 44)];
                            VMsg [VStr false (b "z"); VB64 (b "ab")]; VList [VMsg [VStr true []; VB64 []]; VMsg [VStr false (b "w"); VB64 []]]])),
          Some (HIt []), HI IErr 0) /\
  match run the_texts (b "{""l"":[1,null]}") with Some (r, _, _, e) => Some (r, e) | None => None end = Some (HV (HI IInt 1), HI IErr 7).
Proof. vm_compute. split; reflexivity. Qed.

(** Other texts do other things: a string where a number is due, elements in front of the others, names that may be missing, characters
    of Base64 taken for others, a member that is left alone. *)
Definition changes (old new text : bytes) : bytes := instead (length old) old new text.
Definition other_num (old new : string) : htext :=
  let t := changes (b old) (b new) json_number_hh in
  HTx (x_stream the_texts) (x_tok the_texts) (x_consts the_texts) (x_free the_texts) (x_bool the_texts)
    (struct_of t "template<typename T> struct json<T, typename std::enable_if<std::is_arithmetic<T>::value>::type>")
    (struct_of t "template<typename T> struct json<field<T>, typename std::enable_if<std::is_arithmetic<T>::value>::type>")
    (x_str the_texts) (x_sfield the_texts) (x_b64 the_texts) (x_arr the_texts).
Definition other_arr (old new : string) : htext :=
  HTx (x_stream the_texts) (x_tok the_texts) (x_consts the_texts) (x_free the_texts) (x_bool the_texts) (x_num the_texts) (x_field the_texts)
    (x_str the_texts) (x_sfield the_texts) (x_b64 the_texts)
    (struct_of (changes (b old) (b new) json_array_hh) "template<typename T> struct json<T, typename std::enable_if<is_container<T>::value>::type >").
Definition other_json (old new : string) : htext :=
  HTx (x_stream the_texts) (x_tok the_texts) (x_consts the_texts) (hfunctions (inner_block (header (changes (b old) (b new) json_hh)) [ns]))
    (x_bool the_texts) (x_num the_texts) (x_field the_texts) (x_str the_texts) (x_sfield the_texts) (x_b64 the_texts) (x_arr the_texts).
Definition other_b64 (old new : string) : htext :=
  HTx (x_stream the_texts) (x_tok the_texts) (x_consts the_texts) (x_free the_texts) (x_bool the_texts) (x_num the_texts) (x_field the_texts)
    (x_str the_texts) (x_sfield the_texts)
    (struct_of (changes (b old) (b new) json_base64_hh) "template <> struct json< std::vector<uint8_t> >") (x_arr the_texts).
Definition result (x : option (hres * hvar * option hval * hval)) : option (hres * hval) :=
  match x with Some (r, _, _, e) => Some (r, e) | None => None end.
Definition member (k : nat) (x : option (hres * hvar * option hval * hval)) : option val :=
  match x with Some (_, VarVal (HM (VMsg l)), _, _) => nth_error l k | _ => None end.
Example C69_tells :
  result (run (other_num "if (tt.id != token_id::NUMBER)" "if (tt.id == token_id::NUMBER)") text) = Some (HV (HI IInt 1), HI IErr 4) /\
  member 2 (run (other_arr "if (result == PGR_OK) value.push_back(temp);" "if (result != PGR_OK) value.push_back(temp);") text) = Some (VList []) /\
  result (run (other_json "if (ctx.tok->expect(token_id::OBJE)) break;" "if (ctx.tok->expect(token_id::ARRE)) break;") text) = Some (HV (HI IInt 1), HI IErr 5) /\
  member 3 (run (other_b64 "return ch - 'A';" "return ch - 'B';") text) = Some (VMsg [VStr false (b "z"); VB64 (b "]Q")]) /\
  member 1 (run (other_num "if (result != PGR_NIL)" "if (result == PGR_NIL)") text) = Some (VField true (VBool false)) /\
  run (other_num "value = string_to_number<T>(tt.value);" "value = string_to_number<T>(tt.id);") text = None.
Proof. vm_compute. repeat split. Qed.
