(** C70: what the text of json<T>::write (json-number.hh, json-string.hh, json-base64.hh, json-array.hh), of write_escaped_utf8 (json-string.hh) and
    of set_error (json.hh) does, read and executed as C++, for every type and every value. *)
From Verif Require Import Bytes Num Dbl Types Stream Tokenizer Write Read LexView HdrText HText CExec HParse HExec HTok SpecHTok HJson SpecRange
  SpecJson SpecInterp SpecWrite SpecHJson Samples SampleProofs HJsonGlue HSerGlue.

(** The result of the model is the result of the text. *)
Theorem C70_write : forall ea sn ty0 v e r o e', has_ty ty0 v = true -> Z.of_nat (longest v) <= 9223372036854775807 ->
  write ea sn ty0 v e = (r, o, e') -> text_writes ea sn ty0 v e r o e'.
Proof. exact json_write. Qed.
Print Assumptions C70_write.

(** The text has a result for every value, and [serialize] is made of it. *)
Theorem C70_output : forall ty0 v po, has_ty ty0 v = true -> Z.of_nat (longest v) <= 9223372036854775807 ->
  exists r o e', text_writes (ensure_ascii (ctx_params po)) (serialize_null (ctx_params po)) ty0 v (p_err (ctx_params po)) r o e' /\
    serialize ty0 v po =
      (match r with PGR_OK => true | _ => false end, o, match r with PGR_OK => clear_params po | _ => params_set_err (clear_params po) e' end).
Proof. exact json_output. Qed.
Print Assumptions C70_output.

(** There and back (as C04), both directions as the text has them. *)
Theorem C70_back : forall ms g v po, ty_wf (TMsg ms g) -> tables_ok false (TMsg ms g) -> lookup_ok (TMsg ms g) ->
  jsonable (po_ea po) false (TMsg ms g) v -> faithful (po_sn po) (TMsg ms g) v -> has_ty (TMsg ms g) v = true ->
  Z.of_nat (longest v) <= 9223372036854775807 ->
  exists o e', text_writes (ensure_ascii (ctx_params po)) (serialize_null (ctx_params po)) (TMsg ms g) v (p_err (ctx_params po)) PGR_OK o e' /\
    forall po2, Z.of_nat (length o) <= 2147483646 -> exists t t',
      text_gives OTok "next" [] (TK (Tok T_NONE [] 0 0) (mk_istream o) (p_err (ctx_params po2))) (HL RCur []) t /\
      text_reads (TMsg ms g) t (dflt (TMsg ms g)) PGR_OK (persist (TMsg ms g) v) t'.
Proof. exact json_back. Qed.
Print Assumptions C70_back.

(** ** Examples *)
Example C70_applies : ty_wf outer_ty /\ tables_ok false outer_ty /\ lookup_ok outer_ty /\ jsonable false false outer_ty outer_val /\
  faithful false outer_ty outer_val /\ has_ty outer_ty outer_val = true /\ Z.of_nat (longest outer_val) <= 9223372036854775807 /\
  longest outer_val = 5%nat /\ exists ms g, outer_ty = TMsg ms g.
Proof.
  split; [repeat constructor; discriminate|]. split; [apply outer_tables_ok|]. split; [apply outer_lookup_ok|].
  split; [apply jsonable_lax, outer_jsonable|]. split; [apply outer_faithful|]. split; [reflexivity|]. split; [vm_compute; discriminate|].
  split; [reflexivity|eexists _, _; reflexivity].
Qed.

(** What a run leaves: the result, the output, the code of the error. *)
Definition run (X : htext) (ea sn : bool) (t : ty) (v : val) : option (hres * bytes * hval) :=
  match json_text 40 40 ea sn X t (b "write") [HV HCtx; HV (HM v)] (mem [] (TK (Tok T_NONE [] 0 0) (mk_istream []) err_clear) (b ">")) with
  | Some (r, s) => match s_err s with HObj ((_, e) :: _) => Some (r, s_out s, e) | _ => None end
  | None => None
  end.
Definition sample : ty := TRep (TMsg [TField (PInt true 32); TStr; TB64] (GC [(0%nat, b "n"); (1%nat, b "s"); (2%nat, b "b")] false [] [])).
Definition one (n : Z) (s d : bytes) : val := VMsg [VField false (VInt n); VStr false s; VB64 d].
(** U+00E9, U+20AC, U+1F600, a quotation mark; sequences of one, two and three bytes. *)
Definition values : val :=
  VList [one (-7) [chr 195; chr 169; chr 226; chr 130; chr 172] (b "a"); one 0 ([chr 240; chr 159; chr 152; chr 128] ++ b """") (b "ab"); one 1 [] (b "abc")].
Example C70_executed :
  run the_texts true true sample values =
    Some (HV (HI IInt 0), b ">[{""n"":-7,""s"":""\u00e9\u20ac"",""b"":""YQ==""},{""n"":0,""s"":""\ud83d\ude00\"""",""b"":""YWI=""},{""n"":1,""s"":"""",""b"":""YWJj""}]", HI IErr 0) /\
  run the_texts true true TStr (VStr false [chr 65; chr 195; chr 65]) = Some (HV (HI IInt 1), b ">""A", HI IErr 4).
Proof. vm_compute. split; reflexivity. Qed.

(** Other texts do other things: commas behind all elements, other surrogates, characters of three bytes refused, another filler. *)
Definition changes (old new text : bytes) : bytes := instead (length old) old new text.
Definition other_str (old new : string) : htext :=
  HTx (x_stream the_texts) (x_tok the_texts) (x_consts the_texts) (x_free the_texts) (x_bool the_texts) (x_num the_texts) (x_field the_texts)
    (struct_of (changes (b old) (b new) json_string_hh) "template<> struct json<std::string, void>") (x_sfield the_texts) (x_b64 the_texts) (x_arr the_texts).
Definition other_arr (old new : string) : htext :=
  HTx (x_stream the_texts) (x_tok the_texts) (x_consts the_texts) (x_free the_texts) (x_bool the_texts) (x_num the_texts) (x_field the_texts)
    (x_str the_texts) (x_sfield the_texts) (x_b64 the_texts)
    (struct_of (changes (b old) (b new) json_array_hh) "template<typename T> struct json<T, typename std::enable_if<is_container<T>::value>::type >").
Definition other_b64 (old new : string) : htext :=
  HTx (x_stream the_texts) (x_tok the_texts) (x_consts the_texts) (x_free the_texts) (x_bool the_texts) (x_num the_texts) (x_field the_texts)
    (x_str the_texts) (x_sfield the_texts)
    (struct_of (changes (b old) (b new) json_base64_hh) "template <> struct json< std::vector<uint8_t> >") (x_arr the_texts).
Definition output (x : option (hres * bytes * hval)) : option bytes := match x with Some (_, o, _) => Some o | None => None end.
Example C70_tells :
  output (run (other_arr "if (i + 1 < t)" "if (i < t)") true true (TRep (TField PBool)) (VList [VField false (VBool true)])) = Some (b ">[true,]") /\
  output (run (other_str "codepoint >> 10" "codepoint >> 11") true true TStr (VStr false [chr 240; chr 159; chr 152; chr 128])) = Some (b ">""\ud7fe\ude00""") /\
  run (other_str "byte1 <= 0xEF" "byte1 <= 0xE0") true true TStr (VStr false [chr 226; chr 130; chr 172]) = Some (HV (HI IInt 1), b ">""", HI IErr 4) /\
  output (run (other_b64 "if (size - i == 2)" "if (size - i == 1)") true true TB64 (VB64 (b "a"))) = None /\
  output (run (other_b64 "o[3] = '=';" "o[2] = '=';") true true TB64 (VB64 (b "a"))) = Some (b ">""YQ=""").
Proof. vm_compute. repeat split. Qed.

(** snprintf by hand: the digits of "%04x", the room for a null. *)
Example C70_library :
  map hex_width [0; 65535; 65536; 1048575; 1048576; 16777215; 16777216; 268435455; 268435456] = [4; 4; 5; 5; 6; 6; 7; 7; 8]%nat /\
  hex_digits 5 66051 = b "10203" /\
  snprintf 1 (b "ab") [HI IChar 7; HI IChar 8] = Some [HI IChar 0; HI IChar 8] /\
  snprintf 2 (b "ab") [HI IChar 7; HI IChar 8] = Some [HI IChar 97; HI IChar 0] /\
  snprintf 0 (b "ab") [HI IChar 7; HI IChar 8] = None /\ snprintf 3 (b "ab") [HI IChar 7; HI IChar 8] = None.
Proof. vm_compute. repeat split. Qed.
