(** C67: what the text of the generated classes does, read and executed as C++. *)
From Verif Require Import Bytes Num Types Stream Tokenizer Read Write ProtoLex ProtoParse Cpp Gen MainC RealBuild SpecCpp SpecFile SpecGen SpecEnd BackSamples EndSamples RealFine CLex CParse CExec SpecText CProgramProofs.

(** For every schema that compiles: the file printed is the runtime, the introduction, a [body]
    and the end; the body, cut into tokens, read as declarations and functions, declares the
    classes of the schema in order; the words of the members denote their types; and their
    functions [read], [write], [empty], [clear], [equal], [swap] and [index], executed statement
    by statement, do what the runtime model does. *)
Theorem C67_text : forall cfg srt text path p env, build_fine cfg -> permutes srt -> word_text (b_naming cfg) -> parse text path = POk p -> compiles cfg srt text path env ->
  exists h cs body, run_text cfg srt text path =
    CExit 0 [] (headers_text cfg h ++ head_text (b_version cfg) path (guard_of path) ++ body ++ ln (b "#endif // " ++ guard_of path)) (Some (h, cs)) /\
    program_ty h cs = Some env /\ declares (b_naming cfg) h body env.
Proof. exact schema_declares. Qed.
Print Assumptions C67_text.

Example C67_applies : build_fine bare /\ permutes (fun l => l) /\ word_text (b_naming bare) /\ parse pair_text (b "f") = POk pair /\
  compiles bare (fun l => l) pair_text (b "f") [([], b "A", pair_A); ([], b "B", pair_B)].
Proof. exact (conj bare_fine (conj id_permutes (conj eq_refl (conj pair_parsed pair_compiles)))). Qed.
Example C67_pinned : build_fine real_build /\ word_text (b_naming real_build).
Proof. exact (conj real_build_fine eq_refl). Qed.

(** The semantics tells texts apart: a class with two members and several bodies of [equal]. *)
Definition equal_unit (body : string) : bytes :=
  b "namespace p {" ++ [LF] ++ b "struct M_type { protogen_1::field<bool> x; // one" ++ [LF] ++ b "std::vector< ::p::N> y; }; }" ++
  b "namespace protogen_1 { template<> struct json< ::p::M_type> { static bool equal(const ::p::M_type &a, const ::p::M_type &b) {" ++
  b body ++ b "} }; }" ++
  b "namespace p { PG_1_ENTITY(M, ::p::M_type, protogen_1::json< ::p::M_type>) }" ++
  b "PG_1_ENTITY_SERIALIZER( ::p::M, ::p::M_type, protogen_1::json< ::p::M_type>)" ++ [LF].
Definition equal_run (body : string) : option (option ty * option bool) :=
  match unit_of (equal_unit body) with
  | Some ds =>
      match classes_in (b "_1") ds with
      | Some [c] =>
          let hd := Hdr true true true true in
          let ts := all_some (map (fun m => resolve (b "_1") hd [(b "p", b "N", TStr)] (fst m)) (tc_members c)) in
          Some (match ts with Some [_; t] => Some t | _ => None end,
                match ts with
                | Some l => text_equal false (map snd (tc_members c)) (map (funs 9 false false) l) (tc_type c) (tc_funcs c)
                              [VField false (VBool true); VList [VStr false (b "s")]] [VField false (VBool true); VList [VStr false (b "t")]]
                | None => None
                end)
      | _ => None
      end
  | None => None
  end.
Example C67_executed : map equal_run
  ["return json<decltype(a.x)>::equal(a.x, b.x) && json<decltype(a.y)>::equal(a.y, b.y);";
   "return json<decltype(a.x)>::equal(a.x, b.x);";
   "return json<decltype(a.x)>::equal(a.x, b.x) || json<decltype(a.y)>::equal(a.y, b.y);";
   "bool r = json<decltype(a.y)>::equal(a.y, b.y); r = !r && true; return r;";
   "if (!json<decltype(a.y)>::equal(a.y, a.y)) return true; return false;";
   "return json<decltype(a.x)>::equal(a.z, b.x);";
   "json<decltype(a.x)>::equal(a.x, b.x);";
   "return json<decltype(a.x)>::equal(a.x, b.x;"]%string =
  [Some (Some (TRep TStr), Some false); Some (Some (TRep TStr), Some true); Some (Some (TRep TStr), Some true); Some (Some (TRep TStr), Some true);
   Some (Some (TRep TStr), Some false); Some (Some (TRep TStr), None); Some (Some (TRep TStr), None); None].
Proof. vm_compute. reflexivity. Qed.
