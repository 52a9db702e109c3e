(** C61: one document after another from a [std::istream]. *)
From Verif Require Import Bytes Num Dbl Types Stream Tokenizer Write Read GenRead StdIn SpecJson SpecErr SpecTok SpecTakes SpecInterp SpecWrite
  SpecFollow Samples SampleProofs AcceptSamples StdInProofs.

(** The result is that of reading the text of the stream (C44), and the call leaves the
    stream with the flag [skipws] it had, and with a suffix of its text or at its end. *)
Theorem C61_any : forall ty0 v s po, exists r v' po' left,
  deserialize ty0 v (had s) po = Some (r, v', po') /\
  read_std ty0 v s po = Some (r, v', po', left_in s left) /\
  match left with Some x => exists m, m <> [] /\ had s = m ++ x | None => True end.
Proof. exact std_any. Qed.
Print Assumptions C61_any.

(** A stream that has failed is not touched. *)
Theorem C61_failed : forall ty0 v s po, si_failed s = true -> exists r v' po',
  deserialize ty0 v [] po = Some (r, v', po') /\ read_std ty0 v s po = Some (r, v', po', s).
Proof. exact std_failed. Qed.
Print Assumptions C61_failed.

(** After a value was read: one token more and one character more are gone. *)
Theorem C61_left : forall ty0 v s po pre post toks v',
  has_ty ty0 v = true -> lookup_ok ty0 -> si_failed s = false ->
  si_text s = pre ++ post -> tokens pre post toks -> takes false ty0 v toks v' ->
  exists left, follows post left /\ read_std ty0 v s po = Some (true, v', clear_params po, left_in s left).
Proof. exact std_left. Qed.
Print Assumptions C61_left.

(** Whether plain [char] is signed does not matter. *)
Theorem C61_plain : forall pc ty0 v s po, plain pc ->
  deserialize_std pc (S (length (si_text s))) (fuel_for (si_text s)) ty0 v s po = read_std ty0 v s po.
Proof. exact std_plain. Qed.
Print Assumptions C61_plain.

Example C61_left_applies : has_ty outer_ty outer_val = true /\ lookup_ok outer_ty /\
  exists pre post toks, odd_doc = pre ++ post /\ tokens pre post toks /\ takes false outer_ty outer_val toks odd_val.
Proof.
  split; [reflexivity|]. split; [apply outer_lookup_ok|].
  eexists _, _, _. split; [|split; [exact odd_tokens|exact odd_takes]]. reflexivity.
Qed.

(** The same for a JSON object or array. *)
Theorem C61_document : forall strict ty0 v s po w j x post v',
  shape ty0 v = true -> lookup_ok ty0 -> si_failed s = false ->
  si_text s = w ++ x ++ post -> ws w -> jtext strict j x -> match j with JArr _ | JObj _ => True | _ => False end ->
  interp ty0 v j = (RGood, v') ->
  exists left, follows post left /\ read_std ty0 v s po = Some (true, v', clear_params po, left_in s left).
Proof. exact std_doc. Qed.
Print Assumptions C61_document.

(** One of the characters [{}[]:,] behind it is gone, and line feeds, and one character. *)
Theorem C61_mark : forall strict ty0 v s po w j x w2 p y v',
  shape ty0 v = true -> lookup_ok ty0 -> si_failed s = false ->
  si_text s = w ++ x ++ w2 ++ p :: y -> ws w -> jtext strict j x -> match j with JArr _ | JObj _ => True | _ => False end ->
  interp ty0 v j = (RGood, v') -> ws w2 -> mark p ->
  read_std ty0 v s po = Some (true, v', clear_params po, left_in s (match past_lf y with [] => None | _ :: r => Some r end)).
Proof. exact marked_doc. Qed.
Print Assumptions C61_mark.

(** Messages written one after another, each followed by such a character and one more,
    are read one after another, and the rest of the stream remains. *)
Theorem C61_round_trip : forall ms g po p c vs, let t := TMsg ms g in
  tables_ok false t -> lookup_ok t -> mark p -> c <> LF ->
  Forall (fun v => jsonable (po_ea po) false t v /\ faithful (po_sn po) t v) vs ->
  exists texts, Forall2 (fun v x => serialize t v po = (true, x, clear_params po)) vs texts /\
    forall tail skip, read_many (length vs) t (SIn (flat_map (fun x => x ++ [p; c]) texts ++ tail) false skip)
      = Some (map (persist t) vs, SIn tail false skip).
Proof. exact std_written. Qed.
Print Assumptions C61_round_trip.

(** Without anything between them, or a line feed, the second is lost... *)
Theorem C61_adjacent_refuted : exists text, serialize inner_ty flag_val None = (true, text, None) /\
  forall sep, sep = [] \/ sep = [LF] -> exists s,
  read_many 2 inner_ty (SIn (text ++ sep ++ text) false true) = Some ([flag_val], s).
Proof. exact std_lost. Qed.
Print Assumptions C61_adjacent_refuted.

(** ... or, without an error, another message is read in its place. *)
Theorem C61_silent_refuted : exists text, serialize odd_ty (odd_set true) None = (true, text, None) /\
  forall sep, sep = [] \/ sep = [LF] -> exists s,
  read_many 2 odd_ty (SIn (text ++ sep ++ text) false true) = Some ([odd_set true; odd_set false], s).
Proof. exact std_misread. Qed.
Print Assumptions C61_silent_refuted.

Example C61_samples : (tables_ok false inner_ty /\ lookup_ok inner_ty /\ jsonable false false inner_ty flag_val /\
    faithful false inner_ty flag_val /\ persist inner_ty flag_val = flag_val) /\
  (tables_ok false odd_ty /\ lookup_ok odd_ty) /\
  forall x, jsonable false false odd_ty (odd_set x) /\ faithful false odd_ty (odd_set x) /\ persist odd_ty (odd_set x) = odd_set x.
Proof. exact (conj flag_fine (conj odd_fine odd_value)). Qed.

Example C61_run : read_many 3 inner_ty (SIn (b "{""flag"":true},;{ }, {}") false true)
  = Some ([flag_val; dflt inner_ty; dflt inner_ty], SIn [] true true).
Proof. vm_compute. reflexivity. Qed.

(** Between two documents the caller may extract a character themself, such as a separator: white
    space before it is taken only with [skipws], which reading has left as it was. *)
Theorem C61_extract : forall s, si_failed s = false -> exists w r, si_text s = w ++ r /\
  (if si_skipws s then Forall blank w /\ match r with c :: _ => ~ blank c | [] => True end else w = []) /\
  si_extract s = match r with [] => (None, SIn [] true (si_skipws s)) | c :: x => (Some c, SIn x false (si_skipws s)) end.
Proof. exact std_extract. Qed.
Print Assumptions C61_extract.
Example C61_extract_runs : exists s, read_std inner_ty (dflt inner_ty) (SIn (b "{""flag"":true}, " ++ [LF] ++ b " x") false true) None = Some (true, flag_val, None, s) /\
  si_extract s = (Some "x"%char, SIn [] false true).
Proof. eexists. split; vm_compute; reflexivity. Qed.

(** What may stand behind a value. *)
Example C61_word : follows (b " true; more") (Some (b " more")) /\ no_token (b "#;").
Proof.
  split; [|exact hash_no_token].
  apply (fo_token (b " ") (b "true") KTrue (b "; more")); [reflexivity|apply kt_true; reflexivity|discriminate].
Qed.
