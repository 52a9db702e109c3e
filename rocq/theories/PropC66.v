(** C66: what a std::ostream receives. *)
From Verif Require Import Bytes Num Dbl Types Stream Tokenizer Write Read SpecJson SpecStr SpecWrite SpecInterp SpecDoc
  StdOut SpecOut OutProofs Samples SampleProofs.

(** For every stream buffer ([accepts] tells which characters it takes), object and stream:
    the buffer receives the text of [serialize], the first character padded to the width
    that was set, up to the first character it refuses; the state is good afterwards if
    none was refused.  A stream that is not good is left alone.  The returned value and the
    parameters are those of [serialize] in all these cases. *)
Theorem C66_received : forall accepts t v s po r o po1, serialize t v po = (r, o, po1) ->
  exists s', serialize_std accepts t v s po = (r, s', po1) /\
    (so_good s = false -> s' = s) /\
    (so_good s = true -> exists p, taken accepts (so_text s) (shown s o) p /\ so_text s' = so_text s ++ p /\
       (so_good s' = true <-> p = shown s o) /\ so_left s' = so_left s /\ so_fill s' = so_fill s /\ (o <> [] -> so_width s' = 0)).
Proof. exact received_lemma. Qed.
Print Assumptions C66_received.

(** With no width set and a buffer that takes everything: the text is appended (C24). *)
Theorem C66_plain : forall accepts t v s po r o po1, serialize t v po = (r, o, po1) ->
  so_good s = true -> so_width s <= 1 -> (forall x c, accepts x c = true) ->
  exists s', serialize_std accepts t v s po = (r, s', po1) /\ so_good s' = true /\ so_text s' = so_text s ++ o.
Proof. exact plain_out_lemma. Qed.
Print Assumptions C66_plain.

(** Padding with white space, on either side, does no harm: the object can be read back. *)
Theorem C66_blank : forall accepts ms g v s po, tables_ok false (TMsg ms g) -> lookup_ok (TMsg ms g) ->
  jsonable (po_ea po) false (TMsg ms g) v -> faithful (po_sn po) (TMsg ms g) v ->
  so_good s = true -> ws [so_fill s] -> (forall x c, accepts x c = true) ->
  exists s' text, serialize_std accepts (TMsg ms g) v s po = (true, s', clear_params po) /\
    so_good s' = true /\ so_text s' = so_text s ++ text /\
    forall po2, exists po2',
      deserialize (TMsg ms g) (dflt (TMsg ms g)) text po2 = Some (true, persist (TMsg ms g) v, po2').
Proof. exact blank_lemma. Qed.
Print Assumptions C66_blank.

Definition flagged : val := VMsg [VField false (VBool true); VField true (VDbl (DZero false))].

(** A user relies on [true] meaning that the stream has the text: false for a device with
    room for four characters, and for a stream that had failed before. *)
Theorem C66_reported_refuted : exists accepts s1 s2, so_good s1 = true /\ so_good s2 = false /\
  serialize inner_ty flagged None = (true, b "{""flag"":true}", None) /\
  serialize_std accepts inner_ty flagged s1 None = (true, SOut (b "{""fl") false 0 false " ", None) /\
  serialize_std accepts inner_ty flagged s2 None = (true, s2, None) /\ so_text s2 = [].
Proof.
  exists (fun x _ => Nat.ltb (length x) 4), (SOut [] true 0 false " "), (SOut [] false 0 false " ").
  repeat split; vm_compute; reflexivity.
Qed.
Print Assumptions C66_reported_refuted.

(** A user relies on the text being a document whatever the formatting state: false if
    there is a width and a fill character that is not white space. *)
Theorem C66_fill_refuted : exists s s' v', so_good s = true /\
  serialize_std (fun _ _ => true) inner_ty flagged s None = (true, s', None) /\
  so_text s' = b "00{""flag"":true}" /\
  deserialize inner_ty (dflt inner_ty) (so_text s') None = Some (false, v', None).
Proof.
  exists (SOut [] true 3 false "0"), (SOut (b "00{""flag"":true}") true 0 false "0"), (dflt inner_ty).
  split; [reflexivity|]. split; [vm_compute; reflexivity|]. split; [reflexivity|]. vm_compute. reflexivity.
Qed.
Print Assumptions C66_fill_refuted.

(** A left-adjusted stream of width 4 with room for seven characters. *)
Example C66_example : so_good (SOut (b "x") true 4 true " ") = true /\
  serialize_std (fun x _ => Nat.ltb (length x) 7) inner_ty flagged (SOut (b "x") true 4 true " ") None
    = (true, SOut (b "x{   ""f") false 0 true " ", None) /\
  taken (fun x _ => Nat.ltb (length x) 7) (b "x") (shown (SOut (b "x") true 4 true " ") (b "{""flag"":true}")) (b "{   ""f").
Proof.
  split; [reflexivity|]. split; [vm_compute; reflexivity|].
  cbn [shown so_left so_fill so_width]. repeat (apply tk_one; [reflexivity|]). apply tk_refused. reflexivity.
Qed.

Example C66_plain_applies : so_good (SOut (b "x") true 0 true "*") = true /\ so_width (SOut (b "x") true 0 true "*") <= 1 /\
  serialize_std (fun _ _ => true) inner_ty flagged (SOut (b "x") true 0 true "*") None
  = (true, SOut (b "x{""flag"":true}") true 0 true "*", None).
Proof. split; [reflexivity|]. split; [discriminate|]. vm_compute. reflexivity. Qed.

Example C66_blank_applies : tables_ok false outer_ty /\ lookup_ok outer_ty /\ jsonable false false outer_ty outer_val /\
  faithful false outer_ty outer_val /\ ws [so_fill (SOut [] true 9 true (chr 9))].
Proof.
  split; [apply outer_tables_ok|]. split; [apply outer_lookup_ok|].
  split; [apply jsonable_lax, outer_jsonable|]. split; [apply outer_faithful|]. reflexivity.
Qed.
