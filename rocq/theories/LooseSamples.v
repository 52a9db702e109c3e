(** Concrete strings for C57. *)
From Verif Require Import Bytes BaseProofs Num Dbl Types Stream Tokenizer Write Read SpecJson SpecLoose LooseProofs.

Definition not_utf8 : list (bytes * bytes * option bytes) :=
  [ ([chr 192; chr 175], b """\u002f""", None);
    (b "a" ++ [chr 237; chr 160; chr 128] ++ b "b", b """a\ud800b""", Some (b "ab"));
    ([chr 244; chr 144; chr 128; chr 128], b """\udc00\udc00""", None);
    ([chr 240; chr 130; chr 130; chr 172], b """\ud7c8\udcac""", None) ].

Lemma not_utf8_lost s text v : In (s, text, v) not_utf8 ->
  ~ utf8 s /\ ~ In NUL s /\ write true false TStr (VStr false s) err_clear = (PGR_OK, text, err_clear) /\
  exists r v', deserialize TStr (VStr true []) text None = Some (r, VStr false v', None) /\
    match v with Some x => r = true /\ v' = x | None => r = false end.
Proof.
  intros H. cbn [not_utf8 In] in H.
  assert (N : ~ In NUL s).
  { repeat match goal with H : _ \/ _ |- _ => destruct H as [H|H] end; try contradiction H; injection H as <- _ _; vm_compute; intuition discriminate. }
  assert (W : write true false TStr (VStr false s) err_clear = (PGR_OK, text, err_clear)).
  { repeat match goal with H : _ \/ _ |- _ => destruct H as [H|H] end; try contradiction H; injection H as <- <- _; vm_compute; reflexivity. }
  assert (D : exists r v', deserialize TStr (VStr true []) text None = Some (r, VStr false v', None) /\
    (match v with Some x => r = true /\ v' = x | None => r = false end) /\ (r = true -> v' <> s)).
  { repeat match goal with H : _ \/ _ |- _ => destruct H as [H|H] end; try contradiction H; injection H as <- <- <-;
    (eexists _, _; split; [vm_compute; reflexivity|]; split; [repeat split|discriminate]). }
  destruct D as (r & v' & D & M & NE). split; [|split; [exact N|split; [exact W|eauto]]].
  intros U. destruct (read_back s text false err_clear None W) as [_ B]. destruct (B (conj U N)) as [po' B'].
  rewrite D in B'. injection B' as -> -> _. now apply NE.
Qed.

Lemma loose_example : written_as true (b "a/" ++ [chr 195; chr 169]) (b "a\/\u00e9") /\
  written_as false (b "a/" ++ [chr 195; chr 255]) (b "a\/" ++ [chr 195; chr 255]) /\ stuck [chr 195; chr 195; chr 169] /\
  write true false TStr (VStr false (b "a" ++ [chr 195; chr 195; chr 169])) err_clear =
    (PGR_ERROR, b """a", EI PGERR_INVALID_VALUE (b "invalid UTF-8 code point") 0 0) /\
  (exists text, write true false TStr (VStr false (b "a" ++ [chr 195; chr 169])) err_clear = (PGR_OK, text, err_clear)).
Proof.
  assert (P : forall ea s t, written_as ea s t -> written_as ea (b "a/" ++ s) (b "a\/" ++ t)).
  { intros ea s t W. apply wa_plain; [reflexivity|intros e X; inversion X|]. apply wa_short; [constructor|exact W]. }
  split; [|split; [|split; [|split]]].
  - apply (P true [chr 195; chr 169] (b "\u00e9")).
    refine (wa_seq true [chr 195; chr 169] [233] [] [] eq_refl _ (wa_nil true)).
    refine (su_2 (chr 195) (chr 169) _ _); [split; discriminate|split; [discriminate|reflexivity]].
  - apply (P false [chr 195; chr 255]). do 2 (apply wa_high; [reflexivity|discriminate|]). constructor.
  - eexists _, _. split; [reflexivity|]. split; [discriminate|]. intros q us y S E.
    destruct S as [c1 c2 R C|c1 c2 c3 R C|c1 c2 c3 c4 cp R C]; injection E as <- <-; try (vm_compute in R; intuition discriminate);
      destruct C as [_ C]; vm_compute in C; discriminate C.
  - vm_compute. reflexivity.
  - eexists. vm_compute. reflexivity.
Qed.
