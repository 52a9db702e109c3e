(** Targets of serialization. *)
From Verif Require Import Bytes BaseProofs Num Dbl Types Stream Tokenizer Write Sinks Samples.

Lemma fold_append o : forall out, fold_left sink_append o out = out ++ o.
Proof.
  induction o as [|c o IH]; intros out; simpl; [now rewrite app_nil_r|].
  rewrite IH. unfold sink_append. rewrite <- app_assoc. reflexivity.
Qed.

Lemma append_lemma t v out po :
  serialize_append t v out po =
  (fst (fst (serialize t v po)), out ++ snd (fst (serialize t v po)), snd (serialize t v po)).
Proof.
  unfold serialize_append. destruct (serialize t v po) as [[r o] po1]. simpl. now rewrite fold_append.
Qed.

Local Open Scope nat_scope.


(** The byte at address [a] after storing [text] from [cur + 1] on, below [stop]. *)
Definition stored (cur stop : nat) (text mem : bytes) (a : nat) : option ascii :=
  if (cur <? a) && (a <? stop) && (a - cur - 1 <? length text)
  then nth_error text (a - cur - 1) else nth_error mem a.

Lemma sink_all text : forall mem cur stop, cur <= stop -> stop <= length mem ->
  exists s, sink_mem_all (MI mem cur stop) text = Some s /\
    length (mi_mem s) = length mem /\ forall a, nth_error (mi_mem s) a = stored cur stop text mem a.
Proof.
  induction text as [|c text IH]; intros mem cur stop L M; cbn [sink_mem_all].
  { eexists. split; [reflexivity|]. split; [reflexivity|]. intros a. unfold stored.
    replace (a - cur - 1 <? length (@nil ascii)) with false by (symmetry; apply Nat.ltb_ge; simpl; lia).
    now rewrite andb_false_r. }
  unfold sink_mem. cbn [mi_cur mi_end mi_mem].
  destruct (Nat.ltb_spec cur stop) as [Lt|Ge].
  - destruct (Nat.leb_spec stop (S cur)) as [E|N].
    + destruct (IH mem (S cur) stop) as (s & -> & Ls & H); [lia..|].
      exists s. split; [reflexivity|]. split; [exact Ls|]. intros a. rewrite H. unfold stored.
      destruct (Nat.ltb_spec (S cur) a), (Nat.ltb_spec cur a), (Nat.ltb_spec a stop); simpl; try lia; reflexivity.
    + destruct (Nat.ltb_spec (S cur) (length mem)); [|lia].
      destruct (IH (set_nth (S cur) c mem) (S cur) stop) as (s & -> & Ls & H'); [lia|rewrite set_nth_length; lia|].
      exists s. split; [reflexivity|]. split; [now rewrite Ls, set_nth_length|]. intros a. rewrite H'.
      unfold stored. cbn [length].
      destruct (Nat.eq_dec a (S cur)) as [->|NE].
      * rewrite nth_error_set_nth_eq by assumption.
        replace (S cur - cur - 1) with 0 by lia.
        destruct (Nat.ltb_spec (S cur) (S cur)), (Nat.ltb_spec cur (S cur)), (Nat.ltb_spec (S cur) stop);
          simpl; try lia; reflexivity.
      * rewrite nth_error_set_nth_neq by congruence.
        destruct (Nat.ltb_spec (S cur) a), (Nat.ltb_spec cur a), (Nat.ltb_spec a stop); simpl; try lia; try reflexivity.
        replace (a - cur - 1) with (S (a - S cur - 1)) by lia. reflexivity.
  - assert (cur = stop) as -> by lia.
    destruct (Nat.leb_spec stop stop); [|lia].
    destruct (IH mem stop stop) as (s & -> & Ls & H'); [lia..|].
    exists s. split; [reflexivity|]. split; [exact Ls|]. intros a. rewrite H'. unfold stored.
    destruct (Nat.ltb_spec stop a), (Nat.ltb_spec a stop); simpl; try lia; reflexivity.
Qed.

Lemma mem_lemma t v mem inp len po : inp + len <= length mem ->
  exists mem', serialize_mem t v mem inp len po
    = Some (fst (fst (serialize t v po)), mem', snd (serialize t v po)) /\
    length mem' = length mem /\
    (forall a, a <= inp \/ inp + len <= a -> nth_error mem' a = nth_error mem a) /\
    (forall i, i + 1 < len -> nth_error mem' (inp + 1 + i)
       = match nth_error (snd (fst (serialize t v po))) i with
         | Some c => Some c | None => nth_error mem (inp + 1 + i) end).
Proof.
  intros L. unfold serialize_mem. destruct (serialize t v po) as [[r o] po1]. cbn [fst snd].
  destruct (sink_all o mem inp (inp + len)) as (s & -> & Ls & H); [lia..|].
  exists (mi_mem s). split; [reflexivity|]. split; [exact Ls|]. split.
  - intros a Ha. rewrite H. unfold stored.
    destruct (Nat.ltb_spec inp a), (Nat.ltb_spec a (inp + len)); simpl; try lia; reflexivity.
  - intros i Hi. rewrite H. unfold stored. replace (inp + 1 + i - inp - 1) with i by lia.
    destruct (Nat.ltb_spec inp (inp + 1 + i)), (Nat.ltb_spec (inp + 1 + i) (inp + len)); try lia.
    simpl. destruct (Nat.ltb_spec i (length o)) as [K|K].
    + destruct (nth_error o i) eqn:E; [reflexivity|]. apply nth_error_None in E. lia.
    + destruct (nth_error o i) eqn:E; [|reflexivity].
      assert (nth_error o i <> None) by congruence. apply nth_error_Some in H2. lia.
Qed.

Lemma C22_text_lemma : exists v mem mem' text,
  has_ty inner_ty v = true /\ serialize inner_ty v None = (true, text, None) /\
  length text < length mem /\
  serialize_mem inner_ty v mem 0 (length mem) None = Some (true, mem', None) /\
  firstn (length text) mem' <> text.
Proof.
  exists (VMsg [VField false (VBool true); VField true (VDbl (DZero false))]), (repeat (chr 42) 20).
  eexists _, _. split; [reflexivity|]. split; [reflexivity|]. split; [vm_compute; lia|].
  split; [vm_compute; reflexivity|]. vm_compute. discriminate.
Qed.

Lemma C22_truncated_lemma : exists v mem mem' text,
  has_ty inner_ty v = true /\ serialize inner_ty v None = (true, text, None) /\
  length mem < length text /\ serialize_mem inner_ty v mem 0 (length mem) None = Some (true, mem', None).
Proof.
  exists (VMsg [VField false (VBool true); VField true (VDbl (DZero false))]), (repeat (chr 42) 5).
  eexists _, _. split; [reflexivity|]. split; [reflexivity|]. split; [vm_compute; lia|].
  vm_compute. reflexivity.
Qed.
