(** Every implementation of the stream interface that simulates the list-based one
    gives the same results. *)
From Verif Require Import Bytes BaseProofs Num Dbl Types Stream Tokenizer Write Read GenRead Termination FuelMono RelProofs.

(** ** Two promotions of one byte *)
Definition alike (x y : Z) : Prop := x = y \/ (x mod 256 = y mod 256 /\ (x < 0 \/ 128 <= x) /\ (y < 0 \/ 128 <= y)).

Lemma alike_plain pc c : plain pc -> alike (pc c) (schar c).
Proof.
  intros [-> | ->]; [now left|]. unfold alike, schar. pose proof (code_range c). destruct (Z.ltb_spec (code c) 128); [now left|]. right.
  split; [|lia]. replace (code c - 256) with (code c + (-1) * 256) by lia. now rewrite Z.mod_add.
Qed.

Ltac alk := let H := fresh in let A := fresh in intros [-> |(A & H)]; [reflexivity|].
Lemma alike_chr x y : alike x y -> chr x = chr y.
Proof. unfold chr. intros [-> |(A & _)]; [reflexivity|]. now rewrite A. Qed.
Lemma alike_eqb x y k : 0 <= k < 128 -> alike x y -> (x =? k) = (y =? k).
Proof. intros K. alk. destruct (Z.eqb_spec x k), (Z.eqb_spec y k); lia. Qed.
Lemma alike_alpha x y : alike x y -> is_alpha_z x = is_alpha_z y.
Proof. alk. unfold is_alpha_z. lia. Qed.
Lemma alike_num x y : alike x y -> is_num_z x = is_num_z y.
Proof. alk. unfold is_num_z. lia. Qed.
Lemma alike_num_start x y : alike x y -> is_num_start_z x = is_num_start_z y.
Proof. alk. unfold is_num_start_z. lia. Qed.
Lemma alike_ws x y : alike x y -> is_ws_z x = is_ws_z y.
Proof. alk. unfold is_ws_z. lia. Qed.
Lemma alike_hex x y : alike x y -> is_hex_z x = is_hex_z y.
Proof. alk. unfold is_hex_z. lia. Qed.
Lemma alike_hex_val x y : alike x y -> is_hex_z x = true -> hex_val x = hex_val y.
Proof. intros [-> |(A & H)]; [reflexivity|]. unfold is_hex_z. lia. Qed.
Lemma alike_punct x y : alike x y -> punct x = punct y.
Proof. intros A. unfold punct. now rewrite !(alike_eqb x y) by (lia || exact A). Qed.
Lemma alike_short x y : alike x y -> short_escape x = short_escape y.
Proof. intros A. unfold short_escape. now rewrite !(alike_eqb x y) by (lia || exact A). Qed.
Lemma alike_b64 x y : alike x y -> b64_int x = b64_int y.
Proof.
  intros A. unfold b64_int. rewrite !(alike_eqb x y) by (lia || exact A). destruct A as [-> |(A & H)]; [reflexivity|].
  repeat match goal with |- context [(?a <=? ?c) && (?d <=? ?e)] => replace ((a <=? c) && (d <=? e)) with false by lia end. reflexivity.
Qed.
Lemma plain_decode pc : plain pc -> forall text, g_b64_decode pc text = b64_decode text.
Proof.
  intros P. fix IH 1. intros [|c0 [|c1 [|c2 [|c3 r]]]]; try reflexivity. cbn [g_b64_decode b64_decode]. rewrite IH.
  now rewrite !(fun c => alike_b64 _ _ (alike_plain pc c P)).
Qed.

Section Sim.
  Context {ST : Type} (pc : ascii -> Z) (Hpc : plain pc) (ops : stream_ops ST) (R : ST -> istream -> Prop).
  Hypothesis Hpeek : forall x s, R x s -> exists z, so_peek ops x = Some z /\ alike z (is_peek s).
  Hypothesis Heof : forall x s, R x s -> so_eof ops x = Some (is_eof s).
  Hypothesis Hnext : forall x s, R x s -> exists x', so_next ops x = Some x' /\ R x' (is_next s).
  Hypothesis Hline : forall x s, R x s -> so_line ops x = is_line s.
  Hypothesis Hcol : forall x s, R x s -> so_col ops x = is_col s.

  Ltac pk H := let z := fresh "z" in let Z := fresh "Z" in destruct (Hpeek _ _ H) as (z & -> & Z);
    rewrite ?(alike_alpha _ _ Z), ?(alike_num _ _ Z), ?(alike_num_start _ _ Z), ?(alike_ws _ _ Z), ?(alike_hex _ _ Z),
      ?(alike_punct _ _ Z), ?(alike_short _ _ Z), ?(alike_chr _ _ Z),
      ?(alike_eqb _ _ 34 ltac:(lia) Z), ?(alike_eqb _ _ 92 ltac:(lia) Z), ?(alike_eqb _ _ 117 ltac:(lia) Z), ?(alike_eqb _ _ 0 ltac:(lia) Z).
  Ltac ef H := rewrite (Heof _ _ H).
  Ltac nx H x' H' := destruct (Hnext _ _ H) as (x' & -> & H').

  Lemma sim_identifier n : forall x s acc v s', R x s -> parse_identifier n s acc = Some (v, s') ->
    exists x', g_identifier ops n x acc = Some (v, x') /\ R x' s'.
  Proof.
    induction n as [|n IH]; intros x s acc v s' H A; [discriminate A|]. simpl in *.
    ef H. destruct (is_eof s); [injection A as <- <-; eauto|]. pk H.
    destruct (is_alpha_z (is_peek s)); [|injection A as <- <-; eauto]. nx H x1 H1. eauto.
  Qed.

  Lemma sim_number_loop n : forall x s acc v s', R x s -> parse_number_loop n s acc = Some (v, s') ->
    exists x', g_number_loop ops n x acc = Some (v, x') /\ R x' s'.
  Proof.
    induction n as [|n IH]; intros x s acc v s' H A; [discriminate A|]. simpl in *.
    ef H. destruct (is_eof s); [injection A as <- <-; eauto|]. pk H.
    destruct (is_num_z (is_peek s)); [|injection A as <- <-; eauto]. nx H x1 H1. eauto.
  Qed.

  Lemma sim_hex k : forall x s acc v s', R x s -> read_hex k s acc = (v, s') ->
    exists x', g_hex ops k x acc = Some (v, x') /\ R x' s'.
  Proof.
    induction k as [|k IH]; intros x s acc v s' H A; cbn [read_hex g_hex] in *.
    { injection A as <- <-. eauto. }
    nx H x1 H1. destruct (Hpeek _ _ H1) as (z & -> & Z). rewrite (alike_hex _ _ Z). destruct (is_hex_z (is_peek (is_next s))) eqn:X; [|injection A as <- <-; eauto].
    rewrite (alike_hex_val _ _ Z) by now rewrite (alike_hex _ _ Z). eauto.
  Qed.

  Lemma sim_escaped x s value lead v s' : R x s -> parse_escaped_utf8 s value lead = (v, s') ->
    exists x', g_escaped_utf8 ops x value lead = Some (v, x') /\ R x' s'.
  Proof.
    unfold parse_escaped_utf8, g_escaped_utf8. intros H A.
    destruct (read_hex 4 s 0) as [c s1] eqn:E. destruct (sim_hex _ _ _ _ _ _ H E) as (x1 & -> & H1).
    destruct c as [cp|]; [|injection A as <- <-; eauto]. exists x1.
    repeat match type of A with context [if ?c then _ else _] => destruct c end;
      injection A as <- <-; auto.
  Qed.

  Lemma sim_string_loop n : forall x s lead value line col tok s', R x s ->
    parse_string_loop n s lead value line col = Some (tok, s') ->
    exists x', g_string_loop ops n x lead value line col = Some (tok, x') /\ R x' s'.
  Proof.
    induction n as [|n IH]; intros x s lead value line col tok s' H A; [discriminate A|].
    cbn [parse_string_loop g_string_loop] in *. ef H.
    destruct (is_eof s); [injection A as <- <-; eauto|]. nx H x1 H1. pk H1.
    destruct (is_peek (is_next s) =? 34). { nx H1 x2 H2. injection A as <- <-. eauto. }
    destruct (is_peek (is_next s) =? 92).
    - nx H1 x2 H2. pk H2. destruct (short_escape (is_peek (is_next (is_next s)))); [eauto|].
      destruct (is_peek (is_next (is_next s)) =? 117); [|injection A as <- <-; eauto].
      destruct (parse_escaped_utf8 (is_next (is_next s)) value lead) as [u s3] eqn:E.
      destruct (sim_escaped _ _ _ _ _ _ H2 E) as (x3 & -> & H3).
      destruct u as [[v' l']|]; [eauto|]. injection A as <- <-. eauto.
    - destruct (is_peek (is_next s) =? 0); [injection A as <- <-; eauto|eauto].
  Qed.

  Lemma sim_next_loop n : forall x s tok s', R x s -> next_loop n s = Some (tok, s') ->
    exists x', g_next_loop ops n x = Some (tok, x') /\ R x' s'.
  Proof.
    induction n as [|n IH]; intros x s tok s' H A; [discriminate A|].
    cbn [next_loop g_next_loop] in *. ef H. rewrite (Hline _ _ H), (Hcol _ _ H).
    destruct (is_eof s); [injection A as <- <-; eauto|]. pk H.
    destruct (is_ws_z (is_peek s)). { nx H x1 H1. eauto. }
    destruct (punct (is_peek s)). { nx H x1 H1. injection A as <- <-. eauto. }
    destruct (is_peek s =? 34) eqn:Q.
    { unfold parse_string, g_string in *. pk H. rewrite Q in *.
      rewrite (Hline _ _ H), (Hcol _ _ H). eapply sim_string_loop; eauto. }
    destruct (is_num_start_z (is_peek s)).
    { unfold parse_number, g_number in *.
      destruct (parse_number_loop n s []) as [[v s1]|] eqn:E; [|discriminate A].
      destruct (sim_number_loop _ _ _ _ _ _ H E) as (x1 & -> & H1).
      rewrite (Hline _ _ H), (Hcol _ _ H). injection A as <- <-. eauto. }
    destruct (parse_identifier n s []) as [[v s1]|] eqn:E; [|discriminate A].
    destruct (sim_identifier _ _ _ _ _ _ H E) as (x1 & -> & H1).
    destruct (bytes_eqb v (b "true")); [injection A as <- <-; eauto|].
    destruct (bytes_eqb v (b "false")); [injection A as <- <-; eauto|].
    destruct (bytes_eqb v (b "null")); injection A as <- <-; eauto.
  Qed.

  (** ** Tokenizers *)
  Definition RT (g : gtok) (t : tokenizer) : Prop :=
    gk_cur g = tk_cur t /\ gk_err g = tk_err t /\ R (gk_in g) (tk_in t).

  Lemma RT_id g t : RT g t -> gk_id g = tk_id t.
  Proof. intros (A & _). unfold gk_id, tk_id. now rewrite A. Qed.
  Lemma RT_val g t : RT g t -> gk_cur g = tk_cur t.
  Proof. now intros (A & _). Qed.
  Lemma RT_err g t : RT g t -> gk_err g = tk_err t.
  Proof. now intros (_ & A & _). Qed.

  Lemma sim_next n g t t' : RT g t -> tk_next n t = Some t' -> exists g', g_next ops n g = Some g' /\ RT g' t'.
  Proof.
    intros (C & E & H) A. unfold tk_next, g_next in *.
    destruct (next_loop n (tk_in t)) as [[tok s]|] eqn:N; [|discriminate A]. injection A as <-.
    destruct (sim_next_loop _ _ _ _ _ H N) as (x & -> & H1). eexists. split; [reflexivity|].
    split; [reflexivity|]. split; [exact E|exact H1].
  Qed.

  Lemma sim_expect n id g t y t' : RT g t -> tk_expect n id t = Some (y, t') ->
    exists g', g_expect ops n id g = Some (y, g') /\ RT g' t'.
  Proof.
    intros H A. unfold tk_expect, g_expect in *. rewrite (RT_id _ _ H).
    destruct (tid_eqb (tk_id t) id); [|injection A as <- <-; eauto].
    destruct (tk_next n t) as [t1|] eqn:N; [|discriminate A]. injection A as <- <-.
    destruct (sim_next _ _ _ _ H N) as (g' & -> & H1). eauto.
  Qed.

  Lemma sim_error c msg g t : RT g t -> RT (g_error c msg g) (tk_error c msg t).
  Proof.
    intros (C & E & H). unfold g_error, tk_error. rewrite C, E.
    destruct (e_code (tk_err t)); (split; [|split]); auto.
  Qed.

  (** Tactics: follow one step of the model. *)
  Ltac nxt A n t H :=
    let t1 := fresh "t" in let N := fresh "N" in let g1 := fresh "g" in let H1 := fresh "H" in
    destruct (tk_next n t) as [t1|] eqn:N; [|discriminate A];
    destruct (sim_next _ _ _ _ H N) as (g1 & -> & H1).
  Ltac expct A n id t H :=
    let t1 := fresh "t" in let y := fresh "y" in let N := fresh "N" in let g1 := fresh "g" in let H1 := fresh "H" in
    destruct (tk_expect n id t) as [[y t1]|] eqn:N; [|discriminate A];
    destruct (sim_expect _ _ _ _ _ _ H N) as (g1 & -> & H1); destruct y.
  Ltac fin A := unfold rfail, g_fail, ign_fail, g_ign_fail in *; injection A as <- <- <-;
    eexists; split; [reflexivity|auto using sim_error].
  Ltac fin2 A := unfold ign_fail, g_ign_fail in *; injection A as <- <-;
    eexists; split; [reflexivity|auto using sim_error].

  Definition sim2 {A} (f : gtok -> option (A * gtok)) (f' : tokenizer -> option (A * tokenizer)) : Prop :=
    forall g t x t1, RT g t -> f' t = Some (x, t1) -> exists g1, f g = Some (x, g1) /\ RT g1 t1.

  Lemma g_ignore_value_S n t : g_ignore_value ops (S n) t =
        match gk_id t with
        | T_NONE | T_EOS => g_ign_fail (b "end of stream") t
        | T_OBJS => let? t1 := g_next ops n t in g_ignore_object_loop ops n t1
        | T_ARRS => let? t1 := g_next ops n t in g_ignore_array_loop ops n t1
        | T_STRING | T_NUMBER | T_NIL | T_BTRUE | T_BFALSE =>
            let? t1 := g_next ops n t in
            match gk_id t1 with
            | T_NONE | T_EOS => g_ign_fail (b "end of stream") t1
            | _ => Some (PGR_OK, t1)
            end
        | _ => g_ign_fail (b "invalid value") t
        end.
  Proof. reflexivity. Qed.
  Lemma g_ignore_array_loop_S n t : g_ignore_array_loop ops (S n) t =
        let finish t :=
          match g_expect ops n T_ARRE t with
          | None => None
          | Some (true, t') => Some (PGR_OK, t')
          | Some (false, t') => g_ign_fail (b "invalid array") t'
          end in
        if tid_eqb (gk_id t) T_ARRE then finish t
        else match g_ignore_value ops n t with
             | None => None
             | Some (PGR_OK, t1) =>
                 match g_expect ops n T_COMMA t1 with
                 | None => None
                 | Some (true, t2) => g_ignore_array_loop ops n t2
                 | Some (false, t2) => finish t2
                 end
             | Some (r, t1) => Some (r, t1)
             end.
  Proof. reflexivity. Qed.
  Lemma g_ignore_object_loop_S n t : g_ignore_object_loop ops (S n) t =
        let finish t :=
          match g_expect ops n T_OBJE t with
          | None => None
          | Some (true, t') => Some (PGR_OK, t')
          | Some (false, t') => g_ign_fail (b "invalid object") t'
          end in
        if tid_eqb (gk_id t) T_OBJE then finish t
        else match g_expect ops n T_STRING t with
             | None => None
             | Some (false, t1) => g_ign_fail (b "expected field name") t1
             | Some (true, t1) =>
                 match g_expect ops n T_COLON t1 with
                 | None => None
                 | Some (false, t2) => g_ign_fail (b "expected colon") t2
                 | Some (true, t2) =>
                     match g_ignore_value ops n t2 with
                     | None => None
                     | Some (PGR_OK, t3) =>
                         match g_expect ops n T_COMMA t3 with
                         | None => None
                         | Some (true, t4) => g_ignore_object_loop ops n t4
                         | Some (false, t4) => finish t4
                         end
                     | Some (r, t3) => Some (r, t3)
                     end
                 end
             end.
  Proof. reflexivity. Qed.

  Lemma sim_ignore n :
    sim2 (g_ignore_value ops n) (ignore_value n) /\
    sim2 (g_ignore_array_loop ops n) (ignore_array_loop n) /\
    sim2 (g_ignore_object_loop ops n) (ignore_object_loop n).
  Proof.
    induction n as [|n (IV & IA & IO)]; [split; [|split]; intros ? ? ? ? _ A; discriminate A|].
    split; [|split]; intros g t x t1 H A;
      cbn [ignore_value ignore_array_loop ignore_object_loop] in *;
      rewrite ?g_ignore_value_S, ?g_ignore_array_loop_S, ?g_ignore_object_loop_S;
      rewrite (RT_id _ _ H).
    - destruct (tk_id t); try (fin2 A; fail); nxt A n t H; eauto;
        rewrite (RT_id _ _ H0); destruct (tk_id t0); fin2 A.
    - assert (F : forall g t, RT g t ->
        match tk_expect n T_ARRE t with
        | Some (true, t') => Some (PGR_OK, t')
        | Some (false, t') => ign_fail (b "invalid array") t'
        | None => None end = Some (x, t1) ->
        exists g1, match g_expect ops n T_ARRE g with
        | Some (true, t') => Some (PGR_OK, t')
        | Some (false, t') => g_ign_fail (b "invalid array") t'
        | None => None end = Some (x, g1) /\ RT g1 t1).
      { clear g t H A. intros g t H A. expct A n T_ARRE t H; fin2 A. }
      destruct (tid_eqb (tk_id t) T_ARRE); [eapply F; eauto|].
      destruct (ignore_value n t) as [[r t2]|] eqn:E; [|discriminate A].
      destruct (IV _ _ _ _ H E) as (g2 & -> & H2).
      destruct r; try (fin2 A; fail). expct A n T_COMMA t2 H2; [eauto|eapply F; eauto].
    - assert (F : forall g t, RT g t ->
        match tk_expect n T_OBJE t with
        | Some (true, t') => Some (PGR_OK, t')
        | Some (false, t') => ign_fail (b "invalid object") t'
        | None => None end = Some (x, t1) ->
        exists g1, match g_expect ops n T_OBJE g with
        | Some (true, t') => Some (PGR_OK, t')
        | Some (false, t') => g_ign_fail (b "invalid object") t'
        | None => None end = Some (x, g1) /\ RT g1 t1).
      { clear g t H A. intros g t H A. expct A n T_OBJE t H; fin2 A. }
      destruct (tid_eqb (tk_id t) T_OBJE); [eapply F; eauto|].
      expct A n T_STRING t H; [|fin2 A]. expct A n T_COLON t0 H0; [|fin2 A].
      destruct (ignore_value n t2) as [[r t3]|] eqn:E; [|discriminate A].
      destruct (IV _ _ _ _ H1 E) as (g3 & -> & H3).
      destruct r; try (fin2 A; fail). expct A n T_COMMA t3 H3; [eauto|eapply F; eauto].
  Qed.

  Definition simr {A} (f : gtok -> A -> gres A) (f' : tokenizer -> A -> rres A) : Prop :=
    forall g t v r x t1, RT g t -> f' t v = Some (r, x, t1) ->
      exists g1, f g v = Some (r, x, g1) /\ RT g1 t1.

  Lemma sim_prim n p : simr (g_read_prim ops n p) (read_prim n p).
  Proof.
    intros g t v r x t1 H A. unfold read_prim, g_read_prim in *.
    rewrite (RT_id _ _ H), (RT_val _ _ H).
    destruct (tk_id t), p; try (fin A; fail); nxt A n t H; fin A.
  Qed.

  Lemma sim_array_loop n nf rd rd' d : simr rd rd' -> simr (g_array_loop ops n nf rd d) (array_loop n nf rd' d).
  Proof.
    intros S. induction n as [|n IH]; intros g t v r x t1 H A; [discriminate A|]. simpl in *.
    destruct (rd' t d) as [[[r1 x1] t2]|] eqn:E; [|discriminate A].
    destruct (S _ _ _ _ _ _ H E) as (g2 & -> & H2).
    destruct r1; [|fin A|];
      (expct A nf T_COMMA t2 H2; [eapply IH; eauto|];
       match goal with K : RT ?g ?t, A : context [tk_expect nf T_ARRE ?t] |- _ => expct A nf T_ARRE t K end;
       fin A).
  Qed.

  Lemma sim_array n rd rd' d : simr rd rd' -> simr (g_read_array ops n rd d) (read_array n rd' d).
  Proof.
    intros S g t v r x t1 H A. unfold read_array, g_read_array in *. rewrite (RT_id _ _ H).
    destruct (tk_id t); try (fin A; fail);
      (expct A n T_ARRS t H; [|fin A]; expct A n T_ARRE t0 H0; [fin A|];
       eapply sim_array_loop; eauto).
  Qed.

  Lemma sim_object_loop n nf rf rf' : (forall name, simr (rf name) (rf' name)) ->
    simr (g_object_loop ops n nf rf) (object_loop n nf rf').
  Proof.
    intros S. induction n as [|n IH]; intros g t v r x t1 H A; [discriminate A|].
    cbn [object_loop g_object_loop] in *. rewrite (RT_val _ _ H).
    expct A nf T_STRING t H; [|fin A]. expct A nf T_COLON t0 H0; [|fin A].
    destruct (rf' (t_val (tk_cur t)) t2 v) as [[[r1 x1] t3]|] eqn:E; [|discriminate A].
    destruct (S _ _ _ _ _ _ _ H1 E) as (g3 & -> & H3).
    destruct r1; [|fin A|].
    - expct A nf T_COMMA t3 H3; [eapply IH; eauto|].
      match goal with K : RT ?g ?t, A : context [tk_expect nf T_OBJE ?t] |- _ => expct A nf T_OBJE t K end; fin A.
    - destruct (ignore_value nf t3) as [[r4 t4]|] eqn:E4; [|discriminate A].
      destruct (proj1 (sim_ignore nf) _ _ _ _ H3 E4) as (g4 & -> & H4).
      destruct r4; [|fin A|];
        (expct A nf T_COMMA t4 H4; [eapply IH; eauto|];
         match goal with K : RT ?g ?t, A : context [tk_expect nf T_OBJE ?t] |- _ => expct A nf T_OBJE t K end; fin A).
  Qed.

  Lemma sim_object n rf rf' : (forall name, simr (rf name) (rf' name)) ->
    simr (g_read_object ops n rf) (read_object n rf').
  Proof.
    intros S g t v r x t1 H A. unfold read_object, g_read_object in *. rewrite (RT_id _ _ H).
    destruct (tk_id t); try (fin A; fail);
      (expct A n T_OBJS t H; [|fin A]; expct A n T_OBJE t0 H0; [fin A|];
       eapply sim_object_loop; eauto).
  Qed.

  Lemma sim_read n ty0 : simr (g_read pc ops n ty0) (read n ty0).
  Proof.
    induction ty0 using ty_ind2; intros g0 t v r x t1 Ht A; cbn [read g_read] in *;
      destruct v; try (fin A; fail).
    - destruct (read_prim n p t p0) as [[[r1 x1] t2]|] eqn:E; [|discriminate A].
      destruct (sim_prim n p _ _ _ _ _ _ Ht E) as (g2 & -> & H2). simpl in *. fin A.
    - unfold read_fieldnum, g_read_fieldnum in *.
      destruct (read_prim n p t (pzero p)) as [[[r1 x1] t2]|] eqn:E; [|discriminate A].
      destruct (sim_prim n p _ _ _ _ _ _ Ht E) as (g2 & -> & H2). destruct r1; fin A.
    - unfold read_strfield, g_read_strfield, read_string, g_read_string in *.
      rewrite (RT_id _ _ Ht), (RT_val _ _ Ht).
      destruct (tk_id t); try (simpl in *; fin A; fail);
        (expct A n T_STRING t Ht; simpl in *; fin A).
    - unfold read_b64, g_read_b64 in *. rewrite (RT_id _ _ Ht), (RT_val _ _ Ht).
      destruct (tk_id t); try (fin A; fail). nxt A n t Ht.
      rewrite (plain_decode pc Hpc). destruct (b64_decode (cstr (t_val (tk_cur t)))) as [o bad]. destruct bad; fin A.
    - destruct (read_array n (read n ty0) (dflt ty0) t l) as [[[r1 x1] t2]|] eqn:E; [|discriminate A].
      destruct (sim_array n _ _ (dflt ty0) IHty0 _ _ _ _ _ _ Ht E) as (g2 & -> & H2). simpl in *. fin A.
    - destruct (read_object n (read_member g (map (read n) ms)) t l) as [[[r1 x1] t2]|] eqn:E; [|discriminate A].
      destruct (fun S => sim_object n (g_read_member g (map (g_read pc ops n) ms))
                (read_member g (map (read n) ms)) S _ _ _ _ _ _ Ht E) as (g2 & -> & H2).
      2:{ simpl in *. fin A. }
      clear - H Hpc Hpeek Heof Hnext Hline Hcol.
      intros name g0 t v r x t1 Ht A. unfold read_member, g_read_member in *.
      destruct (select_member g name) as [k|]; [|fin A].
      rewrite nth_error_map in A |- *. destruct (nth_error ms k) as [ty1|] eqn:M; [|fin A].
      simpl in *. destruct (nth_error v k) as [y|]; [|fin A].
      rewrite Forall_forall in H. specialize (H ty1 (nth_error_In _ _ M)).
      destruct (read n ty1 t y) as [[[r1 x1] t2]|] eqn:E; [|discriminate A].
      destruct (H _ _ _ _ _ _ Ht E) as (g2 & -> & H2). fin A.
  Qed.

  Lemma sim_deserialize n ty0 v x s po res : R x s -> deserialize_fuel n ty0 v s po = Some res ->
    g_deserialize pc ops n ty0 v x po = Some res.
  Proof.
    intros H A. unfold deserialize_fuel, g_deserialize, tk_make, g_make in *.
    destruct (tk_next n _) as [t|] eqn:N; [|discriminate A].
    assert (H0 : RT (GTK (Tok T_NONE [] 0 0) x (p_err (ctx_params po)))
                    (TK (Tok T_NONE [] 0 0) s (p_err (ctx_params po)))) by (split; [|split]; auto).
    destruct (sim_next n _ _ _ H0 N) as (g & -> & Hg).
    destruct (read n ty0 t v) as [[[r y] t1]|] eqn:E; [|discriminate A].
    destruct (sim_read n ty0 _ _ _ _ _ _ Hg E) as (g1 & -> & H1).
    rewrite (RT_err _ _ H1). destruct r; exact A.
  Qed.
End Sim.

(** ** Iterators *)
Local Open Scope nat_scope.

Section IterSim.
  Context {IT : Type} (pc : ascii -> Z) (Hpc : plain pc) (io : iter_ops IT) (last : IT) (RI : IT -> bytes -> Prop).
  Hypothesis Hnil : forall i, RI i [] -> it_eq io i last = true.
  Hypothesis Hcons : forall i c r, RI i (c :: r) ->
    it_eq io i last = false /\ it_deref io i = Some c /\ exists i', it_incr io i = Some i' /\ RI i' r.

  Definition RS (fuel : nat) (x : iter_istream IT) (s : istream) : Prop :=
    RI (ii_beg x) (is_rest s) /\ ii_end x = last /\ ii_line x = is_line s /\ ii_col x = is_col s /\
    length (is_rest s) < fuel.

  Lemma sim_skip k : forall fuel r i line col, RI i r -> length r < fuel -> fuel <= k ->
    exists x, ii_skip io fuel (IIS i last line col) = Some x /\ RS k x (skip_lf r line col).
  Proof.
    induction fuel as [|f IH]; intros r i line col H L K; [lia|]. cbn [ii_skip ii_beg ii_end].
    destruct r as [|c r].
    - rewrite (Hnil _ H). eexists. split; [reflexivity|]. split; [|split; [|split; [|split]]]; simpl in *; auto; lia.
    - destruct (Hcons _ _ _ H) as (-> & -> & i' & E & H'). cbn [skip_lf]. destruct (Ascii.eqb c LF).
      + rewrite E. cbn [ii_line]. apply IH; simpl in L; auto; lia.
      + eexists. split; [reflexivity|]. split; [|split; [|split; [|split]]]; auto. cbn [is_rest]. lia.
  Qed.

  Lemma sim_iter n ty0 v fuel x s po res : RS fuel x s -> deserialize_fuel n ty0 v s po = Some res ->
    g_deserialize pc (ii_ops pc io fuel) n ty0 v x po = Some res.
  Proof.
    apply (sim_deserialize pc Hpc (ii_ops pc io fuel) (RS fuel)); clear - Hpc Hnil Hcons.
    - intros x s (H & E & _ & _ & L). simpl. unfold ii_peek, is_peek. rewrite E.
      destruct (is_rest s) as [|c r]; [rewrite (Hnil _ H); eexists; split; [reflexivity|now left]|].
      destruct (Hcons _ _ _ H) as (-> & -> & _). eexists. split; [reflexivity|now apply alike_plain].
    - intros x s (H & E & _ & _ & L). simpl. unfold ii_eof, is_eof. rewrite E.
      destruct (is_rest s) as [|c r]; [now rewrite (Hnil _ H)|].
      destruct (Hcons _ _ _ H) as (-> & _ & _). reflexivity.
    - intros x s (H & E & E1 & E2 & L). simpl. unfold ii_next, is_next. rewrite E, E1, E2.
      destruct (is_rest s) as [|c r] eqn:Q.
      + rewrite (Hnil _ H). eexists. split; [reflexivity|].
        split; [|split; [|split; [|split]]]; rewrite ?Q; auto.
      + destruct (Hcons _ _ _ H) as (-> & _ & i' & -> & H'). apply sim_skip; simpl in L; auto; lia.
    - intros x s (_ & _ & A & _). exact A.
    - intros x s (_ & _ & _ & A & _). exact A.
  Qed.

  Lemma iter_lemma fuel ty0 v first inp po : RI first inp -> length inp < fuel ->
    deserialize_iter pc io fuel (fuel_for inp) ty0 v first last po = deserialize ty0 v inp po.
  Proof.
    intros H L. destruct (deserialize_total ty0 v inp po) as (r & v' & po' & A).
    rewrite A. unfold deserialize in A. unfold deserialize_iter, ii_make.
    destruct (sim_skip fuel fuel inp first 1%Z 1%Z H L (le_n _)) as (x & -> & B).
    eapply sim_iter; eauto.
  Qed.
End IterSim.

(** ** The four kinds *)
Lemma skipn_nth {T} k : forall (l : list T), k < length l -> exists y, nth_error l k = Some y /\ skipn k l = y :: skipn (S k) l.
Proof.
  induction k as [|k IH]; intros [|z l] L; simpl in L; try lia; [exists z; auto|].
  destruct (IH l) as (y & A & B); [lia|]. exists y. split; [exact A|]. exact B.
Qed.

Lemma rest_step (mem : bytes) hi c : hi <= length mem -> c < hi ->
  exists y, nth_error mem c = Some y /\
    firstn (hi - c) (skipn c mem) = y :: firstn (hi - S c) (skipn (S c) mem).
Proof.
  intros L H. destruct (skipn_nth c mem) as (y & A & B); [lia|].
  exists y. split; [exact A|]. rewrite B. replace (hi - c) with (S (hi - S c)) by lia. reflexivity.
Qed.

Lemma mem_input_lemma pc fuel ty0 v mem inp len po : plain pc -> inp + len <= length mem -> len < fuel ->
  deserialize_mem pc fuel (fuel_for (firstn len (skipn inp mem))) ty0 v mem inp len po
  = deserialize ty0 v (firstn len (skipn inp mem)) po.
Proof.
  intros P L F. unfold deserialize_mem. assert (Hhi : exists hi, hi = inp + len) by eauto. destruct Hhi as (hi & Hhi). rewrite <- Hhi in *.
  apply (iter_lemma pc P _ _ (fun i r => inp <= mci_cur i <= hi /\ mci_end i = hi /\
           r = firstn (hi - mci_cur i) (skipn (mci_cur i) mem))).
  - intros [c e] (C & E & N). simpl in *. apply Nat.eqb_eq. change (c = hi).
    destruct (Nat.eq_dec c hi) as [e0|N']; [exact e0|]. destruct (rest_step mem hi c) as (y & _ & B); [lia..|].
    rewrite B in N. discriminate N.
  - intros [c e] y r (C & E & N). simpl in *. subst e.
    assert (c <> hi) by (intros ->; rewrite Nat.sub_diag in N; discriminate N).
    destruct (rest_step mem hi c) as (y' & A & B); [lia..|]. rewrite B in N. injection N as -> ->.
    unfold mci_eq, mci_deref, mci_incr. cbn [mci_cur mci_end]. rewrite A.
    destruct (Nat.leb_spec hi c), (Nat.leb_spec inp c), (Nat.ltb_spec c hi); try lia.
    split; [apply Nat.eqb_neq; simpl; lia|]. split; [reflexivity|]. eexists. split; [reflexivity|].
    cbn [mci_cur mci_end]. split; [lia|]. auto.
  - simpl. split; [lia|]. split; [auto|]. f_equal. lia.
  - rewrite firstn_length. lia.
Qed.

Lemma container_lemma pc fuel ty0 v inp po : plain pc -> length inp < fuel ->
  deserialize_container pc fuel (fuel_for inp) ty0 v inp po = deserialize ty0 v inp po.
Proof.
  intros P F. apply (iter_lemma pc P _ _ (fun i r => i <= length inp /\ r = skipn i inp)); [..|auto|exact F].
  - intros i (C & E). simpl. apply Nat.eqb_eq. apply (f_equal (@length _)) in E.
    rewrite skipn_length in E. simpl in E. lia.
  - intros i c r (C & E). assert (i < length inp).
    { apply (f_equal (@length _)) in E. rewrite skipn_length in E. simpl in E. lia. }
    destruct (skipn_nth i inp) as (y & A & B); [lia|]. rewrite B in E. injection E as -> ->.
    simpl. rewrite A. split; [apply Nat.eqb_neq; lia|]. split; [reflexivity|].
    destruct (Nat.ltb_spec i (length inp)); [|lia]. eexists. split; [reflexivity|]. auto.
  - split; [lia|reflexivity].
Qed.

Lemma stream_lemma pc fuel ty0 v inp po : plain pc -> length inp < fuel ->
  deserialize_stream pc fuel (fuel_for inp) ty0 v inp po = deserialize ty0 v inp po.
Proof.
  intros P F. apply (iter_lemma pc P _ _ (fun i r => i = sii_make r)); [..|auto|exact F].
  - intros i ->. reflexivity.
  - intros i c r ->. simpl. split; [reflexivity|]. split; [reflexivity|]. eauto.
Qed.

Lemma deserialize_defined ty0 v inp po : deserialize ty0 v inp po <> None.
Proof.
  destruct (deserialize_total ty0 v inp po) as (r & v' & po' & A). rewrite A. discriminate.
Qed.
