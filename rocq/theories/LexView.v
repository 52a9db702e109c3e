(** A view of the runtime tokenizer without fuel and positions: the stream is the
    list of bytes left with line feeds removed, and [lex] is the first token. *)
From Verif Require Import Bytes BaseProofs Stream Tokenizer.

Definition not_lf (c : ascii) : bool := negb (Ascii.eqb c LF).
Definition nolf (l : bytes) : bytes := filter not_lf l.

Definition vw (s : istream) : bytes := nolf (is_rest s).

(** Streams never stop on a line feed. *)
Definition wf_is (s : istream) : Prop :=
  match is_rest s with [] => True | c :: _ => c <> LF end.

Lemma nolf_app u v : nolf (u ++ v) = nolf u ++ nolf v.
Proof. apply filter_app. Qed.

Lemma nolf_length u : (length (nolf u) <= length u)%nat.
Proof. induction u as [|c r IH]; simpl; [lia|]. destruct (not_lf c); simpl; lia. Qed.

Lemma nolf_id u : ~ In LF u -> nolf u = u.
Proof.
  induction u as [|c r IH]; simpl; intros H; [reflexivity|].
  unfold not_lf. destruct (Ascii.eqb_spec c LF); simpl; [exfalso; auto|].
  rewrite IH; auto.
Qed.

Lemma nolf_not_in u : ~ In LF (nolf u).
Proof.
  unfold nolf. intros H. apply filter_In in H as [_ H]. discriminate.
Qed.

Lemma nolf_idem u : nolf (nolf u) = nolf u.
Proof. apply nolf_id, nolf_not_in. Qed.

Lemma skip_lf_spec rest line col :
  wf_is (skip_lf rest line col) /\ vw (skip_lf rest line col) = nolf rest.
Proof.
  revert line col; induction rest as [|c r IH]; intros; simpl; [split; [exact I|reflexivity]|].
  unfold not_lf. destruct (Ascii.eqb_spec c LF) as [->|N].
  - apply IH.
  - split; [exact N|]. unfold vw; simpl. unfold not_lf.
    destruct (Ascii.eqb_spec c LF); [contradiction|]. reflexivity.
Qed.

Lemma mk_istream_spec inp : wf_is (mk_istream inp) /\ vw (mk_istream inp) = nolf inp.
Proof. apply skip_lf_spec. Qed.

Lemma vw_cons s c r : wf_is s -> is_rest s = c :: r -> vw s = c :: nolf r.
Proof.
  unfold wf_is, vw. intros W E. rewrite E in *. simpl. unfold not_lf.
  destruct (Ascii.eqb_spec c LF); [contradiction|]. reflexivity.
Qed.

Lemma is_next_spec s : wf_is s -> wf_is (is_next s) /\ vw (is_next s) = tl (vw s).
Proof.
  intros W. unfold is_next. destruct (is_rest s) as [|c r] eqn:E.
  - split; [exact W|]. unfold vw. rewrite E. reflexivity.
  - rewrite (vw_cons _ _ _ W E). apply skip_lf_spec.
Qed.

Lemma is_next_wf s : wf_is s -> wf_is (is_next s).
Proof. intros; now apply is_next_spec. Qed.

Lemma is_next_vw s c r : wf_is s -> vw s = c :: r -> vw (is_next s) = r.
Proof. intros W E. rewrite (proj2 (is_next_spec s W)), E. reflexivity. Qed.

Lemma is_peek_nil s : wf_is s -> vw s = [] -> is_peek s = 0.
Proof.
  intros W E. unfold is_peek. destruct (is_rest s) as [|c r] eqn:R; [reflexivity|].
  rewrite (vw_cons _ _ _ W R) in E. discriminate.
Qed.

Lemma is_peek_cons s c r : wf_is s -> vw s = c :: r -> is_peek s = schar c.
Proof.
  intros W E. unfold is_peek. destruct (is_rest s) as [|d r'] eqn:R.
  - unfold vw in E. rewrite R in E. discriminate.
  - rewrite (vw_cons _ _ _ W R) in E. congruence.
Qed.

Lemma is_eof_vw s : wf_is s -> is_eof s = match vw s with [] => true | _ => false end.
Proof.
  intros W. unfold is_eof. destruct (is_rest s) as [|c r] eqn:R.
  - unfold vw. rewrite R. reflexivity.
  - rewrite (vw_cons _ _ _ W R). reflexivity.
Qed.

(** ** The tokens on the view *)

(** Effect of a [\uXXXX] escape with value [cp]. *)
Definition utf8_step (cp : Z) (value : bytes) (lead : Z) : option (bytes * Z) :=
  if (55296 <=? cp) && (cp <=? 56319) then Some (value, cp)
  else if (56320 <=? cp) && (cp <=? 57343) then
    if lead =? 0 then None
    else
      let cp2 := Z.shiftl lead 10 + cp + SURROGATE_OFFSET in
      Some (value ++ [ chr (Z.lor 240 (Z.land (Z.shiftr cp2 18) 7));
                       chr (Z.lor 128 (Z.land (Z.shiftr cp2 12) 63));
                       chr (Z.lor 128 (Z.land (Z.shiftr cp2 6) 63));
                       chr (Z.lor 128 (Z.land cp2 63)) ], 0)
  else if (128 <=? cp) && (cp <=? 2047) then
    Some (value ++ [ chr (Z.lor 192 (Z.land (Z.shiftr cp 6) 31));
                     chr (Z.lor 128 (Z.land cp 63)) ], 0)
  else if (2048 <=? cp) && (cp <=? 65535) then
    Some (value ++ [ chr (Z.lor 224 (Z.land (Z.shiftr cp 12) 15));
                     chr (Z.lor 128 (Z.land (Z.shiftr cp 6) 63));
                     chr (Z.lor 128 (Z.land cp 63)) ], 0)
  else None.

Definition lex_hex4 (a b c d : ascii) : option Z :=
  if is_hex_z (schar a) && is_hex_z (schar b) && is_hex_z (schar c) && is_hex_z (schar d)
  then Some (16 * (16 * (16 * (16 * 0 + hex_val (schar a)) + hex_val (schar b))
                   + hex_val (schar c)) + hex_val (schar d))
  else None.

(** String literal after the opening quote: decoded value and remainder. *)
Fixpoint lex_str (l : bytes) (lead : Z) (value : bytes) {struct l} : option (bytes * bytes) :=
  match l with
  | [] => None
  | c :: r =>
      if code c =? 34 then Some (value, r)
      else if code c =? 92 then
        match r with
        | [] => None
        | e :: r2 =>
            match short_escape (schar e) with
            | Some x => lex_str r2 lead (value ++ [x])
            | None =>
                if code e =? 117 then
                  match r2 with
                  | h1 :: h2 :: h3 :: h4 :: r6 =>
                      match lex_hex4 h1 h2 h3 h4 with
                      | None => None
                      | Some cp =>
                          match utf8_step cp value lead with
                          | Some (value', lead') => lex_str r6 lead' value'
                          | None => None
                          end
                      end
                  | _ => None
                  end
                else None
            end
        end
      else if code c =? 0 then None
      else lex_str r lead (value ++ [c])
  end.

Definition is_num_c (c : ascii) : bool := is_num_z (schar c).
Definition is_alpha_c (c : ascii) : bool := is_alpha_z (schar c).
Definition is_ws_c (c : ascii) : bool := is_ws_z (schar c).

Definition keyword (v : bytes) : option token_id :=
  if bytes_eqb v (b "true") then Some T_BTRUE
  else if bytes_eqb v (b "false") then Some T_BFALSE
  else if bytes_eqb v (b "null") then Some T_NIL
  else None.

(** First token: identifier, value, remainder; [None] for a NONE token. *)
Fixpoint lex (l : bytes) : option (token_id * bytes * bytes) :=
  match l with
  | [] => Some (T_EOS, [], [])
  | c :: r =>
      if is_ws_c c then lex r
      else match punct (schar c) with
      | Some id => Some (id, [], r)
      | None =>
          if code c =? 34 then
            match lex_str r 0 [] with
            | Some (v, r') => Some (T_STRING, v, r')
            | None => None
            end
          else if is_num_start_z (schar c) then
            let '(v, r') := span is_num_c l in Some (T_NUMBER, v, r')
          else let '(v, r') := span is_alpha_c l in
               match keyword v with Some id => Some (id, [], r') | None => None end
      end
  end.

(** ** Equivalence with the model *)

Ltac num_z :=
  repeat match goal with
  | |- context [schar ?c =? ?z] => rewrite (schar_eqb c z) by lia
  end.

Lemma parse_identifier_spec n s acc : wf_is s -> (length (vw s) < n)%nat ->
  exists s', parse_identifier n s acc = Some (acc ++ fst (span is_alpha_c (vw s)), s')
             /\ wf_is s' /\ vw s' = snd (span is_alpha_c (vw s)).
Proof.
  revert s acc; induction n as [|n IH]; intros s acc W L; [lia|].
  simpl. rewrite is_eof_vw by assumption.
  destruct (vw s) as [|c r] eqn:E.
  - exists s. rewrite E, app_nil_r. auto.
  - rewrite (is_peek_cons _ _ _ W E). simpl. fold (is_alpha_c c).
    destruct (is_alpha_c c) eqn:A.
    + destruct (is_next_spec s W) as [W' V']. rewrite E in V'; simpl in V'.
      destruct (IH (is_next s) (acc ++ [chr (schar c)]) W') as (s' & P & Ws & Vs).
      { rewrite V'. simpl in L. lia. }
      rewrite V' in P, Vs. exists s'. rewrite P, chr_schar.
      destruct (span is_alpha_c r) as [u v]; simpl in *.
      rewrite <- app_assoc. auto.
    + exists s. simpl. rewrite app_nil_r. auto.
Qed.

Lemma parse_number_loop_spec n s acc : wf_is s -> (length (vw s) < n)%nat ->
  exists s', parse_number_loop n s acc = Some (acc ++ fst (span is_num_c (vw s)), s')
             /\ wf_is s' /\ vw s' = snd (span is_num_c (vw s)).
Proof.
  revert s acc; induction n as [|n IH]; intros s acc W L; [lia|].
  simpl. rewrite is_eof_vw by assumption.
  destruct (vw s) as [|c r] eqn:E.
  - exists s. rewrite E, app_nil_r. auto.
  - rewrite (is_peek_cons _ _ _ W E). simpl. fold (is_num_c c).
    destruct (is_num_c c) eqn:A.
    + destruct (is_next_spec s W) as [W' V']. rewrite E in V'; simpl in V'.
      destruct (IH (is_next s) (acc ++ [chr (schar c)]) W') as (s' & P & Ws & Vs).
      { rewrite V'. simpl in L. lia. }
      rewrite V' in P, Vs. exists s'. rewrite P, chr_schar.
      destruct (span is_num_c r) as [u v]; simpl in *.
      rewrite <- app_assoc. auto.
    + exists s. simpl. rewrite app_nil_r. auto.
Qed.

Lemma read_hex_S k s acc :
  read_hex (S k) s acc =
  let s1 := is_next s in
  if is_hex_z (is_peek s1) then read_hex k s1 (16 * acc + hex_val (is_peek s1)) else (None, s1).
Proof. reflexivity. Qed.

(** Hexadecimal digits after [s], whose first character is already consumed. *)
Lemma read_hex_step k s acc c0 r : wf_is s -> vw s = c0 :: r ->
  wf_is (is_next s) /\ vw (is_next s) = r /\
  read_hex (S k) s acc =
  match r with
  | c :: _ => if is_hex_z (schar c)
              then read_hex k (is_next s) (16 * acc + hex_val (schar c))
              else (None, is_next s)
  | [] => (None, is_next s)
  end.
Proof.
  intros W E. destruct (is_next_spec s W) as [W' V']. rewrite E in V'. simpl in V'.
  split; [exact W'|split; [exact V'|]].
  rewrite read_hex_S. cbv zeta. destruct r as [|c r'].
  - rewrite (is_peek_nil _ W' V'). reflexivity.
  - rewrite (is_peek_cons _ _ _ W' V'). reflexivity.
Qed.

Lemma parse_escaped_utf8_spec s value lead c0 r : wf_is s -> vw s = c0 :: r ->
  match (match r with
         | h1 :: h2 :: h3 :: h4 :: r6 =>
             match lex_hex4 h1 h2 h3 h4 with
             | Some cp => match utf8_step cp value lead with
                          | Some vl => Some (vl, h4 :: r6)
                          | None => None
                          end
             | None => None
             end
         | _ => None
         end) with
  | Some (vl, rest) => exists s', parse_escaped_utf8 s value lead = (Some vl, s')
                                  /\ wf_is s' /\ vw s' = rest
  | None => exists s', parse_escaped_utf8 s value lead = (None, s') /\ wf_is s'
  end.
Proof.
  intros W E. unfold parse_escaped_utf8.
  destruct (read_hex_step 3 s 0 c0 r W E) as (W1 & V1 & ->).
  destruct r as [|h1 r1]; [eauto 10|]. unfold lex_hex4.
  destruct (is_hex_z (schar h1)) eqn:H1.
  2:{ simpl. destruct r1 as [|? [|? [|? ?]]]; eauto 10. }
  destruct (read_hex_step 2 _ (16 * 0 + hex_val (schar h1)) _ _ W1 V1) as (W2 & V2 & ->).
  destruct r1 as [|h2 r2]; [eauto 10|]. destruct (is_hex_z (schar h2)) eqn:H2.
  2:{ simpl. destruct r2 as [|? [|? ?]]; eauto 10. }
  destruct (read_hex_step 1 _ (16 * (16 * 0 + hex_val (schar h1)) + hex_val (schar h2)) _ _ W2 V2)
    as (W3 & V3 & ->).
  destruct r2 as [|h3 r3]; [eauto 10|]. destruct (is_hex_z (schar h3)) eqn:H3.
  2:{ simpl. destruct r3 as [|? ?]; eauto 10. }
  destruct (read_hex_step 0 _
     (16 * (16 * (16 * 0 + hex_val (schar h1)) + hex_val (schar h2)) + hex_val (schar h3)) _ _ W3 V3)
    as (W4 & V4 & ->).
  destruct r3 as [|h4 r6]; [eauto 10|]. destruct (is_hex_z (schar h4)) eqn:H4; [|simpl; eauto 10].
  cbn [read_hex andb]. cbv iota beta.
  set (cp := 16 * (16 * (16 * (16 * 0 + hex_val (schar h1)) + hex_val (schar h2)) +
                   hex_val (schar h3)) + hex_val (schar h4)).
  unfold utf8_step.
  destruct ((55296 <=? cp) && (cp <=? 56319)); [eauto 10|].
  destruct ((56320 <=? cp) && (cp <=? 57343)).
  { destruct (lead =? 0); eauto 10. }
  destruct ((128 <=? cp) && (cp <=? 2047)); [eauto 10|].
  destruct ((2048 <=? cp) && (cp <=? 65535)); eauto 10.
Qed.

Lemma parse_string_loop_spec n s lead value line col c0 r :
  wf_is s -> vw s = c0 :: r -> (length r < n)%nat ->
  exists tok s', parse_string_loop n s lead value line col = Some (tok, s') /\ wf_is s' /\
    match lex_str r lead value with
    | Some (v, rest) => t_id tok = T_STRING /\ t_val tok = v /\ vw s' = rest
    | None => t_id tok = T_NONE
    end.
Proof.
  revert s lead value c0 r; induction n as [|n IH]; intros s lead value c0 r W E L; [lia|].
  simpl parse_string_loop. rewrite is_eof_vw, E by assumption.
  destruct (is_next_spec s W) as [W1 V1]. rewrite E in V1. simpl tl in V1.
  destruct r as [|c r].
  - rewrite (is_peek_nil _ W1 V1). simpl. eauto 10.
  - rewrite (is_peek_cons _ _ _ W1 V1). simpl lex_str. num_z.
    destruct (is_next_spec _ W1) as [W2 V2]. rewrite V1 in V2. simpl tl in V2.
    destruct (code c =? 34) eqn:Q.
    { eexists _, _. split; [reflexivity|]. simpl. auto. }
    destruct (code c =? 92) eqn:B.
    + destruct r as [|e r2].
      * rewrite (is_peek_nil _ W2 V2). simpl. eauto 10.
      * rewrite (is_peek_cons _ _ _ W2 V2).
        destruct (short_escape (schar e)) as [x|] eqn:SE.
        { eapply IH; eauto 10. simpl in L. lia. }
        num_z. destruct (code e =? 117) eqn:U; [|eauto 10].
        pose proof (parse_escaped_utf8_spec _ value lead _ _ W2 V2) as P.
        destruct r2 as [|h1 [|h2 [|h3 [|h4 r6]]]];
          try (destruct P as (s' & -> & W3); eauto 10; fail).
        destruct (lex_hex4 h1 h2 h3 h4) as [cp|].
        2:{ destruct P as (s' & -> & W3). eauto 10. }
        destruct (utf8_step cp value lead) as [[v' l']|].
        2:{ destruct P as (s' & -> & W3). eauto 10. }
        destruct P as (s' & -> & W3 & V3).
        eapply IH; eauto 10. simpl in L. lia.
    + destruct (code c =? 0) eqn:Z0; [eauto 10|].
      rewrite chr_schar. eapply IH; eauto 10. simpl in L. lia.
Qed.

(** Main lemma: [next_loop] computes [lex]. *)
Lemma next_loop_spec n s : wf_is s -> (length (vw s) + 2 <= n)%nat ->
  exists tok s', next_loop n s = Some (tok, s') /\ wf_is s' /\
    match lex (vw s) with
    | Some (id, v, rest) => t_id tok = id /\ t_val tok = v /\ vw s' = rest
    | None => t_id tok = T_NONE
    end.
Proof.
  revert s; induction n as [|n IH]; intros s W L; [lia|].
  simpl next_loop. rewrite is_eof_vw by assumption.
  destruct (vw s) as [|c r] eqn:E.
  { eexists _, _. split; [reflexivity|]. simpl. auto. }
  rewrite (is_peek_cons _ _ _ W E).
  destruct (is_next_spec s W) as [W1 V1]. rewrite E in V1. simpl tl in V1.
  simpl lex. fold (is_ws_c c).
  destruct (is_ws_c c) eqn:WS.
  { rewrite <- V1. apply IH; auto. rewrite V1. simpl in L. lia. }
  destruct (punct (schar c)) as [id|] eqn:P.
  { eexists _, _. split; [reflexivity|]. simpl. auto. }
  num_z. destruct (code c =? 34) eqn:Q.
  { unfold parse_string. rewrite (is_peek_cons _ _ _ W E). num_z. rewrite Q.
    destruct (parse_string_loop_spec n s 0 [] (is_line s) (is_col s) c r W E) as (tok & s' & X & Ws & Y).
    { simpl in L. lia. }
    rewrite X. exists tok, s'. split; [reflexivity|]. split; [exact Ws|].
    destruct (lex_str r 0 []) as [[v rest]|]; exact Y. }
  destruct (is_num_start_z (schar c)) eqn:N.
  { unfold parse_number.
    destruct (parse_number_loop_spec n s [] W) as (s' & X & Ws & Y); [rewrite E; lia|].
    rewrite E in X, Y. rewrite X.
    destruct (span is_num_c (c :: r)) as [v r'] eqn:Sp. simpl in Sp, Y |- *.
    rewrite Sp. eexists _, _. split; [reflexivity|]. simpl. auto. }
  destruct (parse_identifier_spec n s [] W) as (s' & X & Ws & Y); [rewrite E; lia|].
  rewrite E in X, Y. rewrite X.
  destruct (span is_alpha_c (c :: r)) as [v r'] eqn:Sp. simpl in Sp, Y |- *. rewrite Sp.
  unfold keyword.
  destruct (bytes_eqb v (b "true")); [eexists _, _; simpl; eauto 10|].
  destruct (bytes_eqb v (b "false")); [eexists _, _; simpl; eauto 10|].
  destruct (bytes_eqb v (b "null")); [eexists _, _; simpl; eauto 10|].
  eexists _, _; simpl; eauto 10.
Qed.

(** ** Position of a tokenizer: its current token is the first token of [x]. *)
Definition pos (t : tokenizer) (x : bytes) : Prop :=
  wf_is (tk_in t) /\
  match lex x with
  | Some (id, v, rest) => tk_id t = id /\ t_val (tk_cur t) = v /\ vw (tk_in t) = rest
  | None => tk_id t = T_NONE
  end.

(** Bytes not yet consumed. *)
Definition left_len (t : tokenizer) : nat := length (vw (tk_in t)).

Lemma tk_next_spec n t : wf_is (tk_in t) -> (left_len t + 2 <= n)%nat ->
  exists t', tk_next n t = Some t' /\ pos t' (vw (tk_in t)) /\ tk_err t' = tk_err t.
Proof.
  intros W L. unfold tk_next.
  destruct (next_loop_spec n (tk_in t) W L) as (tok & s' & -> & Ws & Y).
  eexists. split; [reflexivity|]. split; [|reflexivity]. split; [exact Ws|].
  destruct (lex (vw (tk_in t))) as [[[id v] rest]|]; exact Y.
Qed.

(** Lexing never lengthens the input and strictly shortens it except at the end. *)
Lemma lex_str_length l lead value v r :
  lex_str l lead value = Some (v, r) -> (length r < length l)%nat.
Proof.
  remember (length l) as m eqn:Hm. revert l Hm lead value.
  induction m as [m IH] using lt_wf_ind. intros l -> lead value H.
  destruct l as [|c l]; simpl in H; [discriminate|].
  destruct (code c =? 34). { injection H as _ <-. simpl; lia. }
  destruct (code c =? 92).
  - destruct l as [|e l2]; [discriminate|].
    destruct (short_escape (schar e)).
    { pose proof (IH (length l2) ltac:(simpl; lia) l2 eq_refl _ _ H). simpl; lia. }
    destruct (code e =? 117); [|discriminate].
    destruct l2 as [|h1 [|h2 [|h3 [|h4 r6]]]]; try discriminate.
    destruct (lex_hex4 h1 h2 h3 h4); [|discriminate].
    destruct (utf8_step z value lead) as [[v' l']|]; [|discriminate].
    pose proof (IH (length r6) ltac:(simpl; lia) r6 eq_refl _ _ H). simpl; lia.
  - destruct (code c =? 0); [discriminate|].
    pose proof (IH (length l) ltac:(simpl; lia) l eq_refl _ _ H). simpl; lia.
Qed.

Lemma lex_length l id v r : lex l = Some (id, v, r) ->
  (length r <= length l)%nat /\ (id <> T_EOS -> (length r < length l)%nat).
Proof.
  induction l as [|c l IH]; simpl; intros H.
  { injection H as <- <- <-. simpl. split; [lia|congruence]. }
  destruct (is_ws_c c). { apply IH in H as [? ?]. split; [lia|]. intros N; specialize (H0 N); lia. }
  destruct (punct (schar c)). { injection H as <- <- <-. simpl; split; lia. }
  destruct (code c =? 34).
  { destruct (lex_str l 0 []) as [[u w]|] eqn:E; [|discriminate].
    injection H as <- <- <-. apply lex_str_length in E. split; lia. }
  destruct (is_num_start_z (schar c)) eqn:NS.
  { assert (is_num_c c = true) as A.
    { unfold is_num_start_z in NS. unfold is_num_c, is_num_z. lia. }
    rewrite A in H. pose proof (span_length is_num_c l). destruct (span is_num_c l) as [u w].
    injection H as <- <- <-. simpl in *. split; lia. }
  destruct (is_alpha_c c).
  - pose proof (span_length is_alpha_c l). destruct (span is_alpha_c l) as [u w].
    destruct (keyword (c :: u)); [|discriminate]. injection H as <- <- <-. simpl in *. split; lia.
  - simpl in H. discriminate.
Qed.

Lemma lex_eos l v r : lex l = Some (T_EOS, v, r) -> v = [] /\ r = [].
Proof.
  induction l as [|c l IH]; simpl; intros H; [injection H as <- <-; auto|].
  destruct (is_ws_c c); [auto|].
  destruct (punct (schar c)) eqn:P.
  { injection H as -> <- <-. unfold punct in P.
    repeat match type of P with (if ?x then _ else _) = _ => destruct x; try discriminate end. }
  destruct (code c =? 34).
  { destruct (lex_str l 0 []) as [[u w]|]; discriminate. }
  destruct (is_num_start_z (schar c)).
  { destruct (is_num_c c); [destruct (span is_num_c l)|]; discriminate. }
  destruct (is_alpha_c c).
  - destruct (span is_alpha_c l). unfold keyword in H.
    repeat match type of H with context [if ?x then _ else _] => destruct x; try discriminate end.
  - unfold keyword in H.
    repeat match type of H with context [if ?x then _ else _] => destruct x; try discriminate end.
Qed.
