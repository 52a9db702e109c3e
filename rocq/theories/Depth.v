(** How many activations of the recursive functions of the JSON reader exist at the same time:
    [ignore_value] (protogen.hh:577-602, through [ignore_array] and [ignore_object]) and
    [json<T>::read] (through [read_object], [read_field] and [json<container>::read]).  The other
    functions are not recursive.  The functions below go the way of those in Tokenizer.v and
    Read.v, whose results they use to go on, and return the greatest number of activations. *)
From Verif Require Import Bytes Num Types Stream Tokenizer Write Read.
Local Open Scope nat_scope.

(** protogen.hh:577-602. *)
Fixpoint ignore_depth (n : nat) (t : tokenizer) {struct n} : nat :=
  match n with
  | O => O
  | S n' =>
      S match tk_id t with
        | T_OBJS => match tk_next n' t with Some t1 => ignore_object_depth n' t1 | None => O end
        | T_ARRS => match tk_next n' t with Some t1 => ignore_array_depth n' t1 | None => O end
        | _ => O
        end
  end
(** protogen.hh:546-554. *)
with ignore_array_depth (n : nat) (t : tokenizer) {struct n} : nat :=
  match n with
  | O => O
  | S n' =>
      if tid_eqb (tk_id t) T_ARRE then O
      else max (ignore_depth n' t)
        match ignore_value n' t with
        | Some (PGR_OK, t1) =>
            match tk_expect n' T_COMMA t1 with Some (true, t2) => ignore_array_depth n' t2 | _ => O end
        | _ => O
        end
  end
(** protogen.hh:562-574. *)
with ignore_object_depth (n : nat) (t : tokenizer) {struct n} : nat :=
  match n with
  | O => O
  | S n' =>
      if tid_eqb (tk_id t) T_OBJE then O
      else match tk_expect n' T_STRING t with
           | Some (true, t1) =>
               match tk_expect n' T_COLON t1 with
               | Some (true, t2) =>
                   max (ignore_depth n' t2)
                     match ignore_value n' t2 with
                     | Some (PGR_OK, t3) =>
                         match tk_expect n' T_COMMA t3 with Some (true, t4) => ignore_object_depth n' t4 | _ => O end
                     | _ => O
                     end
               | _ => O
               end
           | _ => O
           end
  end.

(** json-array.hh:45-58; [dp] is the depth of one element. *)
Fixpoint array_loop_depth (n nf : nat) (rd : tokenizer -> val -> rres val) (dp : tokenizer -> val -> nat) (d : val)
         (t : tokenizer) {struct n} : nat :=
  match n with
  | O => O
  | S n' =>
      max (dp t d)
        match rd t d with
        | Some ((PGR_OK | PGR_NIL), _, t1) =>
            match tk_expect nf T_COMMA t1 with Some (true, t2) => array_loop_depth n' nf rd dp d t2 | _ => O end
        | _ => O
        end
  end.

(** json-array.hh:38-61, without its own activation. *)
Definition read_array_depth (n : nat) (rd : tokenizer -> val -> rres val) (dp : tokenizer -> val -> nat) (d : val) (t : tokenizer) : nat :=
  match tk_id t with
  | T_NIL => O
  | _ =>
      match tk_expect n T_ARRS t with
      | Some (true, t1) =>
          match tk_expect n T_ARRE t1 with
          | Some (false, t2) => array_loop_depth n n rd dp d t2
          | _ => O
          end
      | _ => O
      end
  end.

(** json.hh:41-58; [df] is the depth of a member. *)
Fixpoint object_loop_depth (n nf : nat) (rf : bytes -> tokenizer -> list val -> rres (list val))
         (df : bytes -> tokenizer -> list val -> nat) (t : tokenizer) (vs : list val) {struct n} : nat :=
  match n with
  | O => O
  | S n' =>
      let name := t_val (tk_cur t) in
      match tk_expect nf T_STRING t with
      | Some (true, t1) =>
          match tk_expect nf T_COLON t1 with
          | Some (true, t2) =>
              let more vs1 t4 := match tk_expect nf T_COMMA t4 with Some (true, t5) => object_loop_depth n' nf rf df t5 vs1 | _ => O end in
              max (df name t2 vs)
                match rf name t2 vs with
                | Some (PGR_OK, vs1, t3) => more vs1 t3
                | Some (PGR_NIL, vs1, t3) =>
                    max (ignore_depth nf t3)
                      match ignore_value nf t3 with Some ((PGR_OK | PGR_NIL), t4) => more vs1 t4 | _ => O end
                | _ => O
                end
          | _ => O
          end
      | _ => O
      end
  end.

(** json.hh:33-61. *)
Definition read_object_depth (n : nat) (rf : bytes -> tokenizer -> list val -> rres (list val))
           (df : bytes -> tokenizer -> list val -> nat) (t : tokenizer) (vs : list val) : nat :=
  match tk_id t with
  | T_NIL => O
  | _ =>
      match tk_expect n T_OBJS t with
      | Some (true, t1) =>
          match tk_expect n T_OBJE t1 with
          | Some (false, t2) => object_loop_depth n n rf df t2 vs
          | _ => O
          end
      | _ => O
      end
  end.

(** code.txt:69-85. *)
Definition read_member_depth (g : gencode) (dps : list (tokenizer -> val -> nat)) (name : bytes) (t : tokenizer) (vs : list val) : nat :=
  match select_member g name with
  | None => O
  | Some k => match nth_error dps k, nth_error vs k with Some dp, Some v => dp t v | _, _ => O end
  end.

(** [json<T>::read]: its own activation and those above it.  The readers of numbers, strings
    and bytes call no other. *)
Fixpoint read_depth (n : nat) (ty0 : ty) {struct ty0} : tokenizer -> val -> nat :=
  match ty0 with
  | TRep t' => fun t _ => S (read_array_depth n (read n t') (read_depth n t') (dflt t') t)
  | TMsg ms g => fun t v =>
      match v with
      | VMsg vs => S (read_object_depth n (read_member g (map (read n) ms)) (read_member_depth g (map (read_depth n) ms)) t vs)
      | _ => 1
      end
  | _ => fun _ _ => 1
  end.

(** protogen.hh:649-653, json.hh:74-87: the depth of a call of [deserialize]. *)
Definition deserialize_depth (ty0 : ty) (v : val) (inp : bytes) (po : option params) : nat :=
  match tk_make (fuel_for inp) (mk_istream inp) (p_err (ctx_params po)) with
  | Some t => read_depth (fuel_for inp) ty0 t v
  | None => O
  end.

(** A call with a stack for [limit] activations: it gives the result if they are enough and is
    undefined otherwise. *)
Inductive stacked := SResult (r : bool * val * option params) | SOverflow | SFuel.
Definition deserialize_within (limit : nat) (ty0 : ty) (v : val) (inp : bytes) (po : option params) : stacked :=
  if deserialize_depth ty0 v inp po <=? limit
  then match deserialize ty0 v inp po with Some r => SResult r | None => SFuel end
  else SOverflow.
