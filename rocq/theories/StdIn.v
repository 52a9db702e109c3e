(** Reading from a [std::istream], with what the call leaves behind in the stream. *)
From Verif Require Import Bytes Num Dbl Types Stream Tokenizer Write Read GenRead.

(** ** [std::istream]

    What it still has to deliver, whether [failbit] is set (then [eofbit] does not matter),
    and the flag [skipws].  Read errors of the device, [badbit], exceptions switched on by
    [exceptions()], and [putback] are not modelled. *)
Record std_in := SIn { si_text : bytes; si_failed : bool; si_skipws : bool }.

(** [isspace] in the "C" locale (27.7.2.1.3, the sentry). *)
Definition is_space_c (c : ascii) : bool := (code c =? 32) || ((9 <=? code c) && (code c <=? 13)).
Fixpoint drop_spaces (l : bytes) : bytes :=
  match l with c :: r => if is_space_c c then drop_spaces r else l | [] => [] end.

(** [in >> c] (27.7.2.2.3): nothing happens if the stream has failed before. *)
Definition si_extract (s : std_in) : option ascii * std_in :=
  if si_failed s then (None, s)
  else match (if si_skipws s then drop_spaces (si_text s) else si_text s) with
       | [] => (None, SIn [] true (si_skipws s))
       | c :: r => (Some c, SIn r false (si_skipws s))
       end.

(** [std::noskipws], [std::skipws]. *)
Definition si_set_skipws (x : bool) (s : std_in) : std_in := SIn (si_text s) (si_failed s) x.

(** ** [std::istream_iterator<char>] (24.6.1)

    The character read last, [None] for an end-of-stream iterator, and the stream itself,
    which the copies of an iterator share.  Only one copy is ever advanced
    (protogen.hh:181), so the stream may be kept with it. *)
Definition si_iops : iter_ops (option ascii * std_in) :=
  IO (option ascii * std_in)
    (fun x y => match fst x, fst y with None, None => true | Some _, Some _ => true | _, _ => false end)
    fst
    (fun x => match fst x with None => None | Some _ => Some (si_extract (snd x)) end).

(** protogen.hh:637-647 with json.hh:74-87.  As [GenRead.g_deserialize], but the stream is
    kept.  The iterator [last] has no stream. *)
Definition deserialize_std (pc : ascii -> Z) (fuel n : nat) (ty0 : ty) (v : val) (s : std_in) (po : option params)
  : option (bool * val * option params * std_in) :=
  let skip := si_skipws s in
  let first := si_extract (si_set_skipws false s) in
  let last := (None, SIn [] true false) in
  let? i := ii_make si_iops fuel first last in
  let po1 := clear_params po in
  let finish t := let s1 := snd (ii_beg (gk_in t)) in if skip then si_set_skipws true s1 else s1 in
  let? t := g_make (ii_ops pc si_iops fuel) n i (p_err (ctx_params po)) in
  match g_read pc (ii_ops pc si_iops fuel) n ty0 t v with
  | None => None
  | Some (PGR_OK, v', t') => Some (true, v', po1, finish t')
  | Some (_, v', t') => Some (false, v', params_set_err po1 (gk_err t'), finish t')
  end.

(** Enough fuel for the stream; signed [char], which makes no difference (C61_plain). *)
Definition read_std (ty0 : ty) (v : val) (s : std_in) (po : option params) :=
  deserialize_std schar (S (length (si_text s))) (fuel_for (si_text s)) ty0 v s po.

(** The caller's loop: one object after another, all of one type, as long as it works. *)
Fixpoint read_many (k : nat) (ty0 : ty) (s : std_in) : option (list val * std_in) :=
  match k with
  | O => Some ([], s)
  | S k' =>
      match read_std ty0 (dflt ty0) s None with
      | Some (true, v, _, s1) =>
          match read_many k' ty0 s1 with Some (l, s2) => Some (v :: l, s2) | None => None end
      | Some (false, _, _, s1) => Some ([], s1)
      | None => None
      end
  end.
