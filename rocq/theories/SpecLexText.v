(** The objects of the lexer as the interpreter of its text sees them, and calls of the functions of its text. *)
From Verif Require Import Bytes ProtoLex ProtoParse CLex CParse CExec HParse HExec LexSrc LexRead LexExec.

(** The lexer of the model: [next] (proto3.cc:299-373) with loops of at most [F] iterations. *)
Definition lexer := pst istate.

(** proto3.cc:30-70. *)
Definition type_num (f : ftype) : Z :=
  match f with
  | FDouble => 6 | FFloat => 7 | FInt32 => 8 | FInt64 => 9 | FUint32 => 10 | FUint64 => 11 | FSint32 => 12 | FSint64 => 13
  | FFixed32 => 14 | FFixed64 => 15 | FSfixed32 => 16 | FSfixed64 => 17 | FBool => 18 | FString => 19 | FBytes => 20 | FMessage => 21
  end.
Definition token_num (k : tcode) : Z :=
  match k with
  | KEof => 0 | KMessage => 1 | KName => 2 | KEqual => 3 | KRepeated => 4 | KType f => type_num f | KSyntax => 22 | KQName => 23
  | ProtoLex.KString => 24 | KInteger => 25 | KComment => 26 | KEnum => 27 | KScolon => 28 | KPackage => 29 | KLt => 30 | KGt => 31
  | KMap => 32 | KComma => 33 | KBegin => 34 | KEnd => 35 | KOption => 36 | KTrue => 37 | KFalse => 38 | KLbracket => 39
  | KRbracket => 40 | KOptional => 41
  end.

(** proto3.cc:263-265. *)
Definition token_obj (t : token) : hval :=
  HObj [(b "code", HI IInt (token_num (t_code t))); (b "value", HS (t_value t)); (b "line", HI IInt (t_line t)); (b "column", HI IInt (t_col t))].
(** proto3.cc:183-185. *)
Definition stream_obj (s : istate) : list (bytes * hval) :=
  [(b "cur_", HIt (i_rest s)); (b "end_", HIt []); (b "last_", HI IInt (i_last s)); (b "line_", HI IInt (i_line s));
   (b "column_", HI IInt (i_col s)); (b "ungot_", HB (i_ungot s))].
(** proto3.cc:285-286, 376. *)
Definition lexer_obj (s : lexer) : list (bytes * hval) :=
  [(b "current", token_obj (p_cur s)); (b "ungot", HB (p_ung s)); (b "is", HIn)].
Definition memory (v : list (bytes * hval)) (s : lexer) : lst := LS v (lexer_obj s) (stream_obj (p_src s)).

(** The counters of line and column, of type int, hold whatever the rest of the text does to them. *)
Definition countable (s : istate) : Prop :=
  -2 <= i_last s <= 255 /\ 0 <= i_line s /\ 0 <= i_col s /\
  i_line s + Z.of_nat (length (i_rest s)) + (if i_last s =? 10 then 1 else 0) <= 2147483647 /\
  i_col s + Z.of_nat (length (i_rest s)) <= 2147483647.

(** What the model says, for the interpreter. *)
Definition as_out {A B} (g : A -> B) (m : pres A) : out B :=
  match m with POk a => Out (g a) | PThrow e l c => Thrown e l c | PRuntime => Failed | PFuel => More end.

(** A function of the Tokenizer or of its InputStream, from the text; up to [F] iterations of each loop. *)
Definition source_call (text : bytes) (F : nat) (w : whose) (f : string) (vs : list hval) (s : lst) : out (hval * lst) :=
  lcall (ltext_of text) F 8 w (b f) vs s.

(** Calls of the functions next (true) and unget (false) of the Tokenizer one after the other, and the tokens. *)
Fixpoint text_calls (t : ltext) (F : nat) (l : list bool) (s : lst) : out (list hval) :=
  match l with
  | [] => Out []
  | true :: r => obind (lcall t F 8 WTok (b "next") [] s) (fun p => obind (text_calls t F r (snd p)) (fun q => Out (fst p :: q)))
  | false :: r => obind (lcall t F 8 WTok (b "unget") [] s) (fun p => text_calls t F r (snd p))
  end.
Fixpoint model_calls (F : nat) (l : list bool) (s : lexer) : pres (list token) :=
  match l with
  | [] => POk []
  | true :: r => pbind (p_next istate (t_next F F) s) (fun p => pbind (model_calls F r (snd p)) (fun q => POk (fst p :: q)))
  | false :: r => pbind (p_unget s) (fun p => model_calls F r (snd p))
  end.
