(** What every .proto file means to the compiler: a machine that reads one token after
    the other, stated without the model of the compiler. *)
From Verif Require Import Bytes SpecNum SpecProto SpecPos.

(** ** Tokens *)
Definition key (k : string) (p : piece) : bool := match p with PcWord w => bytes_eqb w (b k) | _ => false end.
Definition sym (c : ascii) (p : piece) : bool := match p with PcSym d => Ascii.eqb d c | _ => false end.
Definition reserved (w : bytes) : bool := existsb (bytes_eqb w) reserved_words.
Definition with_dot (w : bytes) : bool := existsb (Ascii.eqb ".") w.

(** A possibly qualified name. *)
Definition any_name (p : piece) : option bytes :=
  match p with PcWord w => if reserved w then None else Some w | _ => None end.
(** The name of a message or of a field. *)
Definition own_name (p : piece) : option bytes :=
  match p with
  | PcWord w => if (negb (reserved w) && negb (with_dot w)) || key "message" p || key "package" p then Some w else None
  | _ => None
  end.

Definition scalars : list stype :=
  [SDouble; SFloat; SInt32; SInt64; SUint32; SUint64; SSint32; SSint64; SFixed32; SFixed64; SSfixed32;
   SSfixed64; SBoolean; SString; SBytes].
Definition a_type (p : piece) : option stype :=
  match find (fun t => match p with PcWord w => bytes_eqb w (type_word t) | _ => false end) scalars with
  | Some t => Some t
  | None => option_map SMessage (any_name p)
  end.

Definition a_value (p : piece) : option svalue :=
  match p with
  | PcNum ds => Some (SInt ds)
  | PcStr s => Some (SStr s)
  | _ => if key "true" p then Some (SBool true) else if key "false" p then Some (SBool false)
         else option_map SIdent (any_name p)
  end.

(** The number of a field: the numeral limited to 64 bits, then reduced to 32. *)
Definition number_of (ds : bytes) : Z := (Z.min (dval ds) (2 ^ 63 - 1) + 2 ^ 31) mod 2 ^ 32 - 2 ^ 31.
Definition number_fine (z : Z) : bool :=
  (0 <? z) && (z <? 536870911) && negb (z =? 19000) && negb (z =? 19999).

(** ** The machine.  A place between two tokens, with what has been read of the declaration. *)
Inductive outer :=
  | InFile
  | InMessage (name : bytes) (items : list sitem)
  | InField (name : bytes) (items : list sitem) (f : sfield).

Inductive spot :=
  | AtDecl
  | AtMessageName
  | AtMessageOpen (name : bytes)
  | AtPackage
  | AtPackageEnd (w : bytes)
  | AtSyntaxIs
  | AtVersion
  | AtSyntaxEnd (v : bytes)
  | AtItem (name : bytes) (items : list sitem)
  | AtType (name : bytes) (items : list sitem) (m : smod)
  | AtName (name : bytes) (items : list sitem) (m : smod) (t : stype)
  | AtIs (name : bytes) (items : list sitem) (m : smod) (t : stype) (w : bytes)
  | AtNumber (name : bytes) (items : list sitem) (m : smod) (t : stype) (w : bytes)
  | AfterNumber (name : bytes) (items : list sitem) (f : sfield)
  | AfterBracket (name : bytes) (items : list sitem) (f : sfield)
  | AtOption (o : outer)
  | AtOptionIs (o : outer) (w : bytes)
  | AtOptionValue (o : outer) (w : bytes)
  | AfterOption (o : outer) (x : sopt).

(** The error for a token that does not fit. *)
Definition complaint (s : spot) : bytes :=
  match s with
  | AtDecl => b "Unexpected token"
  | AtMessageName => b "Invalid message"
  | AtMessageOpen _ => b "Missing message body"
  | AtPackage | AtPackageEnd _ => b "Invalid package"
  | AtSyntaxIs => b "Expected '='"
  | AtVersion | AtSyntaxEnd _ => b "Invalid syntax"
  | AtItem _ _ | AtType _ _ _ => b "Missing field type"
  | AtName _ _ _ _ => b "Missing field name"
  | AtIs _ _ _ _ _ => b "Expected '='"
  | AtNumber _ _ _ _ _ => b "Missing field index"
  | AfterNumber _ _ _ | AfterBracket _ _ _ => b "Expected ';'"
  | AtOption _ => b "Missing option name"
  | AtOptionIs _ _ => b "Expected '='"
  | AtOptionValue _ _ => b "Invalid option value"
  | AfterOption (InField _ _ _) _ => b "Missing option name"
  | AfterOption _ _ => b "Expected '='"
  end.

(** Declarations completed by the token, and the next place; or an error. *)
Inductive move := Go (l : list sdecl) (s : spot) | Wrong (m : bytes).

Definition with_option (f : sfield) (x : sopt) : sfield :=
  SField (sf_mod f) (sf_type f) (sf_name f) (sf_number f) (sf_opts f ++ [x]).

(** The semicolon of a field. *)
Definition add_field (name : bytes) (items : list sitem) (f : sfield) : move :=
  match find (fun g => sf_number g =? sf_number f) (item_fields items) with
  | Some g => Wrong (b "Field '" ++ sf_name g ++ b "' has the same index as '" ++ sf_name f ++ b "'")
  | None => Go [] (AtItem name (items ++ [SIField f]))
  end.

Definition step (s : spot) (p : piece) : move :=
  let wrong := Wrong (complaint s) in
  match s with
  | AtDecl =>
      if key "message" p then Go [] AtMessageName else if key "package" p then Go [] AtPackage
      else if key "syntax" p then Go [] AtSyntaxIs else if key "option" p then Go [] (AtOption InFile) else wrong
  | AtMessageName => match own_name p with Some w => Go [] (AtMessageOpen w) | None => wrong end
  | AtMessageOpen name => if sym "{" p then Go [] (AtItem name []) else wrong
  | AtPackage => match any_name p with Some w => Go [] (AtPackageEnd w) | None => wrong end
  | AtPackageEnd w => if sym ";" p then Go [SDPackage w] AtDecl else wrong
  | AtSyntaxIs => if sym "=" p then Go [] AtVersion else wrong
  | AtVersion => match p with PcStr v => Go [] (AtSyntaxEnd v) | _ => wrong end
  | AtSyntaxEnd v =>
      if sym ";" p then if bytes_eqb v (b "proto3") then Go [SDSyntax] AtDecl else Wrong (b "Invalid language version")
      else wrong
  | AtItem name items =>
      if sym "}" p then Go [SDMessage name items] AtDecl
      else if key "option" p then Go [] (AtOption (InMessage name items))
      else if key "repeated" p then Go [] (AtType name items SRepeated)
      else if key "optional" p then Go [] (AtType name items SOptional)
      else match a_type p with Some t => Go [] (AtName name items SPlain t) | None => wrong end
  | AtType name items m => match a_type p with Some t => Go [] (AtName name items m t) | None => wrong end
  | AtName name items m t => match own_name p with Some w => Go [] (AtIs name items m t w) | None => wrong end
  | AtIs name items m t w => if sym "=" p then Go [] (AtNumber name items m t w) else wrong
  | AtNumber name items m t w =>
      match p with
      | PcNum ds => if number_fine (number_of ds) then Go [] (AfterNumber name items (SField m t w (number_of ds) []))
                    else Wrong (b "Invalid field index")
      | _ => wrong
      end
  | AfterNumber name items f =>
      if sym "[" p then Go [] (AtOption (InField name items f)) else if sym ";" p then add_field name items f else wrong
  | AfterBracket name items f => if sym ";" p then add_field name items f else wrong
  | AtOption (InField name items f) =>
      if sym "]" p then Go [] (AfterBracket name items f)
      else match any_name p with Some w => Go [] (AtOptionIs (InField name items f) w) | None => wrong end
  | AtOption o => match any_name p with Some w => Go [] (AtOptionIs o w) | None => wrong end
  | AtOptionIs o w => if sym "=" p then Go [] (AtOptionValue o w) else wrong
  | AtOptionValue o w => match a_value p with Some v => Go [] (AfterOption o (w, v)) | None => wrong end
  | AfterOption InFile x => if sym ";" p then Go [SDOption x] AtDecl else wrong
  | AfterOption (InMessage name items) x => if sym ";" p then Go [] (AtItem name (items ++ [SIOption x])) else wrong
  | AfterOption (InField name items f) x =>
      (* the comma may be missing, and may stand before the bracket *)
      let f' := with_option f x in
      if sym "," p then Go [] (AtOption (InField name items f'))
      else if sym "]" p then Go [] (AfterBracket name items f')
      else match any_name p with Some w => Go [] (AtOptionIs (InField name items f') w) | None => wrong end
  end.

Fixpoint reads (s : spot) (ps : list piece) : option (list sdecl * spot) :=
  match ps with
  | [] => Some ([], s)
  | p :: r =>
      match step s p with
      | Go l s' => match reads s' r with Some (l', s'') => Some (l ++ l', s'') | None => None end
      | Wrong _ => None
      end
  end.

(** The end of the file completes a message. *)
Definition closes (s : spot) : option (list sdecl) :=
  match s with
  | AtDecl => Some []
  | AtItem name items => Some [SDMessage name items]
  | _ => None
  end.

(** Names of message types that are declared nowhere, in the order of the file. *)
Definition missing (l : list sdecl) : list bytes :=
  let all := messages_of [] l in
  let declared q := existsb (fun d => let '(p, n, _) := d in bytes_eqb (full_name p n) q) all in
  flat_map (fun d => let '(pkg, _, items) := d in
    flat_map (fun f => match sf_type f with
                       | SMessage w => if declared (full_name pkg w) then [] else [full_name pkg w]
                       | _ => [] end) (item_fields items)) all.

(** ** Ends of a file *)

(** White space and comments, a lone '/', a block comment without end. *)
Definition at_end (next : bytes) : Prop :=
  exists sp, sep true sp /\
    (next = sp \/ next = sp ++ ["/"%char] \/ exists body, next = sp ++ b "/*" ++ body /\ ~ occurs (b "*/") body).

(** A string literal cut by a line feed or a NUL. *)
Definition at_cut (next : bytes) : Prop :=
  exists sp w c rest, next = sp ++ chr 34 :: w ++ c :: rest /\ sep true sp /\ Forall lit_char w /\ (c = LF \/ c = NUL).

(** Bytes that start no token. *)
Definition odd_char (c : ascii) : Prop :=
  ~ (blank c \/ pletter c \/ pdigit c \/ code c = 47 \/ code c = 34 \/ In c (b "={};,<>[]")).

(** ** The meaning of a file *)
Inductive verdict := VSchema (l : list sdecl) | VError (m : bytes) (line col : Z) | VLoop.

(** [x] is read up to the place [s], completing [l]; [next] follows. *)
Definition reads_to (text x next : bytes) (l : list sdecl) (s : spot) : Prop :=
  text = x ++ next /\ exists ps, laid true ps x next /\ reads AtDecl ps = Some (l, s).

Inductive meaning (text : bytes) : verdict -> Prop :=
  | mn_schema x next l s l' : reads_to text x next l s -> at_end next \/ at_cut next ->
      closes s = Some l' -> missing (l ++ l') = [] -> meaning text (VSchema (l ++ l'))
  | mn_missing x next l s l' q r : reads_to text x next l s -> at_end next \/ at_cut next ->
      closes s = Some l' -> missing (l ++ l') = q :: r ->
      meaning text (VError (b "Unable to find message '" ++ q ++ b "'") 0 0)
  | mn_token x sp p next l s m line col : reads_to text x (sp ++ spelling p ++ next) l s ->
      sep true sp -> piece_ok p -> may_follow p next -> step s p = Wrong m -> line_col (x ++ sp) line col ->
      meaning text (VError m line col)
  | mn_end x next l s line col : reads_to text x next l s -> at_end next -> closes s = None ->
      line_col text line col -> meaning text (VError (complaint s) line (col - 1))
  | mn_cut x next l s : reads_to text x next l s -> at_cut next -> closes s = None ->
      meaning text (VError (complaint s) 1 1)
  | mn_symbol x sp c next l s line col : reads_to text x (sp ++ c :: next) l s -> sep true sp -> odd_char c ->
      line_col (x ++ sp) line col -> meaning text (VError (b "Invalid symbol") line col)
  | mn_ident x sp w next l s line col : reads_to text x (sp ++ w ++ "."%char :: next) l s -> sep true sp -> dotted w ->
      match next with c :: _ => ~ pletter c | [] => True end -> line_col (x ++ sp) line col ->
      meaning text (VError (b "Invalid identifier") line col)
  | mn_loop x next l s : reads_to text x next l s -> endless next -> meaning text VLoop.

(** ** The schemas that are read, as a grammar *)

(** Options of a field: the commas are free. *)
Inductive opts_spelled : list sopt -> list piece -> Prop :=
  | os_nil : opts_spelled [] []
  | os_bare o l ps : opts_spelled l ps -> opts_spelled (o :: l) (opt_pieces o ++ ps)
  | os_comma o l ps : opts_spelled l ps -> opts_spelled (o :: l) (opt_pieces o ++ PcSym "," :: ps).
Inductive bracket_spelled : list sopt -> list piece -> Prop :=
  | bs_none : bracket_spelled [] []
  | bs_some l ps : opts_spelled l ps -> bracket_spelled l (PcSym "[" :: ps ++ [PcSym "]"]).
Inductive item_spelled : sitem -> list piece -> Prop :=
  | is_field f ds ps : number_of ds = sf_number f -> bracket_spelled (sf_opts f) ps ->
      item_spelled (SIField f) (mod_pieces (sf_mod f) ++
        [PcWord (type_word (sf_type f)); PcWord (sf_name f); PcSym "="; PcNum ds] ++ ps ++ [PcSym ";"])
  | is_option o : item_spelled (SIOption o) (option_pieces o).
Inductive items_spelled : list sitem -> list piece -> Prop :=
  | it_nil : items_spelled [] []
  | it_cons i l ps qs : item_spelled i ps -> items_spelled l qs -> items_spelled (i :: l) (ps ++ qs).
Inductive spelled : list sdecl -> list piece -> Prop :=
  | sp_nil : spelled [] []
  | sp_message name items l ps qs : items_spelled items ps -> spelled l qs ->
      spelled (SDMessage name items :: l) ([PcWord (b "message"); PcWord name; PcSym "{"] ++ ps ++ PcSym "}" :: qs)
  | sp_other d l qs : match d with SDMessage _ _ => False | _ => True end -> spelled l qs ->
      spelled (d :: l) (decl_pieces d ++ qs).

(** The last message may be open. *)
Inductive spelled_open : list sdecl -> list piece -> Prop :=
  | so_closed l ps : spelled l ps -> spelled_open l ps
  | so_open l ps name items qs : spelled l ps -> items_spelled items qs ->
      spelled_open (l ++ [SDMessage name items]) (ps ++ [PcWord (b "message"); PcWord name; PcSym "{"] ++ qs).

(** [text] is written for the declarations [l]. *)
Definition written (text : bytes) (l : list sdecl) : Prop :=
  exists ps x next, text = x ++ next /\ laid true ps x next /\ (at_end next \/ at_cut next) /\ spelled_open l ps.

(** ** The texts of the errors that occur *)
Definition fixed_messages : list bytes :=
  map b ["Invalid symbol"; "Invalid identifier"; "Invalid option value"; "Expected '='"; "Missing option name";
         "Missing field type"; "Missing field name"; "Invalid field index"; "Expected ';'"; "Missing field index";
         "Missing message body"; "Invalid message"; "Invalid package"; "Invalid syntax"; "Invalid language version";
         "Unexpected token"]%string.
Inductive reported (m : bytes) : Prop :=
  | rp_fixed : In m fixed_messages -> reported m
  | rp_same x y : member_name x -> member_name y ->
      m = b "Field '" ++ x ++ b "' has the same index as '" ++ y ++ b "'" -> reported m
  | rp_missing q : plain_dotted q -> m = b "Unable to find message '" ++ q ++ b "'" -> reported m.
