(** The parser of the .proto compiler (source/proto3.cc:486-809, proto3.hh). *)
From Verif Require Import Bytes Num ProtoLex.

(** ** Syntax tree (proto3.hh:29-104) *)

Inductive otype := OIdentifier | OString | OInteger | OBoolean.

(** [OptionEntry], proto3.hh:68-74. *)
Record oentry := OE { o_name : bytes; o_type : otype; o_value : bytes; o_line : Z }.

(** [OptionMap] is an [unordered_map] keyed by the option name (proto3.hh:76): a list
    of entries with distinct names.  Only [entries[name] = e], [count] and [at] are used
    (proto3.cc:570, 587, cppgen.cc:228-242), so the order is irrelevant. *)
Definition omap := list oentry.

Definition o_put (e : oentry) (m : omap) : omap :=
  e :: filter (fun x => negb (bytes_eqb (o_name x) (o_name e))) m.

Definition o_find (name : bytes) (m : omap) : option oentry :=
  find (fun x => bytes_eqb (o_name x) name) m.

(** [Field] with its [TypeInfo] (proto3.hh:51-58, 78-84).  [f_ref]: the message that
    [type.ref] points to, as its position in the [messages] vector at the end of
    parsing (messages are only appended); [None] is the null pointer. *)
Record field := Fld {
  f_type : ftype;
  f_qname : bytes;
  f_ref : option nat;
  f_repeated : bool;
  f_optional : bool;
  f_name : bytes;
  f_index : Z;
  f_options : omap
}.

(** [Message], proto3.hh:86-95. *)
Record message := Msg {
  m_fields : list field;
  m_name : bytes;
  m_package : bytes;
  m_options : omap
}.

(** [Proto3], proto3.hh:97-104. *)
Record proto := Proto {
  pr_messages : list message;
  pr_options : omap;
  pr_file : bytes
}.

(** [Message::qualifiedName], proto3.cc:515-519. *)
Definition qualified (m : message) : bytes :=
  match m_package m with [] => m_name m | p => p ++ "."%char :: m_name m end.

(** [findMessage], proto3.cc:591-596: position of the first message with the name. *)
Fixpoint find_message (l : list message) (name : bytes) : option nat :=
  match l with
  | [] => None
  | m :: l' => if bytes_eqb (qualified m) name then Some O
               else option_map S (find_message l' name)
  end.

(** ** The parser.  It is written over any source of tokens: [src] is the state of the
    source and [nxt] reads one token from it.  [parse] below uses the lexer. *)
Section Parser.
  Variable src : Type.
  Variable nxt : src -> pres (token * src).

  (** [Tokenizer]: [current] and [ungot] (proto3.cc:285-286) and the stream. *)
  Record pst := PS { p_src : src; p_cur : token; p_ung : bool }.

  (** State-passing functions that may throw. *)
  Definition M (A : Type) := pst -> pres (A * pst).
  Definition ret {A} (a : A) : M A := fun s => POk (a, s).
  Definition bind {A B} (m : M A) (k : A -> M B) : M B :=
    fun s => match m s with
             | POk (a, s') => k a s'
             | PThrow e l c => PThrow e l c
             | PRuntime => PRuntime
             | PFuel => PFuel
             end.

  Notation "x <- m ;; k" := (bind m (fun x => k)) (at level 61, m at next level, right associativity).

  (** [Tokenizer::next], the [ungot] branch (proto3.cc:306-310) and otherwise the lexer. *)
  Definition p_next : M token := fun s =>
    if p_ung s then POk (p_cur s, PS (p_src s) (p_cur s) false)
    else match nxt (p_src s) with
         | POk (t, r) => POk (t, PS r t false)
         | PThrow e l c => PThrow e l c
         | PRuntime => PRuntime
         | PFuel => PFuel
         end.

  (** [Tokenizer::unget], proto3.cc:292-297. *)
  Definition p_unget : M unit := fun s =>
    if p_ung s then PThrow (b "Already ungot") (t_line (p_cur s)) (t_col (p_cur s))
    else POk (tt, PS (p_src s) (p_cur s) true).

  (** [ctx.tokens.current]. *)
  Definition p_current : M token := fun s => POk (p_cur s, s).

  (** [throw exception(msg, line, column)] at the current token (CURRENT_TOKEN_POSITION,
      proto3.cc:28). *)
  Definition p_throw {A} (msg : bytes) : M A := fun s =>
    PThrow msg (t_line (p_cur s)) (t_col (p_cur s)).

  Definition p_fuel {A} : M A := fun _ => PFuel.

  (** The option value (proto3.cc:539-557). *)
  Definition option_type (c : tcode) : option otype :=
    match c with
    | KTrue | KFalse => Some OBoolean
    | KName | KQName => Some OIdentifier
    | KInteger => Some OInteger
    | KString => Some OString
    | _ => None
    end.

  (** [parseOption], proto3.cc:522-560. *)
  Definition parse_option : M oentry :=
    t0 <- p_current ;;
    t1 <- p_next ;;
    match t_code t1 with
    | KName | KQName =>
        t2 <- p_next ;;
        match t_code t2 with
        | KEqual =>
            t3 <- p_next ;;
            match option_type (t_code t3) with
            | Some ty => ret (OE (t_value t1) ty (t_value t3) (t_line t0))
            | None => p_throw (b "Invalid option value")
            end
        | _ => p_throw (b "Expected '='")
        end
    | _ => p_throw (b "Missing option name")
    end.

  (** [parseFieldOptions], proto3.cc:562-574. *)
  Fixpoint parse_field_options (n : nat) (m : omap) : M omap :=
    match n with
    | O => p_fuel
    | S n' =>
        t <- p_next ;;
        match t_code t with
        | KRbracket => _ <- p_unget ;; ret m
        | _ =>
            _ <- p_unget ;;
            o <- parse_option ;;
            t2 <- p_next ;;
            match t_code t2 with
            | KComma => parse_field_options n' (o_put o m)
            | _ => _ <- p_unget ;; parse_field_options n' (o_put o m)
            end
        end
    end.

  (** [parseStandardOption], proto3.cc:577-588 (the message says '=' where ';' is meant). *)
  Definition parse_standard_option (m : omap) : M omap :=
    o <- parse_option ;;
    t <- p_next ;;
    match t_code t with
    | KScolon => ret (o_put o m)
    | _ => p_throw (b "Expected '='")
    end.

  (** Names allowed for fields and messages: TOKEN_NAME, and the keywords "message"
      and "package" (proto3.cc:653, 695). *)
  Definition name_code (c : tcode) : bool :=
    match c with KName | KMessage | KPackage => true | _ => false end.

  (** [(int) strtol(value, nullptr, 10)], proto3.cc:662. *)
  Definition field_number (v : bytes) : Z := cast_int true 32 (strtol v).

  (** proto3.cc:664. *)
  Definition bad_number (z : Z) : bool :=
    (z <=? 0) || (536870911 <=? z) || (z =? 19999) || (z =? 19000).

  (** The modifiers (proto3.cc:603-613): the token of the type, repeated, optional. *)
  Definition parse_modifier : M (token * bool * bool) :=
    t <- p_current ;;
    match t_code t with
    | KRepeated => t' <- p_next ;; ret (t', true, false)
    | KOptional => t' <- p_next ;; ret (t', false, true)
    | _ => ret (t, false, false)
    end.

  (** [package + '.' + name] or [name] (proto3.cc:622-627). *)
  Definition type_qname (pkg name : bytes) : bytes :=
    match pkg with [] => name | _ => pkg ++ "."%char :: name end.

  (** The type (proto3.cc:616-649; the part for maps is disabled by [#if 0]): field type,
      qualified name and reference.  [msgs]: the messages parsed so far. *)
  Definition parse_type (msgs : list message) (pkg : bytes) (t : token)
    : M (ftype * bytes * option nat) :=
    match t_code t with
    | KType f => ret (f, [], None)
    | KName | KQName =>
        let q := type_qname pkg (t_value t) in
        ret (FMessage, q, find_message msgs q)
    | _ => p_throw (b "Missing field type")
    end.

  (** The options of a field (proto3.cc:669-676). *)
  Definition parse_bracket (F : nat) (t : token) : M omap :=
    match t_code t with
    | KLbracket =>
        m <- parse_field_options F [] ;;
        t1 <- p_next ;;
        match t_code t1 with
        | KRbracket => _ <- p_next ;; ret m
        | _ => p_throw (b "Expected ']'")
        end
    | _ => ret []
    end.

  (** [parseField], proto3.cc:599-688: the fields of the message afterwards. *)
  Definition parse_field (F : nat) (msgs : list message) (pkg : bytes) (fs : list field)
    : M (list field) :=
    ty <- parse_modifier ;;
    let '(t, rep, opt) := ty in
    r <- parse_type msgs pkg t ;;
    let '(f, q, ref) := r in
    tn <- p_next ;;
    if negb (name_code (t_code tn)) then p_throw (b "Missing field name")
    else
    te <- p_next ;;
    match t_code te with
    | KEqual =>
        ti <- p_next ;;
        match t_code ti with
        | KInteger =>
            let z := field_number (t_value ti) in
            if bad_number z then p_throw (b "Invalid field index")
            else
            tb <- p_next ;;
            os <- parse_bracket F tb ;;
            ts <- p_current ;;
            match t_code ts with
            | KScolon =>
                match find (fun x => f_index x =? z) fs with
                | Some x => p_throw (b "Field '" ++ f_name x ++ b "' has the same index as '"
                                     ++ t_value tn ++ b "'")
                | None => ret (fs ++ [Fld f q ref rep opt (t_value tn) z os])
                end
            | _ => p_throw (b "Expected ';'")
            end
        | _ => p_throw (b "Missing field index")
        end
    | _ => p_throw (b "Expected '='")
    end.

  (** The body of a message (proto3.cc:703-711). *)
  Fixpoint parse_body (F n : nat) (msgs : list message) (pkg : bytes) (fs : list field) (os : omap)
    : M (list field * omap) :=
    match n with
    | O => p_fuel
    | S n' =>
        t <- p_next ;;
        match t_code t with
        | KEof => ret (fs, os)
        | KEnd => ret (fs, os)
        | KOption => os' <- parse_standard_option os ;; parse_body F n' msgs pkg fs os'
        | _ => fs' <- parse_field F msgs pkg fs ;; parse_body F n' msgs pkg fs' os
        end
    end.

  (** [parseMessage], proto3.cc:690-718, called with the current token "message". *)
  Definition parse_message (F : nat) (pkg : bytes) (msgs : list message) : M (list message) :=
    tn <- p_next ;;
    if name_code (t_code tn) then
      tb <- p_next ;;
      match t_code tb with
      | KBegin =>
          r <- parse_body F F msgs pkg [] [] ;;
          let '(fs, os) := r in
          ret (msgs ++ [Msg fs (t_value tn) pkg os])
      | _ => p_throw (b "Missing message body")
      end
    else p_throw (b "Invalid message").

  (** [parsePackage], proto3.cc:720-727. *)
  Definition parse_package : M bytes :=
    t <- p_next ;;
    match t_code t with
    | KName | KQName =>
        t1 <- p_next ;;
        match t_code t1 with
        | KScolon => ret (t_value t)
        | _ => p_throw (b "Invalid package")
        end
    | _ => p_throw (b "Invalid package")
    end.

  (** [parseSyntax], proto3.cc:729-743. *)
  Definition parse_syntax : M unit :=
    te <- p_next ;;
    match t_code te with
    | KEqual =>
        t <- p_next ;;
        match t_code t with
        | KString =>
            t1 <- p_next ;;
            match t_code t1 with
            | KScolon =>
                if bytes_eqb (t_value t) (b "proto3") then ret tt
                else p_throw (b "Invalid language version")
            | _ => p_throw (b "Invalid syntax")
            end
        | _ => p_throw (b "Invalid syntax")
        end
    | _ => p_throw (b "Expected '='")
    end.

  (** The condition [current.code != 0] at the end of the loop of [parseProto]
      (proto3.cc:770). *)
  Definition p_more : M bool :=
    t <- p_current ;; ret (match t_code t with KEof => false | _ => true end).

  (** [parseProto], proto3.cc:745-771: messages and options; [pkg] is [ctx.package]. *)
  Fixpoint parse_proto (F n : nat) (pkg : bytes) (msgs : list message) (os : omap)
    : M (list message * omap) :=
    match n with
    | O => p_fuel
    | S n' =>
        let again pkg msgs os :=
          more <- p_more ;; if more then parse_proto F n' pkg msgs os else ret (msgs, os) in
        t <- p_next ;;
        match t_code t with
        | KMessage => msgs' <- parse_message F pkg msgs ;; again pkg msgs' os
        | KPackage => pkg' <- parse_package ;; again pkg' msgs os
        | KComment => again pkg msgs os
        | KSyntax => _ <- parse_syntax ;; again pkg msgs os
        | KOption => os' <- parse_standard_option os ;; again pkg msgs os'
        | KEof => ret (msgs, os)
        | _ => p_throw (b "Unexpected token")
        end
    end.
End Parser.

Arguments PS {src}. Arguments p_src {src}. Arguments p_cur {src}. Arguments p_ung {src}.
Arguments ret {src A}. Arguments bind {src A B}. Arguments p_unget {src}.
Arguments p_current {src}. Arguments p_throw {src A}. Arguments p_fuel {src A}.
Arguments p_more {src}. Arguments parse_type {src}.

(** ** [Proto3::parse] (proto3.cc:773-809) *)

(** The fields of one message in the last loop (proto3.cc:799-807). *)
Fixpoint resolve_fields (msgs : list message) (fs : list field) : pres (list field) :=
  match fs with
  | [] => POk []
  | f :: r =>
      let! f' :=
        match f_type f, f_ref f with
        | FMessage, None =>
            match find_message msgs (f_qname f) with
            | Some k => POk (Fld (f_type f) (f_qname f) (Some k) (f_repeated f) (f_optional f)
                                 (f_name f) (f_index f) (f_options f))
            | None => PThrow (b "Unable to find message '" ++ f_qname f ++ b "'") 0 0
            end
        | _, _ => POk f
        end in
      let! r' := resolve_fields msgs r in POk (f' :: r')
  end.

Fixpoint resolve_messages (msgs : list message) (l : list message) : pres (list message) :=
  match l with
  | [] => POk []
  | m :: r =>
      let! fs := resolve_fields msgs (m_fields m) in
      let! r' := resolve_messages msgs r in
      POk (Msg fs (m_name m) (m_package m) (m_options m) :: r')
  end.

(** [parseProto] on a source and the last loop. *)
Definition parse_source {src} (nxt : src -> pres (token * src)) (F : nat) (r : src) (file : bytes)
  : pres proto :=
  match parse_proto src nxt F F [] [] [] (PS r token0 false) with
  | POk ((msgs, os), _) =>
      let! msgs' := resolve_messages msgs msgs in POk (Proto msgs' os file)
  | PThrow e l c => PThrow e l c
  | PRuntime => PRuntime
  | PFuel => PFuel
  end.

(** [parse_with F text file]: every loop may run [F] times.  [parse]: enough for every file
    on which the code terminates (C26). *)
Definition parse_with (F : nat) (text file : bytes) : pres proto :=
  parse_source (t_next F F) F (i_start text) file.

Definition parse (text file : bytes) : pres proto := parse_with (length text + 3) text file.
