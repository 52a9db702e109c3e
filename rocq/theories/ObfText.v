(** The functions rol and obfuscate of the generator (source/cpp/cppgen.cc:207-224) from their text, and their execution.  [None]:
    undefined, ill-formed or not in this part of C++. *)
From Verif Require Import Bytes Num Types Template Cpp CLex CParse CExec Unit HText HParse HExec HTok HNum LexRead.

(** source/cpp/cppgen.cc:207-225. *)
Definition obfuscate_cc : bytes := text_of [
  b "template <typename T>";
  b "T rol( T value, int count )";
  b "{";
  b "	static_assert(std::is_unsigned<T>::value, ""Unsupported signed type"");";
  b "	return (T) ((value << count) | (value >> (-count & ((int)sizeof(T) * 8 - 1))));";
  b "}";
  b "";
  b "static inline std::string obfuscate( const std::string &value )";
  b "{";
  b "    uint8_t mask = rol<uint8_t>(0x93U, value.length() % 8);";
  b "	std::stringstream result;";
  b "	for (size_t i = 0, t = value.length(); i < t; ++i)";
  b "    {";
  b "		result << ""\\x"";";
  b "        result << std::hex << ((uint8_t) value[i] ^ mask);";
  b "    }";
  b "	return result.str();";
  b "}"].

(** ** Reading *)

(** "std::stringstream x;" is read as "auto x = std::stringstream();". *)
Fixpoint streams (l : list ctok) : list ctok :=
  match l with
  | [] => []
  | k :: r =>
      match r with
      | c :: s :: KId x :: q :: r' =>
          if words_eqb (map spelling [k; c; s; q]) (words_of "std::stringstream;")
          then KKw (b "auto") :: KId x :: KOp (b "=") :: k :: c :: s :: KOp (b "(") :: KOp (b ")") :: q :: streams r'
          else k :: streams r
      | _ => k :: streams r
      end
  end.
Definition obf_funs (text : bytes) : list hfun :=
  match op_lines (OP XText [] []) (logical_lines text) with
  | Some (ks, OP XText _ []) => match trees (streams ks) with Some l => nfunctions (PInt false 8) l | None => [] end
  | _ => []
  end.

(** ** Execution *)

(** A std::stringstream: its name, whether integers are written in hexadecimal, what was written. *)
Record sstream := SS { ss_name : bytes; ss_hex : bool; ss_text : bytes }.
Definition ostate := (nst * option sstream)%type.

(** "%x" (C99 7.21.6.1) of an unsigned int. *)
Definition low_hex (d : Z) : ascii := if d <? 10 then chr (48 + d) else chr (87 + d).
Fixpoint hex_go (k : nat) (z : Z) (r : bytes) : bytes :=
  match k with
  | O => r
  | S k' => let r' := low_hex (z mod 16) :: r in if z / 16 =? 0 then r' else hex_go k' (z / 16) r'
  end.
Definition hex_text (z : Z) : bytes := hex_go 8 (z mod 2 ^ 32) [].
(** What "<<" writes (27.7.3.6): a C string, an int. *)
Definition inserted (hex : bool) (v : nval) : option bytes :=
  match v with
  | NP t => Some (cstr t)
  | NI IInt z => Some (if hex then hex_text z else dec z)
  | _ => None
  end.

Definition w_stringstream : list bytes := Eval vm_compute in words_of "std::stringstream".
Definition w_std_hex : list bytes := Eval vm_compute in words_of "std::hex".

Section Exec.
  Context (loops : nat) (call : list bytes -> list nval -> option nval).
  Notation ev := (neval false true true call).

  (** x << … << e *)
  Fixpoint insert (e : hexpr) (s : ostate) : option ostate :=
    match e with
    | EName [x] => match snd s with Some o => if same x (ss_name o) then Some s else None | None => None end
    | EBin op l r =>
        if same op (b "<<") then
          match insert l s with
          | Some (n, Some o) =>
              match r with
              | EName (w :: c :: q) => if words_eqb (w :: c :: q) w_std_hex then Some (n, Some (SS (ss_name o) true (ss_text o))) else None
              | _ => match ev r n with
                     | Some (v, n1) => option_map (fun t => (n1, Some (SS (ss_name o) (ss_hex o) (ss_text o ++ t)))) (inserted (ss_hex o) v)
                     | None => None
                     end
              end
          | _ => None
          end
        else None
    | _ => None
    end.
  Fixpoint inserts (l : list hstmt) (s : ostate) : option ostate :=
    match l with
    | [] => Some s
    | TExpr [e] :: r => match insert e s with Some s1 => inserts r s1 | None => None end
    | _ => None
    end.
  (** Declarations of variables. *)
  Fixpoint declare (l : list hstmt) (n : nst) : option nst :=
    match l with
    | [] => Some n
    | TVar t x dim init :: r => match ndeclare false true true call t x dim init n with Some n1 => declare r n1 | None => None end
    | _ => None
    end.
  Fixpoint oloop (k : nat) (c p : hexpr) (body : list hstmt) (s : ostate) : option ostate :=
    match k with
    | O => None
    | S k' =>
        match ev c (fst s) with
        | Some (NB true, n1) =>
            match inserts body (n1, snd s) with
            | Some (n2, o) => match ev p n2 with Some (_, n3) => oloop k' c p body (n3, o) | None => None end
            | None => None
            end
        | Some (NB false, n1) => Some (n1, snd s)
        | _ => None
        end
    end.
  (** The statements up to "return x.str();". *)
  Fixpoint obody (l : list hstmt) (s : ostate) : option bytes :=
    match l with
    | TVar t x None (Some (ECall (EName w) [])) :: r =>
        if words_eqb t [b "auto"] && words_eqb w w_stringstream then
          match snd s with None => obody r (fst s, Some (SS x false [])) | Some _ => None end
        else None
    | TVar t x dim init :: r => match declare [TVar t x dim init] (fst s) with Some n => obody r (n, snd s) | None => None end
    | TFor (TSeq d) c [p] (TBlock body) :: r =>
        match declare d (fst s) with
        | Some n => match oloop loops c p body (n, snd s) with
                    | Some (n1, o) => obody r (NSt (skipn (length (n_vars n1) - length (n_vars (fst s))) (n_vars n1)) (n_loc n1), o)
                    | None => None
                    end
        | None => None
        end
    | [TReturn (Some (ECall (EDot (EName [x]) m) []))] =>
        match snd s with Some o => if same x (ss_name o) && same m (b "str") then Some (ss_text o) else None | None => None end
    | _ => None
    end.
End Exec.

(** A call of obfuscate; "rol<uint8_t>" is executed from its text too. *)
Definition call_obfuscate (fs : list hfun) (loops : nat) (value : bytes) : option bytes :=
  match hfind fs (b "obfuscate") with
  | Some f =>
      match nbind (hf_params f) [NS value] with
      | Some vs =>
          if words_eqb (hf_ret f) w_std_string then
            obody loops (fun ws xs => match ws with
                                      | [g; o; t; c] => if words_eqb [o; t; c] (words_of "<uint8_t>") then option_map fst (ncall fs 1 loops false true true LOwn g xs) else None
                                      | _ => None
                                      end) (hf_body f) (NSt vs LOwn, None)
          else None
      | None => None
      end
  | None => None
  end.
