(** The objects of the runtime as the interpreter of its text sees them, and calls of the functions of its text. *)
From Verif Require Import Bytes Stream Tokenizer Template Cpp CLex CParse CExec Unit HdrText HText HParse HExec HTok.

(** ** The objects *)

Definition in_val (i : istream) : list (bytes * hval) :=
  [(b "beg_", HIt (is_rest i)); (b "end_", HIt []); (b "line_", HI IInt (is_line i)); (b "column_", HI IInt (is_col i))].

(** Counters that hold whatever the rest of the input does to them. *)
Definition fits (i : istream) : Prop :=
  1 <= is_line i /\ 1 <= is_col i /\
  is_line i + Z.of_nat (length (is_rest i)) <= 2147483647 /\
  is_col i + Z.of_nat (length (is_rest i)) <= 2147483647.

(** protogen.hh:251-265 (token_id), 266-275 (token). *)
Definition tid_z (t : token_id) : Z :=
  match t with
  | T_NONE => 0 | T_EOS => 1 | T_OBJS => 2 | T_OBJE => 3 | T_COLON => 4 | T_COMMA => 5 | T_STRING => 6
  | T_ARRS => 7 | T_ARRE => 8 | T_NIL => 9 | T_BTRUE => 10 | T_BFALSE => 11 | T_NUMBER => 12
  end.
Definition tok_val (t : token) : hval :=
  HObj [(b "id", HI ITid (tid_z (t_id t))); (b "value", HS (t_val t)); (b "line", HI IInt (t_line t)); (b "column", HI IInt (t_col t))].

(** protogen.hh:35-45. *)
Definition err_z (c : error_code) : Z :=
  match c with
  | PGERR_OK => 0 | PGERR_IGNORE_FAILED => 1 | PGERR_MISSING_FIELD => 2 | PGERR_INVALID_SEPARATOR => 3
  | PGERR_INVALID_VALUE => 4 | PGERR_INVALID_OBJECT => 5 | PGERR_INVALID_NAME => 6 | PGERR_INVALID_ARRAY => 7
  end.
(** protogen.hh:47-52. *)
Definition pgr_z (r : pgr) : Z := match r with PGR_OK => 0 | PGR_ERROR => 1 | PGR_NIL => 2 end.
(** protogen.hh:54-60. *)
Definition err_val (e : errinfo) : hval :=
  HObj [(b "code", HI IErr (err_z (e_code e))); (b "message", HS (e_msg e)); (b "line", HI IInt (e_line e)); (b "column", HI IInt (e_col e))].

(** The state of a tokenizer among the variables [v] and with the output [o]. *)
Definition mem (v : list (bytes * hvar)) (t : tokenizer) (o : bytes) : hst :=
  HSt v (tok_val (tk_cur t)) (err_val (tk_err t)) (in_val (tk_in t)) o.

(** ** Calls *)

(** The functions of the two classes and the enumerators, from a text of protogen.hh. *)
Definition call_of (text : bytes) (N : nat) (ea : bool) : nat -> cls -> target -> list bytes -> list hres -> hst -> option (hres * hst) :=
  callD N (consts_of (header text)) ea
    (hfunctions (inner_block (header text) stream_path)) (hfunctions (inner_block (header text) tok_path)).
Definition text_call := call_of protogen_hh.

(** With enough room for loops and open calls, the function [f] of [o] gives [r] and leaves the tokenizer as [t']. *)
Definition text_gives (o : target) (f : string) (args : list hres) (t : tokenizer) (r : hres) (t' : tokenizer) : Prop :=
  exists N0 D0, forall N d ea cl v out, (N0 <= N)%nat -> (D0 <= d)%nat ->
    text_call N ea d cl o [b f] args (mem v t out) = Some (r, mem v t' out).
Definition with_stream (t : tokenizer) (i : istream) : tokenizer := TK (tk_cur t) i (tk_err t).

(** A text with the first [old] replaced, for examples. *)
Fixpoint instead (n : nat) (old new text : bytes) : bytes :=
  match text with
  | [] => []
  | c :: r => if bytes_eqb (firstn n text) old then new ++ skipn n text else c :: instead n old new r
  end.
