(** Calls of the functions of a message and of json<N> as the text of the headers has them. *)
From Verif Require Import Bytes Types Stream Tokenizer Write Read StdIn HdrText HText HParse HStd.

Definition stds : stext := stext_of protogen_hh json_hh json_array_hh.

(** x.deserialize( in, params ) for a std::istream. *)
Definition text_std (fuel n : nat) (t : ty) (v : val) (s : std_in) (po : option params) : option (bool * val * option params * std_in) :=
  option_map fst (scall (s_iters stds) fuel n t 0 0 (s_message stds) (b "deserialize") [WIn; WPar] s [] v po).
(** x.deserialize( p, len, params ) for a const char * or char *: only the characters from p on, [len] of them, may be read. *)
Definition text_mem (fuel n : nat) (t : ty) (v : val) (w : bool) (m : bytes) (p len : nat) (s : std_in) (po : option params) :=
  scall (s_iters stds) fuel n t p (p + len) (s_message stds) (b "deserialize") [WPtr w p; WSize (Z.of_nat len); WPar] s m v po.
(** x.serialize( p, len, params ) *)
Definition text_buffer (t : ty) (v : val) (w : bool) (m : bytes) (p len : nat) (s : std_in) (po : option params) :=
  scall (s_iters stds) 0 0 t 0 0 (s_message stds) (b "serialize") [WPtr w p; WSize (Z.of_nat len); WPar] s m v po.
(** deserialize_array( container, p, len, params ) *)
Definition text_array (fuel n : nat) (t : ty) (v : val) (w : bool) (m : bytes) (p len : nat) (s : std_in) (po : option params) :=
  scall (s_iters stds) fuel n t p (p + len) (s_array stds) (b "deserialize_array") [WT; WPtr w p; WSize (Z.of_nat len); WPar] s m v po.

(** x.f( … ) where S has the functions [ser], and json<N>::f( … ). *)
Definition text_member {M} (ser : bytes -> list mval -> M -> option (mval * M)) (x : nat) (f : string) (args : list mval) (m : M) :=
  mcall ser 2 (s_entity stds) (Some x) (b f) args m.
Definition text_static {M} (ser : bytes -> list mval -> M -> option (mval * M)) (f : string) (args : list mval) (m : M) :=
  mcall ser 1 (s_json stds) None (b f) args m.

(** What a call gives as a bool, as an int, or as nothing. *)
Definition as_bool {M} (r : option (mval * M)) : option (mval * M) := match r with Some (MB x, m) => Some (MB x, m) | _ => None end.
Definition as_int {M} (r : option (mval * M)) : option (mval * M) := match r with Some (MCode x, m) => Some (MCode x, m) | _ => None end.
Definition as_void {M} (r : option (mval * M)) : option (mval * M) := option_map (fun x => (MVoid, snd x)) r.

(** The functions of S for messages of the caller, as Types.v has them. *)
Definition model_ser (f : bytes) (args : list mval) (m : list val) : option (mval * list val) :=
  match args with
  | [MObj x] =>
      match nth_error m x with
      | Some v => if bytes_eqb f (b "clear") then Some (MVoid, set_nth x (vclear v) m)
                  else if bytes_eqb f (b "empty") then Some (MB (vempty v), m) else None
      | None => None
      end
  | [MObj x; MObj y] =>
      match nth_error m x, nth_error m y with
      | Some v, Some w => if bytes_eqb f (b "equal") then Some (MB (vequal v w), m)
                          else if bytes_eqb f (b "swap") then let '(v', w') := vswap v w in Some (MVoid, set_nth y w' (set_nth x v' m)) else None
      | _, _ => None
      end
  | _ => None
  end.
