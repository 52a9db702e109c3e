(** Model of serialization: [json<T>::write] (source/cpp/json-*.hh, code.txt). *)
From Verif Require Import Bytes Num Dbl Types Stream Tokenizer.

(** protogen.hh:88-98, [Parameters]. *)
Record params := Par { ensure_ascii : bool; serialize_null : bool; p_err : errinfo }.

(** protogen.hh:92-97: default values. *)
Definition params_default : params := Par false false err_clear.

(** json.hh:21-29, [set_error]: the first error is kept; position 0:0. *)
Definition set_error (c : error_code) (msg : bytes) (e : errinfo) : errinfo :=
  match e_code e with PGERR_OK => EI c msg 0 0 | _ => e end.

(** ** Strings *)

(** One digit of "%x". *)
Definition hexd (d : Z) : ascii := if d <? 10 then chr (48 + d) else chr (87 + d).

(** json-string.hh:40-45, [write_escaped_utf8]: "\u%04x" for a code point below
    2^16 (all call sites: [cp2_small] and the lemmas next to it in HStrProofs.v); 6 characters fit in [buffer[7]]. *)
Definition u_escape (cp : Z) : bytes :=
  b "\u" ++ [ hexd (cp / 4096); hexd (cp / 256 mod 16); hexd (cp / 16 mod 16); hexd (cp mod 16) ].

(** json-string.hh:69-80: one byte up to 0x7F. *)
Definition esc1 (c : ascii) : bytes :=
  let z := code c in
  if z =? 34 then b "\"""
  else if z =? 92 then b "\\"
  else if z =? 47 then b "\/"
  else if z =? 8 then b "\b"
  else if z =? 12 then b "\f"
  else if z =? 13 then b "\r"
  else if z =? 10 then b "\n"
  else if z =? 9 then b "\t"
  else [c].

(** json-string.hh:132, [LEAD_OFFSET]. *)
Definition LEAD_OFFSET : Z := 55296 - Z.shiftr 65536 10.

(** json-string.hh:99, 113, 127: continuation byte test. *)
Definition is_cont (c : ascii) : bool := Z.land (code c) 192 =? 128.

(** json-string.hh:63-144, the loop of [write]: characters written, and whether
    the loop reached the end ([false]: "invalid UTF-8 code point", returned at
    lines 96, 110, 124 or 142). *)
Fixpoint esc_loop (ea : bool) (s : bytes) {struct s} : bytes * bool :=
  match s with
  | [] => ([], true)
  | c1 :: r1 =>
      let b1 := code c1 in
      if b1 <=? 127 then
        let '(o, k) := esc_loop ea r1 in (esc1 c1 ++ o, k)
      else if negb ea then
        let '(o, k) := esc_loop ea r1 in (c1 :: o, k)
      else
        match r1 with
        | [] => ([], false)                                         (* 95-96 *)
        | c2 :: r2 =>
            let b2 := code c2 in
            if (192 <=? b1) && (b1 <=? 223) && is_cont c2 then      (* 99-105 *)
              let cp := Z.lor (Z.shiftl (Z.land b1 31) 6) (Z.land b2 63) in
              let '(o, k) := esc_loop ea r2 in (u_escape cp ++ o, k)
            else
              match r2 with
              | [] => ([], false)                                   (* 109-110 *)
              | c3 :: r3 =>
                  let b3 := code c3 in
                  if (224 <=? b1) && (b1 <=? 239) && is_cont c2 && is_cont c3 then (* 113-119 *)
                    let cp := Z.lor (Z.lor (Z.shiftl (Z.land b1 15) 12)
                                           (Z.shiftl (Z.land b2 63) 6)) (Z.land b3 63) in
                    let '(o, k) := esc_loop ea r3 in (u_escape cp ++ o, k)
                  else
                    match r3 with
                    | [] => ([], false)                             (* 123-124 *)
                    | c4 :: r4 =>
                        let b4 := code c4 in
                        if (240 <=? b1) && (b1 <=? 244) && is_cont c2 && is_cont c3 && is_cont c4
                        then                                        (* 127-140 *)
                          let cp := Z.lor (Z.lor (Z.lor (Z.shiftl (Z.land b1 7) 18)
                                                        (Z.shiftl (Z.land b2 63) 12))
                                                 (Z.shiftl (Z.land b3 63) 6)) (Z.land b4 63) in
                          let lead := LEAD_OFFSET + Z.shiftr cp 10 in
                          let trail := 56320 + Z.land cp 1023 in
                          let '(o, k) := esc_loop ea r4 in
                          (u_escape lead ++ u_escape trail ++ o, k)
                        else ([], false)                            (* 142 *)
                    end
              end
        end
  end.

(** Results of writers: status, characters written, [ctx.params.error] afterwards. *)
Definition wres : Type := pgr * bytes * errinfo.

(** json-string.hh:59-147, [json<std::string>::write]. *)
Definition write_string (ea : bool) (s : bytes) (e : errinfo) : wres :=
  let '(o, k) := esc_loop ea s in
  if k then (PGR_OK, [chr 34] ++ o ++ [chr 34], e)
  else (PGR_ERROR, [chr 34] ++ o,
        set_error PGERR_INVALID_VALUE (b "invalid UTF-8 code point") e).

(** ** Base64 (json-base64.hh:24-59) *)

(** json-base64.hh:26 *)
Definition B64_SYMBOLS : bytes :=
  b "ABCDEFGHIJKLMNOPQRSTUVWXYZabcdefghijklmnopqrstuvwxyz0123456789+/".

(** Array access [B64_SYMBOLS[i]]; indices are below 64 at all call sites. *)
Definition b64_sym (i : Z) : ascii := nth (Z.to_nat i) B64_SYMBOLS NUL.

(** json-base64.hh:33-56.  The loop index [i] advances by 3; [size - i] is the
    length of the remaining list. *)
Fixpoint b64_encode (v : bytes) : bytes :=
  match v with
  | x :: y :: z :: r =>                                             (* 33-40 *)
      [ b64_sym (Z.shiftr (Z.land (code x) 255) 2);
        b64_sym (Z.lor (Z.shiftl (Z.land (code x) 3) 4) (Z.shiftr (Z.land (code y) 240) 4));
        b64_sym (Z.lor (Z.shiftl (Z.land (code y) 15) 2) (Z.shiftr (Z.land (code z) 192) 6));
        b64_sym (Z.land (code z) 63) ] ++ b64_encode r
  | [x; y] =>                                                       (* 42-56, size - i == 2 *)
      [ b64_sym (Z.shiftr (Z.land (code x) 255) 2);
        b64_sym (Z.lor (Z.shiftl (Z.land (code x) 3) 4) (Z.shiftr (Z.land (code y) 240) 4));
        b64_sym (Z.shiftl (Z.land (code y) 15) 2);
        chr 61 ]
  | [x] =>                                                          (* 42-47 *)
      [ b64_sym (Z.shiftr (Z.land (code x) 255) 2);
        b64_sym (Z.shiftl (Z.land (code x) 3) 4);
        chr 61; chr 61 ]
  | [] => []
  end.

(** ** Arithmetic values *)

(** json-number.hh:155-159 and 179-183. *)
Definition prim_text (v : pval) : bytes :=
  match v with
  | VInt z => int_to_string z
  | VDbl d => dbl_to_string d
  | VBool x => if x then b "true" else b "false"
  end.

(** ** [json<T>::write].  The value must have the type ([has_ty]); other
    combinations do not exist in C++ and give an arbitrary result. *)

(** json-array.hh:66-70: elements separated by commas; the results of the element
    writers are ignored, their errors are recorded. *)
Fixpoint write_elems (w : val -> errinfo -> wres) (l : list val) (e : errinfo)
  : bytes * errinfo :=
  match l with
  | [] => ([], e)
  | v :: r =>
      let '(_, o, e1) := w v e in
      match r with
      | [] => (o, e1)
      | _ => let '(o2, e2) := write_elems w r e1 in (o ++ [chr 44] ++ o2, e2)
      end
  end.

(** code.txt:105, the items of [write] of a message: [f] is the "first" flag; the
    result of the member writer is ignored.  The label is printed as a C string or
    as the [std::string] returned by [reveal]. *)
Fixpoint write_items (sn : bool) (ws : list (val -> errinfo -> wres)) (vs : list val)
         (items : list (nat * bytes)) (f : bool) (e : errinfo) : bytes * errinfo :=
  match items with
  | [] => ([], e)
  | (k, label) :: r =>
      match nth_error ws k, nth_error vs k with
      | Some w, Some v =>
          if sn || negb (vempty v) then
            let '(_, o, e1) := w v e in
            let '(o2, e2) := write_items sn ws vs r false e1 in
            ((if f then b """" else b ",""") ++ label ++ b """:" ++ o ++ o2, e2)
          else write_items sn ws vs r f e
      | _, _ => write_items sn ws vs r f e
      end
  end.

Fixpoint write (ea sn : bool) (t : ty) {struct t} : val -> errinfo -> wres :=
  match t with
  | TPrim _ => fun v e =>
      match v with VPrim x => (PGR_OK, prim_text x, e) | _ => (PGR_ERROR, [], e) end
  | TField _ => fun v e =>                     (* json-number.hh:126-135 *)
      match v with
      | VField em x => (PGR_OK, if em then b "null" else prim_text x, e)
      | _ => (PGR_ERROR, [], e)
      end
  | TStr => fun v e =>                         (* json-string.hh:166-174 *)
      match v with
      | VStr _ s => if vempty v then (PGR_OK, b "null", e) else write_string ea s e
      | _ => (PGR_ERROR, [], e)
      end
  | TB64 => fun v e =>                         (* json-base64.hh:24-59 *)
      match v with
      | VB64 s => (PGR_OK, [chr 34] ++ b64_encode s ++ [chr 34], e)
      | _ => (PGR_ERROR, [], e)
      end
  | TRep t' => fun v e =>                      (* json-array.hh:62-73 *)
      match v with
      | VList l =>
          let '(o, e1) := write_elems (write ea sn t') l e in
          (PGR_OK, [chr 91] ++ o ++ [chr 93], e1)
      | _ => (PGR_ERROR, [], e)
      end
  | TMsg ms g => fun v e =>                    (* code.txt:97-112 *)
      match v with
      | VMsg vs =>
          let '(o, e1) := write_items sn (map (write ea sn) ms) vs (g_write g) true e in
          (PGR_OK, [chr 123] ++ o ++ [chr 125], e1)
      | _ => (PGR_ERROR, [], e)
      end
  end.

(** ** [serialize] (json.hh:88-100) and [serialize_array] (json-array.hh:127-140)

    [po]: the [Parameters*] argument, [None] for [nullptr].  Result: returned
    boolean, characters given to the stream, [*params] afterwards. *)
Definition clear_params (po : option params) : option params :=
  match po with
  | Some p => Some (Par (ensure_ascii p) (serialize_null p) err_clear)
  | None => None
  end.

Definition ctx_params (po : option params) : params :=
  match clear_params po with Some p => p | None => params_default end.

Definition params_set_err (po : option params) (e : errinfo) : option params :=
  match po with
  | Some p => Some (Par (ensure_ascii p) (serialize_null p) e)
  | None => None
  end.

Definition serialize (t : ty) (v : val) (po : option params) : bool * bytes * option params :=
  let po1 := clear_params po in
  let pr := ctx_params po in
  match write (ensure_ascii pr) (serialize_null pr) t v (p_err pr) with
  | (PGR_OK, o, _) => (true, o, po1)
  | (_, o, e) => (false, o, params_set_err po1 e)
  end.
