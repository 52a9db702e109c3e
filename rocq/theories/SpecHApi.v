(** Calls of deserialize, serialize, deserialize_array and serialize_array as the text of the headers has them. *)
From Verif Require Import Bytes Types Stream Tokenizer Read Write HdrText CExec HParse HExec HTok SpecHTok HJson SpecHJson HApi.

Definition api : atext := api_of protogen_hh json_hh json_array_hh.

(** The objects of the caller: the message or the container, *params, the input or the output. *)
Definition params_val (p : params) : aval :=
  AO [(b "ensure_ascii", AV (HB (ensure_ascii p))); (b "serialize_null", AV (HB (serialize_null p))); (b "error", AV (err_val (p_err p)))].
Definition objects (v : val) (po : option params) (x : aval) : amem :=
  [AV (HM v); match po with Some p => params_val p | None => AV HVoid end; x].
Definition params_arg (po : option params) : ares := RV (AP (match po with Some _ => Some (1%nat, []) | None => None end)).

(** x.f( input or output, params ) of a message (true), f( x, input or output, params ) for a container (false). *)
Definition text_api (N d : nat) (member : bool) (ty0 : ty) (f : string) (v : val) (po : option params) (x : aval) : option (aval * amem) :=
  let ser ea sn := json_text N d ea sn runtime ty0 in
  if member then acall N d runtime api ser (a_entity api) (Some (0%nat, [])) 2 (b f) [RP (2%nat, []); params_arg po] (objects v po x)
  else acall N d runtime api ser (a_array api) None 2 (b f ++ b "_array") [RP (0%nat, []); RP (2%nat, []); params_arg po] (objects v po x).

(** With enough room for loops and open calls: it returns [r] and leaves these objects; [l]: those of the functions. *)
Definition api_gives (member : bool) (ty0 : ty) (f : string) (v : val) (po : option params) (x : aval)
           (r : bool) (v' : val) (po' : option params) (x' : aval) : Prop :=
  exists N0 D0, forall N d, (N0 <= N)%nat -> (D0 <= d)%nat ->
    exists l, text_api N d member ty0 f v po x = Some (AV (HB r), objects v' po' x' ++ l).

(** A std::string or std::vector<char> with these characters. *)
Inductive holds : bytes -> aval -> Prop :=
  | HoldsString : forall s, holds s (AV (HS s))
  | HoldsVector : forall s, holds s (AChars s).
(** A std::string, std::vector<char>, std::ostream or ostream that had [s], given [o]; only messages have a function for a
    std::ostream. *)
Inductive given (member : bool) (o : bytes) : aval -> aval -> Prop :=
  | GivenString : forall s, given member o (AV (HS s)) (AV (HS (s ++ o)))
  | GivenVector : forall s, given member o (AChars s) (AChars (s ++ o))
  | GivenStd : forall s, member = true -> given member o (AStd s) (AStd (s ++ o))
  | GivenOstream : forall s, given member o (AGot s) (AGot (s ++ o)).
