(** The program that the generated header defines. *)
From Verif Require Import Bytes Num Types ProtoLex ProtoParse Cpp Gen MainC SpecGen SpecFile SpecProgram.

(** The compiler exits with status 0 and the classes of its output compile to [env]: for every
    package and name of a message, the type of the class. *)
Definition compiles (cfg : build) (srt : list field -> list field) (text path : bytes) (env : cenv) : Prop :=
  exists out h cs, run_text cfg srt text path = CExit 0 [] out (Some (h, cs)) /\ program_ty h cs = Some env.

(** The types of bytes and of every other kind of member. *)
Definition base_ty (h : headers) (f : field) (t : ty) : Prop :=
  (f_type f = FBytes -> t = if h_base64 h then TB64 else TRep (TPrim (PInt false 8))) /\
  (f_type f = FString -> t = if f_repeated f then TRep TStr else TStr) /\
  (numeric f -> t = if f_repeated f then TRep (TPrim (prim_of (f_type f))) else TField (prim_of (f_type f))).
