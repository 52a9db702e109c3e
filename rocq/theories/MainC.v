(** The compiler's [main] (source/main.cc, source/exception.cc). *)
From Verif Require Import Bytes Num ProtoLex ProtoParse Cpp Gen.

(** [exception::cause], exception.cc:40-45. *)
Definition cause (msg : bytes) (line col : Z) : bytes :=
  msg ++ b " (" ++ dec line ++ b ":" ++ dec col ++ b ")".

(** main.cc:85. *)
Definition report (path msg : bytes) (line col : Z) : bytes :=
  path ++ b ":" ++ dec line ++ b ":" ++ dec col ++ b ": error: " ++ cause msg line col ++ [LF].

(** [std::sort] of the fields of every message by name (main.cc:75-79).  [srt] is the
    library's algorithm; with equal names its result is not determined. *)
Definition sort_fields (srt : list field -> list field) (p : proto) : proto :=
  Proto (map (fun m => Msg (srt (m_fields m)) (m_name m) (m_package m) (m_options m)) (pr_messages p))
        (pr_options p) (pr_file p).

(** The [try] block (main.cc:71-87): exit status, text on standard error, text written to
    the output and what it declares.  Or: an exception that nobody catches, undefined
    behaviour, no end. *)
Inductive crun :=
  | CExit (status : Z) (err out : bytes) (decl : option (headers * list cls))
  | CAbort
  | CUndef
  | CHangs.

Definition run_text (cfg : build) (srt : list field -> list field) (text path : bytes) : crun :=
  match parse text path with
  | PThrow m l c => CExit 1 (report path m l c) [] None
  | PRuntime => CAbort
  | PFuel => CHangs
  | POk p =>
      match generate cfg (sort_fields srt p) with
      | (t, GOk d) => CExit 0 [] t (Some d)
      | (t, GThrow m l c) => CExit 1 (report path m l c) t None
      | (_, GUndef) => CUndef
      | (_, GFuel) => CHangs
      end
  end.

(** The environment of the program: readable files, files that can be created, and
    [realpath].  The output file is not the input file. *)
Record fsys := FS { fs_read : bytes -> option bytes; fs_create : bytes -> bool; fs_real : bytes -> option bytes }.

(** Result of the program: status, standard error, standard output, and the new content
    of the output file if it was opened (opening truncates it). *)
Inductive prun :=
  | PrExit (status : Z) (err out : bytes) (file : option (bytes * bytes))
  | PrBad (r : crun).

(** [main], main.cc:45-92, without Windows; [args] is argv without the program name. *)
Definition main (cfg : build) (srt : list field -> list field) (fs : fsys) (args : list bytes) : prun :=
  let usage := b "protogen " ++ b_version cfg ++ LF :: b "Usage: protogen <proto3 file> [ <output file> ]" ++ [LF] in
  let cannot f := b "ERROR: Unable to open '" ++ f ++ b "'" ++ [LF] in
  let go input output :=
    match fs_read fs input with
    | None => PrExit 1 (cannot input) [] None
    | Some text =>
        match output with
        | Some o =>
            if fs_create fs o then
              match fs_real fs input with
              | None => PrExit 1 [] [] (Some (o, []))
              | Some path => match run_text cfg srt text path with
                             | CExit s e t _ => PrExit s e [] (Some (o, t))
                             | x => PrBad x
                             end
              end
            else PrExit 1 (cannot o) [] None
        | None =>
            match fs_real fs input with
            | None => PrExit 1 [] [] None
            | Some path => match run_text cfg srt text path with
                           | CExit s e t _ => PrExit s e t None
                           | x => PrBad x
                           end
            end
        end
    end in
  match args with
  | [i] => go i None
  | [i; o] => go i (Some o)
  | _ => PrExit 1 usage [] None
  end.
