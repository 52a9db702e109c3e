(** The compiler as CMakeLists.txt builds it: version 3.0.0 (lines 6-8), with the runtime
    headers of source/cpp made into macros by the template tool (lines 64-94). *)
From Verif Require Import Bytes Template Cpp CodeTxt HdrText Gen.

(** cmake.hh.in:7-8. *)
Definition real_version : bytes := b "3.0.0".
Definition real_naming : bytes := b "_3_0_0".

(** The macro of auto-NAME.hh.  [path] is the first argument of the tool. *)
Definition header_macro (path text : bytes) : option (bytes * option bytes) :=
  match template 1000 real_naming path text with
  | Some out => match defines out with [d] => Some d | _ => None end
  | None => None
  end.
Definition header_value (path text : bytes) : bytes :=
  match header_macro path text with Some (_, Some v) => v | _ => [] end.

Definition real_build : build :=
  Build real_version real_naming
    (header_value (b "/repo/source/cpp/protogen.hh") protogen_hh)
    (header_value (b "/repo/source/cpp/json.hh") json_hh)
    (header_value (b "/repo/source/cpp/json-array.hh") json_array_hh)
    (header_value (b "/repo/source/cpp/json-base64.hh") json_base64_hh)
    (header_value (b "/repo/source/cpp/json-number.hh") json_number_hh)
    (header_value (b "/repo/source/cpp/json-string.hh") json_string_hh).

(** auto-code.hh. *)
Definition code_macros : list (bytes * option bytes) :=
  match template 1000 real_naming (b "/repo/source/cpp/code.txt") code_txt with
  | Some out => defines out
  | None => []
  end.
