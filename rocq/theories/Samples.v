(** Sample message types used by the examples beside the theorems. *)
From Verif Require Import Bytes Num Dbl Types.

(** Tables for labels [l] without obfuscation, all fields persistent. *)
Definition plain_tables (l : list bytes) : gencode :=
  GC (combine (seq 0 (length l)) l) false
     (combine l (map Z.of_nat (seq 0 (length l))))
     (map (fun k => (Z.of_nat k, k)) (seq 0 (length l))).

(** message Inner { bool flag; double ratio; } *)
Definition inner_ty : ty :=
  TMsg [TField PBool; TField PDouble] (plain_tables [b "flag"; b "ratio"]).

(** message Outer { int32 id; Inner inner; string name; bytes raw; repeated string tags } *)
Definition outer_ty : ty :=
  TMsg [TField (PInt true 32); inner_ty; TStr; TB64; TRep TStr]
       (plain_tables [b "id"; b "inner"; b "name"; b "raw"; b "tags"]).

Definition outer_val : val :=
  VMsg [VField false (VInt (-7));
        VMsg [VField false (VBool true); VField true (VDbl (DZero false))];
        VStr false (b "caf" ++ [chr 195; chr 169]);
        VB64 [chr 0; chr 255; chr 16; chr 3];
        VList [VStr false (b "a"); VStr false (b "b""c")]].

Definition outer_doc : bytes :=
  b "{ ""extra"": [1, {""x"": null}], ""id"": 12, ""name"": ""é"", ""inner"": { ""flag"": true },"
  ++ [LF] ++ b " ""tags"": [""x"", ""y""], ""id"": 13 }".
