(** Sample texts and conversions for the JSON text examples. *)
From Coq Require Import String List NArith ZArith Arith Bool.
From Verif Require Import Base EnumModel ScalarModel ScalarSpec SerialModel SerialSpec SerialSamples JtextModel JtextSpec.
Import ListNotations.
Local Open Scope list_scope.
Local Open Scope N_scope.

(** Conversions that know two doubles, 1.5 and 2^64. *)
Definition demo_conv : dconv :=
  mkdconv (fun b => if b =? 4609434218613702656 then codes "1.5"%string else codes "18446744073709551616.0"%string)
    (fun s => if list_eq_dec N.eq_dec s (codes "1.5"%string) then Some 4609434218613702656
              else if list_eq_dec N.eq_dec s (codes "18446744073709551616"%string) then Some 4895412794951729152
              else None).
Definition demo_fp : fpconv := mkfpconv (fun _ => 0) (fun b => b) (fun b => b).

Definition bits_nan : N := 9221120237041090560.

(** vector<tuple<string, double>> *)
Definition pairs_ty : ty := TSeq (TTup [TStr; TDouble]).
(** A quotation mark, a line feed, a bell, and a letter outside ASCII. *)
Definition odd_string : list N := [34; 10; 7; 195; 169].
Definition pairs : val := VSeq [VSeq [VStr odd_string; VDbl 4609434218613702656]].
Definition pairs_doc : json := JArr [JArr [JStr odd_string; JDbl 4609434218613702656]].

(** Extra fields under the names b and a. *)
Definition half_written : val := VRec [VInt 1; VMap [([98], VInt 2); ([97], VInt 3)]].
