(** Types with bools in them. *)
From Coq Require Import List NArith ZArith.
From Verif Require Import BinModel FlagModel.
Import ListNotations.
Local Open Scope Z_scope.

Definition number32 : fty := FPlain (TInt Native true 4%nat).
(** [struct { bool on; std::string name; }] with functions of its own *)
Definition option_ty : fty := FRec [FFlag; FPlain TStr].
(** [std::map<std::string, bool>] *)
Definition switches : fty := FMap (FPlain TStr) FFlag.
(** [std::pair<std::optional<bool>, std::vector<option>>] *)
Definition settings : fty := FPair (FOpt FFlag) (FVec option_ty).
Definition settings_value : val := VPair (VOpt (Some (VInt 1))) (VSeq [VSeq [VInt 0; VStr [97%N]]]).
Definition settings_bytes : list N := [1; 1; 1; 0; 0; 0; 0; 1; 0; 0; 0; 97]%N.
