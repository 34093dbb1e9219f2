(** Limits and structs used in the examples of RangeProps. *)
From Coq Require Import List NArith ZArith.
From Verif Require Import Base PathModel EnumModel SerialModel SerialSamples FloatModel RangeModel.
Import ListNotations.

Definition int_limit (z : Z) : limit := mklimit (NInt i32) (VInt z).
Definition dbl_limit (b : N) : limit := mklimit NDbl (VDbl b).

(** 0.5 and 1.0 *)
Definition double_half : N := 0x3FE0000000000000.
Definition double_one : N := 0x3FF0000000000000.
Definition float_quarter : N := 0x3E800000.
Definition float_three_quarters : N := 0x3F400000.

(** struct { unsigned char level [[kl::range(0, 10)]]; std::optional<float> gain [[kl::greater_equal(0.5)]]; } *)
Definition level_ty := TInt (mkity false 8).
Definition gain_ty := TOpt TFloat.
Definition mixer_ty : ty :=
  TRec [(with_validator (range level_ty (int_limit 0) (int_limit 10)) (plain [108%N] (VInt 0)), level_ty);
        (with_validator (greater_equal gain_ty (dbl_limit double_half)) (plain [103%N] VNone), gain_ty)].
