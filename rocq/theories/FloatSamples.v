(** Bits used in the examples of FloatProps. *)
From Coq Require Import List NArith ZArith.
From Verif Require Import PathModel SerialModel SerialSamples.
Import ListNotations.

Definition float_one : N := 0x3F800000.
Definition float_tenth : N := 0x3DCCCCCD.
Definition double_tenth : N := 0x3FB999999999999A.
Definition float_tiny : N := 1.
Definition double_huge : N := 0x7FE0000000000000.
Definition float_inf : N := 0x7F800000.
Definition double_nan : N := 0x7FF8000000000000.
Definition float_nan : N := 0x7FC00000.
Definition double_2_53 : N := 0x4340000000000000.

(** A signalling NaN with a payload. *)
Definition float_other_nan : N := 0x7F800001.

Definition measure_ty : ty :=
  TRec [(plain [120%N] (VFlt 0), TFloat); (plain [121%N] (VSeq []), TSeq TFloat)].
Definition measure : val := VRec [VFlt float_tenth; VSeq [VFlt float_tiny; VFlt float_one]].
