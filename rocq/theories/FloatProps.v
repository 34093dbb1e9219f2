(** Property C108: floating point numbers in JSON. *)
From Coq Require Import List NArith ZArith Bool SpecFloat.
From Verif Require Import Base PathModel SerialModel SerialSpec SerialSamples FloatModel FloatSpec FloatProofs FloatMainProofs FloatSamples.
Import ListNotations.
Local Open Scope Z_scope.

(** What the bits mean: sign, exponent and fraction.  The unit of amounts is 2^-1074. *)
Theorem bits_mean : forall F (s : bool) e m, ieee_format F -> 0 <= e < 2 ^ f_ew F -> 0 <= m < 2 ^ f_mw F ->
  let f := decode F (Z.to_N ((if s then 2 ^ (f_mw F + f_ew F) else 0) + e * 2 ^ f_mw F + m)) in
  negative f = (if (e =? 2 ^ f_ew F - 1) && negb (m =? 0) then false else s) /\
  amount_of f =
  if e =? 2 ^ f_ew F - 1 then if m =? 0 then if s then MinusInf else PlusInf else NotANumber
  else Finite ((if s then -1 else 1) * (if e =? 0 then m else (2 ^ f_mw F + m) * 2 ^ (e - 1)) *
               2 ^ (1074 - (2 ^ (f_ew F - 1) + f_mw F - 2))).
Proof. exact (fun F s e m HF He Hm => proj2 (bits_mean_lemma F s e m HF He Hm)). Qed.
Print Assumptions bits_mean.

(** The bits are determined by the number and its sign. *)
Theorem bits_round_trip : forall F b, ieee_format F -> bits_of_format F b -> nan_free F b -> encode F (decode F b) = b.
Proof. exact encode_decode. Qed.
Print Assumptions bits_round_trip.

(** C108: a [float] is written as the [double] of the same amount and sign, and reading gives it back. *)
Theorem float_written_exactly : forall b, bits_of_format binary32 b -> nan_free binary32 b ->
  amount_of (decode binary64 (widen ieee b)) = amount_of (decode binary32 b) /\
  negative (decode binary64 (widen ieee b)) = negative (decode binary32 b) /\
  narrow_fp ieee (widen ieee b) = b.
Proof. exact widen_lemma. Qed.
Print Assumptions float_written_exactly.

(** The condition of the round trip theorem (C30) about [float] holds for all numbers. *)
Theorem float_survives : forall b, bits_of_format binary32 b -> nan_free binary32 b -> flt_survives (Json ieee) b.
Proof. exact float_survives_lemma. Qed.
Print Assumptions float_survives.

(** C108: a number read into a [float] is the nearest [float], or an infinity from the overflow threshold
    on; infinities, NaN and signs are kept. *)
Theorem float_read_nearest : forall b,
  (forall x, amount_of (decode binary64 b) = Finite x -> nearest binary32 x (narrow_fp ieee b)) /\
  ((forall x, amount_of (decode binary64 b) <> Finite x) ->
     amount_of (decode binary32 (narrow_fp ieee b)) = amount_of (decode binary64 b)) /\
  (nan_free binary64 b -> negative (decode binary32 (narrow_fp ieee b)) = negative (decode binary64 b)).
Proof. exact narrow_lemma. Qed.
Print Assumptions float_read_nearest.

(** C108: an integer read into a [double] is the nearest [double], and the same number up to 2^53. *)
Theorem integer_read_nearest : forall z, nearest binary64 (z * 2 ^ 1074) (of_int ieee z).
Proof. exact of_int_lemma. Qed.
Print Assumptions integer_read_nearest.

Theorem integer_read_exactly : forall z, - 2 ^ 53 <= z <= 2 ^ 53 -> amount_of (decode binary64 (of_int ieee z)) = integer z.
Proof. exact of_int_exact_lemma. Qed.
Print Assumptions integer_read_exactly.

(** Not all integers are kept, and two different ones read the same. *)
Theorem integer_kept_refuted : exists z z', z <> z' /\ of_int ieee z = of_int ieee z'.
Proof. exists (2 ^ 53), (2 ^ 53 + 1). split; [discriminate | vm_compute; reflexivity]. Qed.
Print Assumptions integer_kept_refuted.

(** The bits of a NaN are not kept. *)
Theorem nan_kept_refuted : exists b, bits_of_format binary32 b /\ narrow_fp ieee (widen ieee b) <> b.
Proof. exists float_other_nan. split; [vm_compute; reflexivity | vm_compute; discriminate]. Qed.
Print Assumptions nan_kept_refuted.

Example tenth_read :
  narrow_fp ieee double_tenth = float_tenth /\ widen ieee float_tenth <> double_tenth /\
  narrow_fp ieee double_huge = float_inf /\ narrow_fp ieee double_nan = float_nan /\
  of_int ieee (2 ^ 53) = double_2_53 /\ of_int ieee (-1) = (0x8000000000000000 + 0x3FF0000000000000)%N /\
  bits_of_format binary32 float_tenth.
Proof. vm_compute. repeat split; discriminate. Qed.

(** The smallest [float] is subnormal as a [float], not as a [double]. *)
Example measure_kept :
  match serialize (Json ieee) false measure_ty measure with
  | Ok j => j <> JNull /\ deser (Json ieee) measure_ty j (default_of measure_ty) = (measure, None)
  | _ => False
  end /\ widen ieee float_tiny = 0x36A0000000000000%N.
Proof. vm_compute. repeat split; discriminate. Qed.
