(** Vocabulary for floating point numbers: what number the bits stand for. *)
From Coq Require Import ZArith NArith Bool SpecFloat.
From Verif Require Import FloatModel.
Local Open Scope Z_scope.

(** A number: a multiple of 2^-1074 (every [float], [double] and integer is one), an infinity,
    or no number. *)
Inductive amount := Finite (units : Z) | PlusInf | MinusInf | NotANumber.

Definition amount_of (f : spec_float) : amount :=
  match f with
  | S754_zero _ => Finite 0
  | S754_infinity false => PlusInf
  | S754_infinity true => MinusInf
  | S754_nan => NotANumber
  | S754_finite s m e => Finite (signed s m * 2 ^ (e + 1074))
  end.

Definition integer (z : Z) : amount := Finite (z * 2 ^ 1074).

(** Strictly smaller; nothing is smaller or greater than what is not a number. *)
Definition less (a b : amount) : Prop :=
  match a, b with
  | NotANumber, _ | _, NotANumber => False
  | Finite x, Finite y => x < y
  | MinusInf, MinusInf | PlusInf, _ | _, MinusInf => False
  | MinusInf, _ | _, PlusInf => True
  end.

(** The sign of a floating point number, also of a zero. *)
Definition negative (f : spec_float) : bool :=
  match f with
  | S754_zero s | S754_infinity s | S754_finite s _ _ => s
  | S754_nan => false
  end.

Definition nan_free (F : format) (bits : N) : Prop := amount_of (decode F bits) <> NotANumber.

(** Bits of the width of the format. *)
Definition bits_of_format (F : format) (bits : N) : Prop := Z.of_N bits < 2 ^ (f_mw F + f_ew F + 1).

Definition ieee_format (F : format) : Prop := F = binary32 \/ F = binary64.

(** From here on rounding gives an infinity: the middle between the greatest number of the format and
    the next power of two. *)
Definition overflow (F : format) : Z := (2 ^ f_emax F - 2 ^ (f_emax F - f_prec F - 1)) * 2 ^ 1074.

(** [g] are the bits of the number of the format that is nearest to [x] units: no other is nearer, and
    if another is as near, the last bit is zero. *)
Definition nearest (F : format) (x : Z) (g : N) : Prop :=
  match amount_of (decode F g) with
  | Finite y =>
      Z.abs x < overflow F /\
      forall h z, bits_of_format F h -> amount_of (decode F h) = Finite z ->
        Z.abs (x - y) <= Z.abs (x - z) /\ (Z.abs (x - y) = Z.abs (x - z) -> z = y \/ N.even g = true)
  | PlusInf => overflow F <= x
  | MinusInf => x <= - overflow F
  | NotANumber => False
  end.
