(** The number a decimal numeral stands for, and the double nearest to it. *)
From Coq Require Import List NArith ZArith Bool SpecFloat.
From Verif Require Import ScalarSpec FloatModel FloatSpec JtextSpec.
Import ListNotations.
Local Open Scope list_scope.
Local Open Scope Z_scope.

Local Notation str := (list N) (only parsing).

(** The numeral [s] of RFC 8259 stands for [m * 10^p], below zero if [neg]. *)
Definition stands_for (s : str) (neg : bool) (m : N) (p : Z) : Prop :=
  exists body f fd e x,
    s = (if neg then [45%N] else []) ++ body ++ f ++ e /\
    digits body /\ (forall t, body = 48%N :: t -> t = []) /\
    (f = [] /\ fd = [] \/ f = 46%N :: fd /\ digits fd) /\
    (e = [] /\ x = 0 \/
     exists c sign ds n, e = c :: sign ++ ds /\ (c = 101%N \/ c = 69%N) /\ numeral 10 ds n /\
       ((sign = [] \/ sign = [43%N]) /\ x = Z.of_N n \/ sign = [45%N] /\ x = - Z.of_N n)) /\
    numeral 10 (body ++ fd) m /\ p = x - Z.of_nat (length fd).

(** The exponent of a numeral, which may be missing. *)
Definition exponent_text (e : str) : Prop :=
  e = [] \/ exists c sign ds, e = c :: sign ++ ds /\ (c = 101%N \/ c = 69%N) /\ (sign = [] \/ sign = [43%N] \/ sign = [45%N]) /\ digits ds.

(** [g] are the bits of the number of the format nearest to [a / b] units of 2^-1074,
    for [b > 0]: no other is nearer, and if another is as near, the last bit is zero. *)
Definition nearest_ratio (F : format) (a b : Z) (g : N) : Prop :=
  match amount_of (decode F g) with
  | Finite y =>
      Z.abs a < overflow F * b /\
      forall h z, bits_of_format F h -> amount_of (decode F h) = Finite z ->
        Z.abs (a - y * b) <= Z.abs (a - z * b) /\ (Z.abs (a - y * b) = Z.abs (a - z * b) -> z = y \/ N.even g = true)
  | PlusInf => overflow F * b <= a
  | MinusInf => a <= - overflow F * b
  | NotANumber => False
  end.

(** [m * 10^p], as a ratio of units. *)
Definition above (neg : bool) (m : N) (p : Z) : Z := (if neg then - Z.of_N m else Z.of_N m) * 10 ^ Z.max p 0 * 2 ^ 1074.
Definition below (p : Z) : Z := 10 ^ Z.max (- p) 0.
Definition nearest_decimal (neg : bool) (m : N) (p : Z) (g : N) : Prop := nearest_ratio binary64 (above neg m p) (below p) g.

(** Every other double is farther from [m * 10^p]. *)
Definition closest_decimal (neg : bool) (m : N) (p : Z) (g : N) : Prop :=
  exists y, amount_of (decode binary64 g) = Finite y /\
    forall h z, bits_of_format binary64 h -> amount_of (decode binary64 h) = Finite z -> z <> y ->
      Z.abs (above neg m p - y * below p) < Z.abs (above neg m p - z * below p).

(** [write] gives a numeral of at most 2^53 - 1, moved by at most 22 places, that is
    closer to the double than to any other. *)
Definition few_digits (write : N -> str) (b : N) : Prop :=
  bits_of_format binary64 b /\ finite b /\ real (write b) /\
  exists neg m p, stands_for (write b) neg m p /\ (m < 2 ^ 53)%N /\ -22 <= p <= 22 /\
    closest_decimal neg m p b /\ negative (decode binary64 b) = neg.
