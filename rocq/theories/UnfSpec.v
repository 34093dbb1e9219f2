(** The values of an enum without a fixed underlying type. *)
From Coq Require Import List ZArith.
From Verif Require Import EnumModel.
Import ListNotations.
Local Open Scope Z_scope.

(** [m] bits, and a sign, are enough for the enumerators. *)
Definition enough (es : list Z) (m : Z) : Prop := 0 <= m /\ forall x, In x es -> - 2 ^ m <= x < 2 ^ m.
Definition fewest (es : list Z) (m : Z) : Prop := enough es m /\ forall m', enough es m' -> m <= m'.

Definition signed_ (es : list Z) : Prop := exists x, In x es /\ x < 0.

(** The numbers of as many bits as are needed, with a sign if there is a negative enumerator. *)
Definition value (es : list Z) (z : Z) : Prop :=
  exists m, fewest es m /\ z < 2 ^ m /\ (0 <= z \/ signed_ es /\ - 2 ^ m <= z).

(** The compiler's choice: some type that has all the enumerators. *)
Definition underlying (es : list Z) (t : ity) : Prop :=
  (1 <= ibits t)%nat /\ forall x, In x es -> ity_min t <= x <= ity_max t.

(** The values are all numbers of an unsigned type that is not promoted to [int]. *)
Definition full (es : list Z) (t : ity) : Prop :=
  isigned t = false /\ (32 <= ibits t)%nat /\ fewest es (Z.of_nat (ibits t)).
