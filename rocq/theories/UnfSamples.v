(** Enums for the examples: numbers of an [unsigned] and of an [int], flags and an enum with a negative enumerator. *)
From Coq Require Import List ZArith.
From Verif Require Import EnumModel.
Import ListNotations.
Local Open Scope Z_scope.

Definition uint32 : ity := mkity false 32.
Definition int32 : ity := mkity true 32.
Definition flags3 : list Z := [1; 2; 4].
Definition with_minus : list Z := [-1; 0; 1; 2].
Definition high_bit : list Z := [0; 2147483648].
