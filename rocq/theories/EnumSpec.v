(** Vocabulary for the enum properties. *)
From Coq Require Import List NArith ZArith Arith Bool.
From Verif Require Import EnumModel.
Import ListNotations.

(** The integer types of C++. *)
Definition int_type (t : ity) : Prop := In (ibits t) [8; 16; 32; 64].

Definition of_type (t : ity) (z : Z) : Prop := (ity_min t <= z <= ity_max t)%Z.

(** Flag number [i] of a bit pattern. *)
Definition flag (z : Z) (i : nat) : Prop := Z.testbit z (Z.of_nat i) = true.

(** The value after the last one of a range. *)
Definition past (r : erange) : Z := if half_open r then rmax r else (rmax r + 1)%Z.

(** Ranges whose bounds are values of the type, with at least one element, and
    such that the value after the last is one too. *)
Definition good_range (r : erange) : Prop :=
  int_type (rty r) /\ of_type (rty r) (rmin r) /\ of_type (rty r) (rmax r) /\
  of_type (rty r) (past r) /\ (rmin r < past r)%Z.

(** The elements of a range, in order. *)
Definition elements (r : erange) : list Z :=
  map (fun k => (rmin r + Z.of_nat k)%Z) (seq 0 (Z.to_nat (past r - rmin r))).
