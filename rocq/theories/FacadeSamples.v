(** Iterators for the examples of FacadeProps. *)
From Coq Require Import List ZArith Bool.
From Verif Require Import Base FacadeModel.
Import ListNotations.
Local Open Scope Z_scope.

(** [vec_iterator] of tests/iterator_facade_test.cpp: an index; the elements are the cells. *)
Definition index_iterator (r : rtype) (c : category) : derived Z nat :=
  mkderived c r true true (fun i => Ok (AtCell (Z.to_nat i))) (fun _ => 0%nat) (fun i => Ok (i + 1)) (fun i => Ok (i - 1))
    (fun i n => Ok (i + n)) (fun i j => Ok (i - j)) (fun i j => Ok (i =? j)).
(** counts, and keeps the number it refers to *)
Definition counting_iterator : derived Z Z :=
  mkderived RandomAccess (LRef true) true true (fun _ => Ok InSelf) (fun i => i) (fun i => Ok (i + 1)) (fun i => Ok (i - 1))
    (fun i n => Ok (i + n)) (fun i j => Ok (i - j)) (fun i j => Ok (i =? j)).
(** with [distance_to] as [boost::iterator_facade] wants it *)
Definition boost_iterator : derived Z nat :=
  mkderived RandomAccess (LRef true) true true (fun i => Ok (AtCell (Z.to_nat i))) (fun _ => 0%nat) (fun i => Ok (i + 1)) (fun i => Ok (i - 1))
    (fun i n => Ok (i + n)) (fun i j => Ok (j - i)) (fun i j => Ok (i =? j)).
Definition squares (l : nat) : nat := (l * l)%nat.
Definition tour : list stmt :=
  [Assign 1 0; PreInc 1; PostInc 2 1; Star 1; Arrow 2; Subscript 2 2; Plus 3 1 2; Minus 4 3 1; Diff 3 4; Cmp Lt 4 3; Cmp Ge 0 1; SubFrom 3 4; Cmp Eq 3 0].
