(** A map for the examples: a lookup compares with all keys. *)
From Coq Require Import List NArith Arith Bool.
From Verif Require Import Base XkeyModel.
Import ListNotations.

Definition compare_all (texts : list (list N)) (_ : list N) : list nat := seq 0 (length texts).
Definition read_number (d : option nat) : outcome nat := match d with Some n => Ok n | None => Throws end.
Definition add_number (d : option nat) (v : nat) : outcome nat := match d with Some n => Ok (v + n) | None => Throws end.

(** A document of ["id"] and two other members; ["id"] is the name of a field. *)
Definition id_name : list N := [105; 100]%N.
Definition demo_members : list (option (list N) * option nat) :=
  [(Some [120%N], Some 1); (Some id_name, None); (Some [121%N], Some 2)].
Definition nothing (_ : nat) : bool := false.
Definition first_five (r : nat) : bool := r <? 5.
