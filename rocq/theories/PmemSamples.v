(** Texts and memories for the examples. *)
From Coq Require Import List NArith Arith.
From Verif Require Import PathModel PmemModel.
Import ListNotations.

(** "a/a/.../a" with [n] segments *)
Fixpoint letters (n : nat) : list N :=
  match n with
  | O => []
  | S O => [97%N]
  | S n' => 97%N :: 47%N :: letters n'
  end.
(** "a/../a/../.../a", one segment at a time *)
Fixpoint up_and_down (n : nat) : list N :=
  match n with
  | O => [97%N]
  | S n' => (97 :: 47 :: 46 :: 46 :: 47 :: up_and_down n')%N
  end.

Definition no_memory : heap_t := fun _ => None.
Definition plenty : heap_t := fun _ => Some 0.
(** The first request is granted only. *)
Definition once : heap_t := fun k => match k with O => Some 0 | _ => None end.
