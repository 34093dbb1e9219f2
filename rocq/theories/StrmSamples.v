(** Types for the examples of StrmProps. *)
From Coq Require Import List.
From Verif Require Import StrmModel.
Import ListNotations.

Definition point : ty := User 0 true true true true false None.
Definition names : ty := User 1 false false true false false (Some (Vec Str)).
Definition inventory : ty := Map Str (Pair (Opt point) (Var [Number 0; Boolean; Vec (Number 1); names])).
Definition flags : ty := Map Str (Vec Boolean).
Definition either : ty := Var [Number 0; Str; Number 0].
Definition no_default : ty := User 2 true true false false false None.
Definition title : ty := User 3 false false true false true None.
