(** Samples for [HandProps]. *)
From Coq Require Import List Arith Bool.
From Verif Require Import Base HandModel.
Import ListNotations.

(** The first address that is free, so freed ones are given out again. *)
Definition first_free (n : nat) (m : memory) : nat :=
  match find (fun a => match m a with None => true | Some _ => false end) (seq 0 (S n)) with Some a => a | None => 0 end.

(** Two slots, and copies of the first connection; the copy is variable 2. *)
Definition two : list op := [New_signal; Connect 0 false; Connect 0 false; Copy 0].
(** All handles of the first slot are dropped with its connection; the third slot gets its address. *)
Definition reuse : list op := two ++ [Disconnect 0; Destroy 2; Connect 0 true].
(** Scoped connections of both slots: variables 3 and 4. *)
Definition scopes : list op := two ++ [To_scoped 0; To_scoped 1].
(** The second is assigned to the first. *)
Definition replaced : list op := scopes ++ [Move_assign 3 4].
(** Blocked twice, unblocked once. *)
Definition blocks : list op := two ++ [Get_blocker 0; Copy 3; Destroy 3].
Definition sees (os : list op) {A} (f : state -> A) : outcome A := obind (run first_free os start) (fun st => Ok (f st)).
