(** Requests on a number, and on a list of numbers. *)
From Coq Require Import List Arith Bool.
From Verif Require Import Base FailModel FailSpec.
Import ListNotations.

Definition ok_traits := mktraits false true true.
(** Moves may throw. *)
Definition bad_traits := mktraits false false false.
(** A step that fails. *)
Definition at_step (k : nat) : nat -> bool := fun n => n =? k.
Definition never : nat -> bool := fun _ => false.

(** 5 at [/1/2], of which only the root has been reported. *)
Definition start : world nat := mkworld nat 5 3 [([], 2)] [] 0.
Definition seen : world nat := mkworld nat 5 3 [([], 2); ([1], 2); ([1; 2], 2)] [] 0.
Definition put_7 (c : traits) (fails : nat -> bool) (w : world nat) :=
  put nat (fun _ => 0) (fun _ => 99) fails c (fun _ => Fine 7) (fun _ => true) (fun v => if v =? 7 then Fine tt else Refused) [1; 2] false w.
(** Nothing but what was there is valid. *)
Definition put_8 (c : traits) (fails : nat -> bool) (w : world nat) :=
  put nat (fun _ => 0) (fun _ => 99) fails c (fun _ => Fine 8) (fun _ => true) (fun v => if v =? 5 then Fine tt else Refused) [1; 2] false w.

Definition a_list : world (list nat) := mkworld (list nat) [1; 2] 3 [] [] 0.
Definition post_3 (fails : nat -> bool) (w : world (list nat)) :=
  post (list nat) fails (fun l e => l ++ [e]) (@removelast nat) (Fine 3) (fun l e => if existsb (Nat.eqb e) l then Refused else Fine tt)
       (fun l => if length l <? 4 then Fine tt else Refused) [4] w.
Definition del_1 (fails : nat -> bool) (w : world (list nat)) :=
  remove_child (list nat) (fun _ => []) (fun _ => [9]) fails ok_traits false [2] (fun l => Fine tt) [4; 0] w.
Definition clear (fails : nat -> bool) (w : world (list nat)) :=
  reset (list nat) (fun _ => []) (fun _ => [9]) fails ok_traits [] (fun l => if length l =? 9 then Refused else Fine tt) (fun l => Fine tt) [4] true w.
