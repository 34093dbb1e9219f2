(** What zipping means: lengths and elements by index. *)
From Coq Require Import List NArith Arith.
From Verif Require Import Base ZipModel.
Import ListNotations.

Section zip.
Variable V : Type.
Variable of_number : N -> V.

(** Number of elements; [None] for an endless sequence. *)
Definition size (s : sequence V) : option N :=
  match s with
  | Container xs => Some (N.of_nat (length xs))
  | Iota b e => Some ((e + 2 ^ 64 - b) mod 2 ^ 64)%N
  | Unbounded _ => None
  end.

(** The element at an index. *)
Definition has_at (s : sequence V) (i : nat) (v : V) : Prop :=
  match s with
  | Container xs => nth_error xs i = Some v
  | Iota b _ | Unbounded b => v = of_number ((b + N.of_nat i) mod 2 ^ 64)
  end.

(** Numbers of iota sequences are [size_t] values. *)
Definition sequence_ok (s : sequence V) : Prop :=
  match s with
  | Container _ => True
  | Iota b e => (b < 2 ^ 64 /\ e < 2 ^ 64)%N
  | Unbounded b => (b < 2 ^ 64)%N
  end.

(** [n] is the length of the shortest sequence. *)
Definition shortest (ss : list (sequence V)) (n : nat) : Prop :=
  (exists s, In s ss /\ size s = Some (N.of_nat n)) /\
  (forall s m, In s ss -> size s = Some m -> (N.of_nat n <= m)%N).
End zip.
Arguments size {V} s.
Arguments sequence_ok {V} s.
Arguments shortest {V} ss n.
Arguments has_at {V} of_number s i v.
