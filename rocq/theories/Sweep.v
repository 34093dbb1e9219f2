(** Lifting finite sweeps to universally quantified statements. *)
From Coq Require Import List NArith Lia Bool.
Import ListNotations.

Definition upto (n : nat) : list N := map N.of_nat (seq 0 n).

Lemma sweep (n : nat) (P : N -> bool) :
  forallb P (upto n) = true -> forall x, (x < N.of_nat n)%N -> P x = true.
Proof.
  intros H x Hx. rewrite forallb_forall in H. apply H.
  unfold upto. rewrite in_map_iff. exists (N.to_nat x). split; [lia|].
  apply in_seq. lia.
Qed.

Lemma sweep2 (n m : nat) (P : N -> N -> bool) :
  forallb (fun x => forallb (P x) (upto m)) (upto n) = true ->
  forall x y, (x < N.of_nat n)%N -> (y < N.of_nat m)%N -> P x y = true.
Proof.
  intros H x y Hx Hy.
  pose proof (sweep n (fun x => forallb (P x) (upto m)) H x Hx) as H1.
  exact (sweep m (P x) H1 y Hy).
Qed.
