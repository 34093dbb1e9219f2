(** C57: zipping. *)
From Coq Require Import List NArith Arith Bool.
From Verif Require Import Base ZipModel ZipSpec ZipProofs.
Import ListNotations.

(** C57: as many tuples as the shortest sequence has elements, the i-th made
    of the i-th elements; [Ok] means nothing is read or advanced past an end. *)
Theorem zipped_stops_at_shortest : forall (V : Type) (of_number : N -> V) ss n fuel,
  Forall sequence_ok ss -> shortest ss n -> n <= fuel ->
  exists r, zipped V of_number fuel ss = Ok (Some r) /\ length r = n /\
    forall i t, nth_error r i = Some t -> Forall2 (fun s v => has_at of_number s i v) ss t.
Proof. exact zipped_lemma. Qed.
Print Assumptions zipped_stops_at_shortest.

(** The loop ends only because of a bounded sequence. *)
Theorem zipped_unbounded_never_ends : forall (V : Type) (of_number : N -> V) ss,
  Forall sequence_ok ss -> Forall (fun s => size s = None) ss ->
  forall fuel, zipped V of_number fuel ss = Ok None.
Proof. exact endless_lemma. Qed.
Print Assumptions zipped_unbounded_never_ends.

(** C57: every element of a container with its index. *)
Theorem enumerated_pairs_with_index : forall (V : Type) (of_number : N -> V) xs fuel,
  (N.of_nat (length xs) <= 2 ^ 64)%N -> length xs <= fuel ->
  enumerated V of_number fuel xs =
    Ok (Some (map (fun p => [of_number (N.of_nat (fst p)); snd p]) (combine (seq 0 (length xs)) xs))).
Proof. exact enumerated_lemma. Qed.
Print Assumptions enumerated_pairs_with_index.

Example ex_zip : zipped N (fun n => n) 9 [Container [7; 8; 9]%N; Iota 5 7; Unbounded 18446744073709551615]
  = Ok (Some [[7; 5; 18446744073709551615]; [8; 6; 0]]%N). Proof. vm_compute. reflexivity. Qed.
Example ex_zip_shortest : shortest [Container [7; 8; 9]%N; Iota 5 7; Unbounded 18446744073709551615] 2.
Proof.
  split.
  - exists (Iota 5 7). split; [cbn; auto|vm_compute; reflexivity].
  - intros s m [<-|[<-|[<-|[]]]] H; vm_compute in H; try discriminate; injection H as <-; vm_compute; discriminate.
Qed.
Example ex_enum : enumerated N (fun n => n) 5 [97; 98]%N = Ok (Some [[0; 97]; [1; 98]]%N). Proof. vm_compute. reflexivity. Qed.
