(** C180: paths that were moved from. *)
From Coq Require Import List NArith Arith Bool Lia.
From Verif Require Import Base PathModel PathSpec PmovModel PmovSamples PmovProofs.
Import ListNotations.

(** The new path is what the old one was. *)
Theorem moved_to : forall lib inside p, fst (move_path lib inside p) = p.
Proof. exact moved_same. Qed.
Print Assumptions moved_to.

(** The old path can be set again, as any other path. *)
Theorem moved_set_again : forall lib inside p q s, path_set (snd (move_path lib inside p)) s = path_set q s.
Proof. exact moved_set. Qed.
Print Assumptions moved_set_again.

(** It is empty when the segments were on the heap or the library clears them. *)
Theorem moved_empty : forall lib inside p, inside = false \/ clears lib = true -> snd (move_path lib inside p) = path_default.
Proof. exact moved_clean. Qed.
Print Assumptions moved_empty.

(** Otherwise it still has all its segments, but no text: the first one is empty, asking for any other throws out of a noexcept function. *)
Theorem moved_from_stale : forall lib q s p segs, clears lib = false -> path_set q s = POk p -> path_meaning s = Some segs ->
  let left := snd (move_path lib true p) in
  path_size left = length segs /\
  (forall k, k < length segs -> path_at left k = (if k =? 0 then Ok [] else Throws) /\ joined left k = (if k =? 0 then Ok [] else Throws)) /\
  (forall n, n <= length segs -> view_prefix (path_to_view left) n = Ok []).
Proof. exact moved_stale. Qed.
Print Assumptions moved_from_stale.

(** So that it is not in general safe to read a path below its size. *)
Theorem moved_refuted :
  exists lib p k, path_set path_default ab_text = POk p /\ k < path_size (snd (move_path lib true p)) /\ path_at (snd (move_path lib true p)) k = Throws.
Proof. exists leaving, ab_path, 1. split; [vm_compute; reflexivity|]. split; [vm_compute; repeat constructor|reflexivity]. Qed.
Print Assumptions moved_refuted.

Example moved_clearing : move_path clearing true ab_path = (ab_path, path_default).
Proof. reflexivity. Qed.
Example moved_leaving_size : path_size (snd (move_path leaving true ab_path)) = 2.
Proof. reflexivity. Qed.
Example moved_leaving_first : path_at (snd (move_path leaving true ab_path)) 0 = Ok [].
Proof. reflexivity. Qed.
