(** What the modification tracker should answer, in terms of the history. *)
From Coq Require Import List NArith Arith.
From Verif Require Import Base PathModel PathSpec.
Import ListNotations.

(** A location is a list of path segments. *)
Notation location := (list (list N)) (only parsing).

(** [p] is an ancestor of [l], or [l] itself. *)
Definition at_or_above (p l : location) : Prop := exists rest, l = p ++ rest.

(** A notification: where, and whether everything below was replaced. *)
Record event := mkevent { where_ : location; whole : bool }.

(** An event is a change of [l] if it happened at or below [l], or replaced a
    subtree that [l] is in. *)
Definition concerns (e : event) (l : location) : Prop :=
  at_or_above l (where_ e) \/ (whole e = true /\ at_or_above (where_ e) l).

(** The generation the [i]-th notification (counted from 0) gets. *)
Definition generation_of (i : nat) : N := (N.of_nat i + 2)%N.

(** The view [v] came from parsing some text and dropping trailing segments,
    and what is left is the location [l]. *)
Definition denotes (v : path_view) (l : location) : Prop :=
  exists q s p segs n,
    path_meaning s = Some segs /\ path_set q s = POk p /\ view_of p 0 n v /\ l = firstn n segs.

(** A history of calls matches a list of events. *)
Definition denotes_call (c : path_view * bool) (e : event) : Prop :=
  denotes (fst c) (where_ e) /\ snd c = whole e.
