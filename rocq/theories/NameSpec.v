(** Vocabulary for the names of places: which lists of segments texts can
    stand for. *)
From Coq Require Import List NArith Arith.
From Verif Require Import Base PathModel PathSpec SerialModel ResourceModel ResourceSpec.
Import ListNotations.

Local Notation str := (list N) (only parsing).

(** Whatever the path object held before, setting it to [s] gives a path with
    the segments [segs]. *)
Definition names (s : str) (segs : list str) : Prop :=
  forall q, exists p, path_set q s = POk p /\ view_size (path_to_view p) = length segs /\
    forall i seg, nth_error segs i = Some seg -> view_at (path_to_view p) i = Ok seg.

(** A segment that is not changed by being read again. *)
Definition unchanged (seg : str) : Prop := ~ In percent seg /\ seg <> dot /\ seg <> dotdot.

(** Some request text refers to the location [loc] of [v]. *)
Definition addressable (t : ty) (v : val) (loc : list step) : Prop :=
  exists s segs t' v', names s segs /\ refers t v segs loc t' v'.

(** Steps into members of structs, entries of maps and elements of collections
    with one child key that is a string compared as it is. *)
Definition by_name (n : nkind) (st : step) : Prop :=
  match st with
  | SField _ | SKey _ => True
  | SIndex _ => exists ck, node_child_keys n = [ck] /\ ck_match ck = None
  | SSome => False
  end.
