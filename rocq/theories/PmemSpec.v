(** What is asked for, and what is left of a path. *)
From Coq Require Import List NArith Arith.
From Verif Require Import PathSpec PathModel PmemModel.
Import ListNotations.

(** What a text goes through: the segments after some of its pieces. *)
Definition passes (s : list N) (segs : list (list N)) : Prop :=
  exists ps ps', pieces s = ps ++ ps' /\ apply_pieces [] ps = Some segs.

Definition for_segments (r : request) : Prop := match r with Segs _ => True | Text _ => False end.

(** As many as there are places for. *)
Definition within (m : mem) : Prop := length (segments_ (path_of m)) <= scap m.

(** The path has these segments, and whatever is read of it is defined. *)
Definition shows (p : path) (segs : list (list N)) : Prop :=
  path_size p = length segs /\ (forall i seg, nth_error segs i = Some seg -> path_at p i = Base.Ok seg) /\
  (forall k, exists t, joined p k = Base.Ok t).

(** The object after the call, however it ended. *)
Definition left_over (r : mresult) : option mem := match r with MOk m | MThrow m | MNoMem m => Some m | MUB => None end.
