(** Moving a [path]: kl/path.hpp:92-137.  The class declares no special members, so that a move moves [value_] and [segments_] one by one.

    The string that was moved from is empty, as in all common libraries.  Whether the [small_vector] that was moved from is empty is
    left open by its documentation: if its elements are on the heap they are taken away; if they are inside of the object they are moved
    one by one ([path_segment] is two numbers, which a move leaves as they are), and the library may or may not clear them afterwards. *)
From Coq Require Import List NArith Arith Bool.
From Verif Require Import Base PathModel.
Import ListNotations.

Record library := mklib { clears : bool }.

(** The path moved to, and the path moved from; [inside] tells where the segments are. *)
Definition move_path (lib : library) (inside : bool) (p : path) : path * path :=
  (mkpath (value_ p) (segments_ p), mkpath [] (if inside && negb (clears lib) then segments_ p else [])).
