(** Property theorems for paths (C06-C10). *)
From Coq Require Import String List NArith Arith.
From Verif Require Import Base Base64Spec PathModel PathSpec PathProofs PathThrowProofs.
Import ListNotations.
Local Open Scope list_scope.

(** C06: parsing yields the segment list that the text means. *)
Theorem path_parse_meaning : forall q s segs, path_meaning s = Some segs ->
  exists p, path_set q s = POk p /\ path_size p = List.length segs /\
    (forall i seg, nth_error segs i = Some seg -> path_at p i = Ok seg).
Proof. exact path_set_meaning. Qed.
Print Assumptions path_parse_meaning.

(** Segments are never empty and never contain a slash. *)
Theorem path_segments_ok : forall s segs, path_meaning s = Some segs -> Forall segment_ok segs.
Proof. exact meaning_ok. Qed.
Print Assumptions path_segments_ok.

(** C07: parsing throws exactly on texts without meaning, and the parser has
    no undefined behaviour ... *)
Theorem path_parse_throws_iff_meaningless : forall q s,
  (path_meaning s = None <-> exists p, path_set q s = PThrow p) /\ path_set q s <> PUB.
Proof. exact path_set_throws. Qed.
Print Assumptions path_parse_throws_iff_meaningless.

(** ... i.e. when a kept piece has a percent sign that does not start a
    well-formed escape of a character other than slash. *)
Theorem path_parse_throws_iff : forall q s,
  (exists p, path_set q s = PThrow p) <->
  exists piece a rest d, In piece (pieces s) /\ kept piece /\
    piece = a ++ percent :: rest /\ unescape a = Some d /\ bad_escape rest.
Proof. exact path_throws_iff. Qed.
Print Assumptions path_parse_throws_iff.

(** C08: every accessor, on the path and on every view obtained from it,
    answers from the segment list. *)
Theorem path_accessors_agree : forall q s segs p,
  path_meaning s = Some segs -> path_set q s = POk p ->
  (forall k, joined p k = Ok (join (skipn k segs))) /\
  (forall b n v, view_of p b n v ->
     b + n <= List.length segs /\ view_size v = n /\
     (forall i, i < n -> exists seg, nth_error segs (b + i) = Some seg /\ view_at v i = Ok seg) /\
     (forall k, k <= n -> view_prefix v k = Ok (if k =? 0 then [] else join (firstn (b + k) segs))) /\
     (0 < n -> (exists v', drop_front v = Ok v') /\ (exists v', drop_back v = Ok v') /\
               (exists seg, nth_error segs b = Some seg /\ view_front v = Ok seg))).
Proof. exact path_accessors. Qed.
Print Assumptions path_accessors_agree.

(** C09: prefix texts identify locations. *)
Theorem path_prefix_injective : forall q1 q2 s1 s2 l1 l2 p1 p2 k1 k2,
  path_meaning s1 = Some l1 -> path_set q1 s1 = POk p1 -> k1 <= List.length l1 ->
  path_meaning s2 = Some l2 -> path_set q2 s2 = POk p2 -> k2 <= List.length l2 ->
  view_prefix (path_to_view p1) k1 = view_prefix (path_to_view p2) k2 <->
  firstn k1 l1 = firstn k2 l2.
Proof. exact prefix_injective. Qed.
Print Assumptions path_prefix_injective.

(** C10: after a failed [set] the path holds the segments parsed before the
    failing piece and stays readable ... *)
Theorem path_failed_set_readable : forall q s p, path_set q s = PThrow p ->
  exists segs, Forall segment_ok segs /\ path_size p = List.length segs /\
    (exists ps piece ps', pieces s = ps ++ piece :: ps' /\ apply_pieces [] ps = Some segs
       /\ apply_piece segs piece = None) /\
    (forall i seg, nth_error segs i = Some seg -> path_at p i = Ok seg) /\
    (forall k, exists t, joined p k = Ok t).
Proof. exact path_after_throw. Qed.
Print Assumptions path_failed_set_readable.

(** ... so the object is neither as before nor empty, and [joined] shows text
    of the rejected piece that belongs to no segment. *)
Theorem path_failed_set_guarantee_refuted :
  exists q s p, path_set q s = PThrow p /\ p <> q /\ path_size p <> 0 /\
    path_at p 0 = Ok (codes "a") /\ path_size p = 1 /\ joined p 0 = Ok (codes "a/b").
Proof.
  exists path_default, (codes "/a/b%zz"), (mkpath (codes "a/b") [mkseg 0 1]).
  repeat split; try (vm_compute; reflexivity); vm_compute; discriminate.
Qed.
Print Assumptions path_failed_set_guarantee_refuted.

(** C10, exactly: a malformed text leaves the segments before the failing piece, and [joined] shows after them, as if it
    were a segment, what the failing piece decodes to up to its first bad escape. *)
Theorem path_failed_set_exactly : forall q s, path_meaning s = None ->
  exists p ps piece ps' segs before rest d, path_set q s = PThrow p /\
    pieces s = ps ++ piece :: ps' /\ apply_pieces [] ps = Some segs /\
    piece = before ++ percent :: rest /\ unescape before = Some d /\ bad_escape rest /\
    path_size p = List.length segs /\
    (forall i seg, nth_error segs i = Some seg -> path_at p i = Ok seg) /\
    (forall k, k < List.length segs -> joined p k = Ok (join (skipn k segs ++ [d]))) /\
    (forall k, List.length segs <= k -> joined p k = Ok []).
Proof. exact path_throw_exactly. Qed.
Print Assumptions path_failed_set_exactly.

(* ---------- concrete cases ---------- *)

Example ex_meaning : path_meaning (codes "/a/./b/../name%3Asurname")
  = Some [codes "a"; codes "name:surname"].
Proof. vm_compute. reflexivity. Qed.
Example ex_meaning_escaped_dots : path_meaning (codes "/a/%2E/%2E%2E")
  = Some [codes "a"; codes "."; codes ".."].
Proof. vm_compute. reflexivity. Qed.
Example ex_meaning_root : path_meaning (codes "/../..//x/") = Some [codes "x"].
Proof. vm_compute. reflexivity. Qed.
Example ex_throw : exists p, path_make (codes "/items/name%2Fsurname") = PThrow p.
Proof. eexists. vm_compute. reflexivity. Qed.
Example ex_view : exists p v v', path_make (codes "/a/b/c") = POk p
  /\ drop_front (path_to_view p) = Ok v /\ drop_back v = Ok v' /\ view_of p 1 1 v'
  /\ view_at v' 0 = Ok (codes "b") /\ view_prefix v' 1 = Ok (codes "a/b").
Proof.
  remember (path_make (codes "/a/b/c")) as r eqn:Er. vm_compute in Er.
  destruct r as [p| |]; try discriminate. exists p.
  assert (H1 : exists v, drop_front (path_to_view p) = Ok v)
    by (injection Er as ->; eexists; vm_compute; reflexivity).
  destruct H1 as [v H1].
  assert (H2 : exists v', drop_back v = Ok v').
  { injection Er as ->. vm_compute in H1. injection H1 as <-. eexists. vm_compute. reflexivity. }
  destruct H2 as [v' H2]. exists v, v'.
  split; [reflexivity|]. split; [assumption|]. split; [assumption|]. split.
  - eapply view_back_dropped; [|eassumption].
    apply (view_front_dropped p 0 2 (path_to_view p) v); [|assumption].
    injection Er as ->. apply view_start.
  - injection Er as ->. vm_compute in H1. injection H1 as <-. vm_compute in H2. injection H2 as <-.
    split; vm_compute; reflexivity.
Qed.
