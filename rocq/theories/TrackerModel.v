(** Model of include/kl/resource.hpp:16-123, [modification_tracker].

    [std::map<std::string, generation>] is an association list without repeated
    keys (its ordering is not observable through this interface).  Generations
    are 64-bit and wrap. *)
From Coq Require Import List NArith Arith Bool.
From Verif Require Import Base PathModel.
Import ListNotations.
Local Open Scope outcome_scope.

Definition gen_modulus : N := 18446744073709551616.

Notation gmap := (list (list N * N)) (only parsing).

(** resource.hpp:120-122, the members. *)
Record tracker := mktracker {
  current_ : N;
  node_generation_ : list (list N * N);
  subtree_generation_ : list (list N * N) }.

(** resource.hpp:120-122, the initial state. *)
Definition tracker_init : tracker := mktracker 1 [] [].

(** resource.hpp:21 [current]. *)
Definition current (t : tracker) : N := current_ t.

(** resource.hpp:100-105 [lookup]. *)
Fixpoint lookup (m : list (list N * N)) (key : list N) : N :=
  match m with
  | [] => 0%N
  | (k, v) :: m' => if str_eqb k key then v else lookup m' key
  end.

(** resource.hpp:86-98 [assign]: overwrite or insert. *)
Fixpoint assign (m : list (list N * N)) (key : list N) (value : N) : list (list N * N) :=
  match m with
  | [] => [(key, value)]
  | (k, v) :: m' => if str_eqb k key then (k, value) :: m' else (k, v) :: assign m' key value
  end.

(** resource.hpp:34-35, the loop [for (i = 0; i <= path.size(); ++i)];
    [n] is the number of iterations left and [i] the counter. *)
Fixpoint assign_prefixes (n i : nat) (path : path_view) (gen : N)
    (m : list (list N * N)) : outcome (list (list N * N)) :=
  match n with
  | O => Ok m
  | S n' =>
      key <- view_prefix path i ;;
      assign_prefixes n' (i + 1) path gen (assign m key gen)
  end.

(** resource.hpp:28-43 [notify_changed(path_view, bool)]; 23-26 forwards to it. *)
Definition notify_changed (t : tracker) (path : path_view) (subtree : bool)
  : outcome (tracker * N) :=
  let gen := ((current_ t + 1) mod gen_modulus)%N in
  node <- assign_prefixes (view_size path + 1) 0 path gen (node_generation_ t) ;;
  if subtree then
    key <- view_prefix path (view_size path) ;;
    Ok (mktracker gen node (assign (subtree_generation_ t) key gen), gen)
  else Ok (mktracker gen node (subtree_generation_ t), gen).

(** resource.hpp:55-69, the loop of [changed_at]. *)
Fixpoint changed_at_loop (n i : nat) (t : tracker) (path : path_view) (result : N)
  : outcome N :=
  match n with
  | O => Ok result
  | S n' =>
      key <- view_prefix path i ;;
      let result :=
        if Nat.eqb i (view_size path) then
          let node := lookup (node_generation_ t) key in
          if (result <? node)%N then node else result
        else result in
      let sub := lookup (subtree_generation_ t) key in
      let result := if (result <? sub)%N then sub else result in
      changed_at_loop n' (i + 1) t path result
  end.

(** resource.hpp:50-72 [changed_at(path_view)]; 45-48 forwards to it. *)
Definition changed_at (t : tracker) (path : path_view) : outcome N :=
  changed_at_loop (view_size path + 1) 0 t path 0%N.

(** resource.hpp:80-83 [changed_since(path_view, old)]; 75-78 forwards to it. *)
Definition changed_since (t : tracker) (path : path_view) (old : N) : outcome bool :=
  at_ <- changed_at t path ;;
  Ok (old <? at_)%N.

(** A client calling [notify_changed] (resource.hpp:28-43) several times; the
    generations returned are collected in order. *)
Fixpoint notify_all (t : tracker) (evs : list (path_view * bool)) : outcome (tracker * list N) :=
  match evs with
  | [] => Ok (t, [])
  | (v, subtree) :: evs' =>
      ' (t1, g) <- notify_changed t v subtree ;;
      ' (t2, gs) <- notify_all t1 evs' ;;
      Ok (t2, g :: gs)
  end.
