(** Two documents in one memory, for the examples. *)
From Coq Require Import List String.
From Verif Require Import YviewModel.
Import ListNotations.
Local Open Scope string_scope.

(** [{x: a, y: b}] at 4, [{x: c}] at 7, [[d, {x: e}]] at 12 *)
Definition docs : heap := mkheap [0;1;2;3;4;5;6;7;8;9;10;11;12]
  [Scalar "x"; Scalar "a"; Scalar "y"; Scalar "b"; Map [(0, 1); (2, 3)];
   Scalar "x"; Scalar "c"; Map [(5, 6)];
   Scalar "d"; Scalar "x"; Scalar "e"; Map [(9, 10)]; Seq [8; 11]].
Definition first : nat := 4.
Definition second : nat := 7.
Definition third : nat := 12.

(** [struct { yaml::view x; yaml::view y; }], [struct { std::optional<yaml::view> x; }] *)
Definition xy : ty := TStruct ["x"; "y"] [TView; TView].
Definition opt_x : ty := TStruct ["x"] [TOpt TView].

(** Twice into the same object. *)
Definition twice (t : ty) (h : heap) (a b : handle) : result :=
  let '(h1, v, _) := deserialize t h (default t) a in deserialize t h1 v b.
Definition patched (t : ty) (h : heap) (a b : handle) : result :=
  let '(h1, v, _) := deserialize t h (default t) a in patch t h1 v b.
(** [auto u = deserialize<T>(a), v = deserialize<T>(b); u = v;] *)
Definition assigned (t : ty) (h : heap) (a b : handle) : heap * value :=
  let '(h1, u, _) := deserialize t h (default t) a in
  let '(h2, v, _) := deserialize t h1 (default t) b in assign t h2 u v.
Definition heap_of (r : result) : heap := fst (fst r).
Definition value_of (r : result) : value := snd (fst r).
