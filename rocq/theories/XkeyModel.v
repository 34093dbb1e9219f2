(** Keys of [extra_fields] members: detail/serialization.hpp:118-135 ([check_extra_fields_field]), 917-950 ([deserialize]),
    1144-1185 ([patch]).  Names are read into a local [std::string]; the key of the map is made from it.  The key type has
    only to be such that a [std::string] can be made of it: [std::string_view] is one.

    Reading and patching of values are parameters, exceptions of theirs are not told apart.  Which keys a lookup compares with is
    the business of the container: [probe].  Entries are in the order in which they came in.  A string is a region of its
    own, over when its lifetime is. *)
From Coq Require Import List NArith Arith Bool.
From Verif Require Import Base.
Import ListNotations.

Notation str := (list N) (only parsing).

Inductive place := Inside | At (r : nat).
Record key := mkkey { place_of : place; chars : str }.

(** [std::string], or [std::string_view]. *)
Inductive key_kind := Owns | Views.

(** [key_type(std::move(key_value))], [key_value] being at [r]. *)
Definition key_from (k : key_kind) (r : nat) (s : str) : key :=
  match k with Owns => mkkey Inside s | Views => mkkey (At r) s end.

Definition same (a b : str) : bool := if list_eq_dec N.eq_dec a b then true else false.

Section Extras.
Context {V D : Type} (probe : list str -> str -> list nat).

Definition readable (live : nat -> bool) (k : key) : bool :=
  match place_of k with Inside => true | At r => live r end.

(** [find]. *)
Definition find_extra (live : nat -> bool) (m : list (key * V)) (s : str) : outcome (option nat) :=
  let ps := probe (map (fun e => chars (fst e)) m) s in
  if forallb (fun i => match nth_error m i with Some e => readable live (fst e) | None => true end) ps
  then Ok (find (fun i => match nth_error m i with Some e => same (chars (fst e)) s | None => false end) ps)
  else UB.

(** [emplace]. *)
Definition emplace (live : nat -> bool) (m : list (key * V)) (k : key) (v : V) : outcome (list (key * V)) :=
  obind (find_extra live m (chars k)) (fun o =>
  match o with Some _ => Ok m | None => Ok (m ++ [(k, v)]) end).

(** While [key_value], at [r], lives. *)
Definition during (live : nat -> bool) (r : nat) (x : nat) : bool := live x || (x =? r).

(** detail/serialization.hpp:925-947.  A name that is no string throws. *)
Definition read_extra (kind : key_kind) (reserved : list str) (read : D -> outcome V) (live : nat -> bool) (r : nat)
    (member : option str * D) (m : list (key * V)) : outcome (list (key * V)) :=
  match fst member with
  | None => Throws
  | Some name =>
      if existsb (same name) reserved then Ok m
      else obind (read (snd member)) (fun v => emplace (during live r) m (key_from kind r name) v)
  end.

(** detail/serialization.hpp:1151-1183. *)
Definition patch_extra (kind : key_kind) (reserved : list str) (patch : D -> V -> outcome V) (fresh : V) (live : nat -> bool) (r : nat)
    (member : option str * D) (m : list (key * V)) : outcome (list (key * V)) :=
  match fst member with
  | None => Throws
  | Some name =>
      if existsb (same name) reserved then Ok m
      else obind (find_extra (during live r) m name) (fun o =>
        match o with
        | Some i =>
            match nth_error m i with
            | Some (k, v) => obind (patch (snd member) v) (fun v' => Ok (upd m i (k, v')))
            | None => UB
            end
        | None => obind (patch (snd member) fresh) (fun v => emplace (during live r) m (key_from kind r name) v)
        end)
  end.

Fixpoint each (step : nat -> option str * D -> list (key * V) -> outcome (list (key * V))) (r : nat) (ms : list (option str * D))
    (m : list (key * V)) : outcome (list (key * V)) :=
  match ms with
  | [] => Ok m
  | x :: ms' => obind (step r x m) (each step (S r) ms')
  end.

(** The locals of the loop are at [base] and further. *)
Definition deserialize_extras (kind : key_kind) (reserved : list str) (read : D -> outcome V) (live : nat -> bool) (base : nat)
    (ms : list (option str * D)) (_ : list (key * V)) : outcome (list (key * V)) :=
  each (read_extra kind reserved read live) base ms [].

Definition patch_extras (kind : key_kind) (reserved : list str) (patch : D -> V -> outcome V) (fresh : V) (live : nat -> bool) (base : nat)
    (ms : list (option str * D)) (m : list (key * V)) : outcome (list (key * V)) :=
  each (patch_extra kind reserved patch fresh live) base ms m.
End Extras.
