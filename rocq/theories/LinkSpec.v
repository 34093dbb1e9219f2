(** Includes, as a relation. *)
From Coq Require Import List String.
From Verif Require Import LinkModel.
Import ListNotations.
Local Open Scope string_scope.

Inductive reaches (tab : list (string * list string)) : string -> string -> Prop :=
| here : forall h, reaches tab h h
| there : forall h l i k, In (h, l) tab -> In i l -> reaches tab i k -> reaches tab h k.

(** A file is described once. *)
Definition files_once (tab : list (string * list string)) : Prop := NoDup (map fst tab).

(** The unit has the strings of binary_rw/string.hpp in it. *)
Definition streams_strings (u : unit_) : Prop := exists h, In h (includes u) /\ reaches headers h "binary_rw/string.hpp".

Definition at_most_one {A} (P : A -> Prop) (l : list A) : Prop :=
  forall i j x y, nth_error l i = Some x -> nth_error l j = Some y -> P x -> P y -> i = j.

Definition of_json (s : string) : Prop := exists f, s = "kl::json::detail::" ++ f.
Definition of_yaml (s : string) : Prop := exists f, s = "kl::yaml::detail::" ++ f.
