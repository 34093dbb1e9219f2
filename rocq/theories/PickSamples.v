(** Types for the examples of PickProps. *)
From Coq Require Import List Arith Bool.
From Verif Require Import PickModel.
Import ListNotations.

Definition vector_of (t : ty) : ty := Class (Some (mkcontainer true true true true true false t None None)) None [] None.
Definition array_of (t : ty) : ty := Class (Some (mkcontainer true true true false true false t None None)) None [] None.
Definition set_of (t : ty) : ty := Class (Some (mkcontainer true true true false true true t (Some KString) None)) None [] None.
Definition map_of (k : key) (t : ty) : ty :=
  Class (Some (mkcontainer true true true false true false (Pair (Str Char) t) (Some k) (Some t))) None [] None.
Definition struct_of (ts : list ty) : ty := Class None (Some ts) [] None.
Definition class_to (ts : list ty) : ty := Class None None ts None.
Definition derived_from (t : ty) : ty := Class None None [] (Some t).
Definition vector_and_optional : ty :=
  Class (Some (mkcontainer true true true true true false (Arith Int) None None)) None [] (Some (Opt (Arith Int))).
Definition reflected_vector (t : ty) : ty :=
  Class (Some (mkcontainer true true true true true false t None None)) (Some [Arith Int]) [] None.

Definition person : ty :=
  struct_of [Str Char; Arith Int; Opt (vector_of (map_of KString (Pair (Arith Double) (Enum true Int true)))); ESet UInt true].
