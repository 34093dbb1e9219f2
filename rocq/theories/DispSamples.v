(** Sample classes and functions for the examples about customization points. *)
From Coq Require Import List.
From Verif Require Import DispModel.
Import ListNotations.

(** namespace 1 { class 10 }; namespace 2 { class 20 : 10 } *)
Definition base : level := mklevel 10 1 None.
Definition derived : level := mklevel 20 2 None.
(** class 11 { public: void validate_resource(context&); }; class 21 : 11 { private: void validate_resource(context&); } *)
Definition checked : level := mklevel 11 1 (Some (mkmember true true true)).
Definition hiding : level := mklevel 21 2 (Some (mkmember false true true)).
(** The namespace of the context is 3. *)
Definition prog (fs : list fn) : program := mkprogram fs [3].

(** void validate_resource(class10&, context&) and const class10&, in namespace 1; class10 by value in 3 *)
Definition for_base : fn := mkfn 1 1 ByRef (Named (NClass 10)) true false.
Definition for_const_base : fn := mkfn 2 1 ByConst (Named (NClass 10)) true false.
Definition for_base_copy : fn := mkfn 3 3 ByValue (Named (NClass 10)) true false.
(** void validate_resource(class20&, context&) in namespace 2 *)
Definition for_derived : fn := mkfn 4 2 ByRef (Named (NClass 20)) true false.
(** template <typename U> void validate_resource(U&, context&), in namespace 3 *)
Definition for_all : fn := mkfn 5 3 ByRef Any true false.
(** void validate_resource(const std::optional<class10>&, context&), in namespace 1; the same not const *)
Definition for_const_opt : fn := mkfn 6 1 ByConst (Named (NOpt (NClass 10))) true false.
Definition for_opt : fn := mkfn 7 1 ByRef (Named (NOpt (NClass 10))) true false.
