(** Classes and records used in the examples of ReflectProps. *)
From Coq Require Import List NArith String.
From Verif Require Import PathModel ScalarSpec ReflectModel ReflectSpec.
Import ListNotations.
Local Open Scope string_scope.
Local Open Scope list_scope.

(** [skip_t] and its bases (serialization_attributes.hpp:12-14). *)
Definition c_skip_ser := Cls CSkipSer [].
Definition c_skip_deser := Cls CSkipDeser [].
Definition c_skip := Cls CSkip [(false, true, c_skip_ser); (false, true, c_skip_deser)].

(** [struct both : skip_t, skip_serialization_t {}]: the second base is there twice. *)
Definition c_both := Cls (CUser 1) [(false, true, c_skip); (false, true, c_skip_ser)].

(** [struct hidden : private rename_t {}] *)
Definition c_hidden := Cls (CUser 2) [(false, false, Cls CRename [])].

(** [struct documented : rename_t {}] *)
Definition c_documented := Cls (CUser 3) [(false, true, Cls CRename [])].

Definition attr (c : cls) (n : nat) : attribute nat := mkattribute c (fun _ => n).
Definition const_attr (c : cls) (n : nat) : factory nat := mkfactory (attr c n) true.
Definition runtime_attr (c : cls) (n : nat) : factory nat := mkfactory (attr c n) false.

(** Attributes of a field: two of them answer a query for [rename_t]. *)
Definition some_attributes : list (attribute nat) :=
  [attr c_hidden 1; attr c_skip 2; attr c_documented 3; attr (Cls CRename []) 4].

(** [struct base { int id; std::string name; };]
    [struct left : base { int l; };] [struct point : left, other { int x, y; };] *)
Definition c_base := Cls (CUser 10) [].
Definition c_left := Cls (CUser 11) [(false, true, c_base)].
Definition c_other := Cls (CUser 12) [].
Definition c_point := Cls (CUser 13) [(false, true, c_left); (false, true, c_other)].

Definition r_base : record nat nat :=
  Rec c_base [] [mkmember (codes "id") (CUser 10) 0 []; mkmember (codes "name") (CUser 10) 1 [const_attr c_documented 7]].
Definition r_left : record nat nat := Rec c_left [r_base] [mkmember (codes "l") (CUser 11) 0 []].
Definition r_other : record nat nat := Rec c_other [] [mkmember (codes "o") (CUser 12) 2 [runtime_attr (Cls (CDefault 0) []) 5]].
Definition r_point : record nat nat :=
  Rec c_point [r_left; r_other]
    [mkmember (codes "x") (CUser 13) 0 [const_attr c_skip 1; runtime_attr (Cls (CValidate 0) []) 2];
     mkmember (codes "y") (CUser 13) 0 []].

(** Two ways to the same base, not virtual: two subobjects. *)
Definition c_right := Cls (CUser 14) [(false, true, c_base)].
Definition c_diamond := Cls (CUser 15) [(false, true, c_left); (false, true, c_right)].
Definition r_right : record nat nat := Rec c_right [r_base] [mkmember (codes "r") (CUser 14) 0 []].
Definition r_diamond : record nat nat := Rec c_diamond [r_left; r_right] [mkmember (codes "d") (CUser 15) 0 []].

(** The same with virtual bases: one subobject. *)
Definition c_vleft := Cls (CUser 16) [(true, true, c_base)].
Definition c_vright := Cls (CUser 17) [(true, true, c_base)].
Definition c_vdiamond := Cls (CUser 18) [(false, true, c_vleft); (false, true, c_vright)].
Definition r_vleft : record nat nat := Rec c_vleft [r_base] [].
Definition r_vright : record nat nat := Rec c_vright [r_base] [].
Definition r_vdiamond : record nat nat := Rec c_vdiamond [r_vleft; r_vright] [mkmember (codes "d") (CUser 18) 0 []].
