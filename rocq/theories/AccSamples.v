(** Sample structs with accessors. *)
From Coq Require Import List NArith ZArith Arith Bool.
From Verif Require Import Base SerialModel SerialSpec SerialSamples AccModel AccSpec.
Import ListNotations.

Definition at_ (p : place) : accessor := Place (fun _ => p).
Definition int_field (n : N) (p : place) : afield := mkafield (plain [n] (VInt 0)) int32 (at_ p).

(** tests/input/typedefs.hpp: struct Manual { inner_t a; int b; int c; }, fields Ar, Ad, B and C; here
    with integers, and with their sum as a field that is only written *)
Definition manual_ty : ty :=
  TRec [(plain [97%N] (VRec [VInt 0; VInt 0]), TRec [(plain [114%N] (VInt 0), int32); (plain [100%N] (VInt 0), int32)]);
        (plain [98%N] (VInt 0), int32); (plain [99%N] (VInt 0), int32)].
Definition int_at (o : val) (p : place) : Z := match load o p with Some (VInt z) => z | _ => 0 end.
Definition not_read (a : attrs) : attrs :=
  mkattrs (a_name a) (a_rename a) (a_aliases a) (a_skip_ser a) true (a_emit_null a) (a_skip_if_null a)
    (a_skip_if_empty a) (a_allow_missing a) (a_default a) (a_validators a) (a_flatten a) (a_extra a) (a_init a) (a_read_only a)
    (a_subtree_read_only a) (a_child_keys a).
Definition sum : val -> val := fun o => VInt (int_at o [Sub 1] + int_at o [Sub 2])%Z.
Definition manual : list afield :=
  [int_field 82 [Sub 0; Sub 0]; int_field 68 [Sub 0; Sub 1]; int_field 66 [Sub 1]; int_field 67 [Sub 2];
   mkafield (not_read (plain [83%N] (VInt 0))) int32 (Value sum)].
Definition manual_places : list (option place) :=
  [Some [Sub 0; Sub 0]; Some [Sub 0; Sub 1]; Some [Sub 1]; Some [Sub 2]; None].
Definition manual_object : val := VRec [VRec [VInt 1; VInt 2]; VInt 3; VInt 4].
Definition manual_doc : json :=
  JObj [([82%N], JInt 1); ([68%N], JInt 2); ([66%N], JInt 3); ([67%N], JInt 4); ([83%N], JInt 7)].

(** tests/ctti_test.cpp: struct ZZZ { int a; int& ref_a = a; }; the same member twice *)
Definition twice_ty : ty := TRec [(plain [97%N] (VInt 0), int32)].
Definition twice : list afield := [int_field 97 [Sub 0]; int_field 114 [Sub 0]].
Definition twice_default : list afield :=
  [int_field 97 [Sub 0]; mkafield (with_default (VInt 7) (plain [114%N] (VInt 0))) int32 (at_ [Sub 0])].

(** struct { vector<int> v; }, with [object.v.front()] as a field, behind [v] or in front of it *)
Definition vec_ty : ty := TRec [(plain [118%N] (VSeq []), TSeq int32)].
Definition vec_field : afield := mkafield (plain [118%N] (VSeq [])) (TSeq int32) (at_ [Sub 0]).
Definition front_field : afield := int_field 102 [Sub 0; Sub 0].
Definition vec_first : list afield := [vec_field; front_field].
Definition front_first : list afield := [front_field; vec_field].
Definition some_vec : val := VRec [VSeq [VInt 1; VInt 2]].
Definition no_vec : val := VRec [VSeq []].

(** struct { int a, b; } with the field [object.a > 100 ? object.b : object.a], at most 100 *)
Definition either_ty : ty := TRec [(plain [97%N] (VInt 0), int32); (plain [98%N] (VInt 0), int32)].
Definition either : list afield :=
  [mkafield (with_validator at_most_100 (plain [120%N] (VInt 0))) int32
     (Place (fun o => if (100 <? int_at o [Sub 0])%Z then [Sub 1] else [Sub 0]))].
