(** A structure with a list, the same list computed, and again with keys. *)
From Coq Require Import List NArith Arith Bool.
From Verif Require Import Base CgetModel CgetSpec.
Import ListNotations.

Definition digit (s : list N) : option nat :=
  match s with [c] => if (48 <=? c)%N && (c <=? 57)%N then Some (N.to_nat (c - 48)) else None | _ => None end.

Definition raw_name : list N := [114; 97; 119]%N.
Definition items_name : list N := [105]%N.
Definition keyed_name : list N := [107]%N.
Definition point_name : list N := [112]%N.
Definition seg (n : N) : list N := [(48 + n)%N].

Definition first_member (o : val) : val := match o with VStruct (v :: _) => v | _ => VNone end.
Definition is_number (v : val) (s : list N) : bool := match v with VLeaf n => same s (seg n) | _ => false end.
Definition a_point (_ : val) : val := VStruct [VSeq [VLeaf 1; VLeaf 2]].

Definition box_ty : ty := Struct
  [(raw_name, Member 0, [], Seq Leaf);
   (items_name, Computed first_member, [], Seq Leaf);
   (keyed_name, Computed first_member, [is_number], Seq Leaf);
   (point_name, Computed a_point, [], Struct [(raw_name, Member 0, [], Seq Leaf)])].
Definition box : val := VStruct [VSeq [VLeaf 7; VLeaf 8]].
