(** Samples for the error reports. *)
From Coq Require Import String List NArith ZArith Arith Bool.
From Verif Require Import Base EnumModel ScalarModel ScalarSpec SerialModel SerialSpec SerialSamples SerialMsgModel.
Import ListNotations.
Local Open Scope list_scope.

Definition shape_name (fs : list (attrs * ty)) : list N := codes "shape"%string.

Definition renamed (n : list N) (a : attrs) : attrs :=
  mkattrs (a_name a) (Some n) (a_aliases a) (a_skip_ser a) (a_skip_deser a) (a_emit_null a) (a_skip_if_null a)
    (a_skip_if_empty a) (a_allow_missing a) (a_default a) (a_validators a) (a_flatten a) (a_extra a) (a_init a) (a_read_only a)
    (a_subtree_read_only a) (a_child_keys a).

(** struct shape { int radius; } with the field renamed to "r" *)
Definition shape_ty := TRec [(renamed (codes "r"%string) (plain (codes "radius"%string) (VInt 0)), int32)].

(** map<string, vector<shape>> *)
Definition shapes_ty := TMap (TSeq shape_ty).
Definition shapes_doc := JObj [(codes "all"%string, JArr [JObj [(codes "r"%string, JInt 1)]; JObj [(codes "r"%string, JStr (codes "x"%string))]])].

(** A key with a new line, and the document it is confused with. *)
Definition forged_key : list N := codes "a"%string ++ 10%N :: codes "error when deserializing field b"%string.
Definition forged_doc := JObj [(forged_key, JStr [])].
Definition nested_doc := JObj [(codes "b"%string, JObj [(codes "a"%string, JStr [])])].
