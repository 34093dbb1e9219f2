(** Customized types used in the examples of CustomProps. *)
From Coq Require Import String List NArith ZArith Bool.
From Verif Require Import Base PathModel ScalarModel SerialModel SerialSamples SerialMsgModel CustomModel.
Import ListNotations.

(** struct point { int x; int y; }, reflected *)
Definition point_own : cty := CRec [(bytes "x", CBase int32); (bytes "y", CBase int32)].
Definition point : cty := CUser 0 (Some point_own).
(** The same without reflection. *)
Definition bare_point : cty := CUser 0 None.
Definition origin : val := VRec [VInt 0; VInt 0].

Definition no_hooks : hooks := mkhooks origin None None None None None None None None None.

(** As {"a": x, "b": y}. *)
Definition wire : ty := TRec [(plain (bytes "a") (VInt 0), int32); (plain (bytes "b") (VInt 0), int32)].

Section points.
Context (be : backend) (skip : bool).

(** serializer<point> with everything, and with [serialize] only. *)
Definition by_serializer (k : nat) : hooks :=
  mkhooks origin (Some (dump be skip wire)) (Some (serialize be skip wire)) (Some (deser be wire)) (Some (patch be wire)) None None None None None.
Definition serialize_only (k : nat) : hooks :=
  mkhooks origin None (Some (serialize be skip wire)) None None None None None None None.
Definition no_patch (k : nat) : hooks :=
  mkhooks origin (Some (dump be skip wire)) (Some (serialize be skip wire)) (Some (deser be wire)) None None None None None None.

(** The overloads, with the tag of the backend or of any backend. *)
Definition by_overloads (any_tag : bool) (k : nat) : hooks :=
  mkhooks origin None None None None (Some (mkoffer any_tag (dump be skip wire))) (Some (mkoffer any_tag (serialize be skip wire)))
    (Some (mkoffer any_tag (deser be wire))) (Some (mkoffer any_tag (patch be wire))) None.
Definition overloads_no_patch (k : nat) : hooks :=
  mkhooks origin None None None None (Some (mkoffer false (dump be skip wire))) (Some (mkoffer false (serialize be skip wire)))
    (Some (mkoffer false (deser be wire))) None None.
Definition patch_of_any_tag (k : nat) : hooks :=
  mkhooks origin None None None None None None None (Some (mkoffer true (patch be wire))) None.
Definition streamed (k : nat) : hooks :=
  mkhooks origin None None None None None None None None (Some (dump be skip wire)).
End points.

(** struct shape { optional<point> at; vector<point> line; map<string, point> named; } *)
Definition shape : cty := CRec [(bytes "at", COpt point); (bytes "line", CSeq point); (bytes "named", CMap point)].
Definition p12 : val := VRec [VInt 1; VInt 2].
Definition p34 : val := VRec [VInt 3; VInt 4].
Definition a_shape : val := VRec [VNone; VSeq [p12; p34]; VMap [(bytes "q", p34)]].
Definition shape_doc be : json :=
  let p x y := JObj [(bytes "a", enc_int be x); (bytes "b", enc_int be y)] in
  JObj [(bytes "line", JArr [p 1%Z 2%Z; p 3%Z 4%Z]); (bytes "named", JObj [(bytes "q", p 3%Z 4%Z)])].
