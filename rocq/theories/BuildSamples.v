(** Documents used in the examples of BuildProps. *)
From Coq Require Import String List NArith ZArith Bool.
From Verif Require Import Base PathModel SerialModel SerialSamples SerialMsgModel BuildModel.
Import ListNotations.

(** Two buffers, "idx" and "tag"; then the first is gone, or overwritten. *)
Definition two_names (b : nat) : option (list N) :=
  match b with O => Some (bytes "idx") | S O => Some (bytes "tag") | _ => None end.
Definition one_gone (b : nat) : option (list N) := match b with O => None | _ => two_names b end.
Definition one_changed (b : nat) : option (list N) := match b with O => Some (bytes "zzz") | _ => two_names b end.

Definition entry_of (dyn : bool) (b n : nat) (t : ty) (v : val) : entry := mkentry dyn (mkview b n) t v.

(** [to_object(ctx).add(idx, 7).add(tag, "x")] with views of "id" and "tag". *)
Definition point_entries (dyn : bool) : list entry :=
  [entry_of dyn 0 2 int32 (VInt 7); entry_of dyn 1 3 TStr (VStr [120%N])].
Definition point_names : list (list N) := [bytes "id"; bytes "tag"].

(** The same name twice. *)
Definition twice (dyn : bool) : list entry := [entry_of dyn 0 2 int32 (VInt 1); entry_of dyn 0 2 int32 (VInt 2)].

Definition struct_name (fs : list (attrs * ty)) : list N := [].
