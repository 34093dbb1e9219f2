(** Extra fields of flattened structs. *)
From Coq Require Import List NArith Arith Bool.
From Verif Require Import Base SerialModel SerialSpec.
Import ListNotations.

(** The way through flattened fields to a field of extra fields; every field on it is read and written. *)
Fixpoint extra_path (t : ty) (p : list nat) {struct p} : Prop :=
  match p, t with
  | [k], TRec fs => exists a te, nth_error fs k = Some (a, TMap te) /\ a_extra a = true /\
                                 a_skip_deser a = false /\ a_skip_ser a = false
  | i :: p', TRec fs => exists a u, nth_error fs i = Some (a, u) /\ a_extra a = false /\ a_flatten a = true /\
                                    a_skip_deser a = false /\ a_skip_ser a = false /\ extra_path u p'
  | _, _ => False
  end.

(** The value at the end of the way. *)
Fixpoint at_path (v : val) (p : list nat) : option val :=
  match p with
  | [] => Some v
  | i :: p' =>
      match v with
      | VRec vs => match nth_error vs i with Some x => at_path x p' | None => None end
      | _ => None
      end
  end.
