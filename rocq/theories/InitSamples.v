(** Sample structures for reading into new objects. *)
From Coq Require Import List ZArith NArith Arith Bool.
From Verif Require Import Base PathModel EnumModel SerialModel SerialSpec SerialSamples.
Import ListNotations.

Definition missing_ok (a : attrs) : attrs :=
  mkattrs (a_name a) (a_rename a) (a_aliases a) (a_skip_ser a) (a_skip_deser a) (a_emit_null a) (a_skip_if_null a)
    (a_skip_if_empty a) true (a_default a) (a_validators a) (a_flatten a) (a_extra a) (a_init a) (a_read_only a)
    (a_subtree_read_only a) (a_child_keys a).

(** [struct { int a; }] with [allow_missing]. *)
Definition bare := missing_ok (plain [97%N] (VInt 0)).
Definition bare_ty := TRec [(bare, int32)].

(** [struct { int a; int b = 5; std::string c; }], the last two with [allow_missing]. *)
Definition five := missing_ok (plain [98%N] (VInt 5)).
Definition text := missing_ok (plain [99%N] (VStr [])).
Definition mixed_ty := TRec [(plain [97%N] (VInt 0), int32); (five, int32); (text, TStr)].

Definition inits_five (a : attrs) : bool := match a_init a with VInt 5 => true | _ => false end.
Definition nowhere (_ : attrs) : bool := false.

Definition all_storage (z : Z) (p : list nat) (t : ty) : val :=
  match t with TBool => VBool true | TDouble => VDbl 7 | TFloat => VFlt 7 | _ => VInt z end.
