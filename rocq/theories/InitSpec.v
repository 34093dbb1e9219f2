(** What is needed for a new object to be independent of its storage. *)
From Coq Require Import List ZArith NArith Arith Bool.
From Verif Require Import Base PathModel EnumModel SerialModel SerialSpec.
Import ListNotations.

Definition scalar_type (t : ty) : Prop :=
  match t with TBool | TInt _ | TDouble | TFloat | TEnum _ => True | _ => False end.

(** Some documents leave the field as it was. *)
Definition may_stay (a : attrs) : Prop :=
  a_skip_deser a = true \/ (a_extra a = false /\ a_flatten a = false /\ a_allow_missing a = true /\ a_default a = None).

(** All of the object has a value from the start: no scalar in it, but in members with initializers and in other objects
    that it owns. *)
Fixpoint filled (mi : attrs -> bool) (t : ty) : Prop :=
  match t with
  | TBool | TInt _ | TDouble | TFloat | TEnum _ => False
  | TArr _ t' => filled mi t'
  | TRec fs => all1 (fun f => mi (fst f) = true \/ filled mi (snd f)) fs
  | _ => True
  end.

(** Every part has a value from the start or is read from every document. *)
Fixpoint settled (mi : attrs -> bool) (t : ty) : Prop :=
  match t with
  | TArr _ t' => settled mi t'
  | TRec fs => all1 (fun f => mi (fst f) = true \/ filled mi (snd f) \/ (~ may_stay (fst f) /\ settled mi (snd f))) fs
  | _ => True
  end.

(** [w] is [T{}]. *)
Fixpoint value_initialized (mi : attrs -> bool) (t : ty) (w : val) {struct t} : Prop :=
  match t with
  | TBool => w = VBool false
  | TInt _ | TEnum _ | TSet _ => w = VInt 0
  | TDouble => w = VDbl 0
  | TFloat => w = VFlt 0
  | TStr => w = VStr []
  | TOpt _ => w = VNone
  | TSeq _ => w = VSeq []
  | TMap _ => w = VMap []
  | TArr n t' => exists ws, w = VSeq ws /\ length ws = n /\ Forall (value_initialized mi t') ws
  | TTup ts => exists ws, w = VSeq ws /\ all2 (value_initialized mi) ts ws
  | TRec fs =>
      exists ws, w = VRec ws /\
      all2 (fun f v => (mi (fst f) = true -> v = a_init (fst f)) /\ (mi (fst f) = false -> value_initialized mi (snd f) v)) fs ws
  end.

(** [a_init], the value of the member in [T{}], is that of the initializer, or [U{}] for a member of type [U] without. *)
Fixpoint initialized (mi : attrs -> bool) (t : ty) : Prop :=
  match t with
  | TArr _ t' => initialized mi t'
  | TTup ts => all1 (initialized mi) ts
  | TRec fs => all1 (fun f => mi (fst f) = false -> value_initialized mi (snd f) (a_init (fst f)) /\ initialized mi (snd f)) fs
  | _ => True
  end.

Definition storage (g : list nat -> ty -> val) : Prop := forall p t, wf t -> scalar_type t -> typed t (g p t).
