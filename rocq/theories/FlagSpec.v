(** Where the bools are and which values they have. *)
From Coq Require Import List NArith ZArith Arith Bool.
From Verif Require Import Base BinModel BinSpec FlagModel.
Import ListNotations.

(** Every [bool] in it is false or true. *)
Inductive proper : fty -> val -> Prop :=
| p_plain : forall t v, proper (FPlain t) v
| p_false : proper FFlag (VInt 0)
| p_true : proper FFlag (VInt 1)
| p_vec : forall t l, (forall v, In v l -> proper t v) -> proper (FVec t) (VSeq l)
| p_map : forall k t l, (forall x y, In (x, y) l -> proper k x /\ proper t y) -> proper (FMap k t) (VMap l)
| p_set : forall t l, (forall v, In v l -> proper t v) -> proper (FSet t) (VSet l)
| p_pair : forall a b x y, proper a x -> proper b y -> proper (FPair a b) (VPair x y)
| p_none : forall t, proper (FOpt t) (VOpt None)
| p_some : forall t v, proper t v -> proper (FOpt t) (VOpt (Some v))
| p_var : forall ts i t v, nth_error ts i = Some t -> proper t v -> proper (FVar ts) (VVar i v)
| p_rec : forall ts vs, Forall2 proper ts vs -> proper (FRec ts) (VSeq vs).

(** A [bool] is moved together with the value. *)
Inductive carries : fty -> Prop :=
| c_flag : carries FFlag
| c_first : forall a b, carries a -> carries (FPair a b)
| c_second : forall a b, carries b -> carries (FPair a b)
| c_opt : forall t, carries t -> carries (FOpt t)
| c_var : forall ts t, In t ts -> carries t -> carries (FVar ts)
| c_rec : forall ts t, In t ts -> carries t -> carries (FRec ts).

(** A [bool] is moved when such a type is read: it is in an element, in a key or mapped value, in an optional or in an alternative. *)
Inductive exposed : fty -> Prop :=
| e_vec : forall t, carries t \/ exposed t -> exposed (FVec t)
| e_key : forall k t, carries k \/ exposed k -> exposed (FMap k t)
| e_mapped : forall k t, carries t \/ exposed t -> exposed (FMap k t)
| e_set : forall t, carries t \/ exposed t -> exposed (FSet t)
| e_opt : forall t, carries t \/ exposed t -> exposed (FOpt t)
| e_var : forall ts t, In t ts -> carries t \/ exposed t -> exposed (FVar ts)
| e_first : forall a b, exposed a -> exposed (FPair a b)
| e_second : forall a b, exposed b -> exposed (FPair a b)
| e_rec : forall ts t, In t ts -> exposed t -> exposed (FRec ts).

(** A [bool] anywhere. *)
Definition flagged (t : fty) : Prop := carries t \/ exposed t.

(** There is no [std::vector<bool>] in streams (C166). *)
Fixpoint streamable (t : fty) : Prop :=
  match t with
  | FPlain _ | FFlag => True
  | FVec FFlag => False
  | FVec t | FSet t | FOpt t => streamable t
  | FMap a b | FPair a b => streamable a /\ streamable b
  | FVar ts | FRec ts => (fix all (ts : list fty) : Prop := match ts with [] => True | t :: ts' => streamable t /\ all ts' end) ts
  end.

(** [bs] is next to be read. *)
Definition ahead (c : cursor) (bs : list N) : Prop :=
  inside c /\ err c = false /\ exists pre post, buf c = pre ++ bs ++ post /\ pos c = N.of_nat (length pre).
