(** Vocabulary for the exact versions of claims that fail (C51, C52, C62,
    C64-C66, C69, C70). *)
From Coq Require Import List NArith Arith.
From Verif Require Import Base BinModel.
Import ListNotations.

(** Types whose objects take room: no C++ object has size 0. *)
Fixpoint solid (t : ty) : Prop :=
  match t with
  | TRaw _ w => 1 <= w
  | TInt _ _ _ | TStr => True
  | TVec t1 | TSet t1 | TOpt t1 => solid t1
  | TMap a b | TPair a b => solid a /\ solid b
  | TVar ts => (fix all (ts : list ty) : Prop :=
         match ts with [] => True | t0 :: ts' => solid t0 /\ all ts' end) ts
  | TRec ts => ts <> [] /\ (fix all (ts : list ty) : Prop :=
         match ts with [] => True | t0 :: ts' => solid t0 /\ all ts' end) ts
  end.

(** The text ends in a delimiter, or is empty: cutting it leaves nothing
    after the last delimiter. *)
Definition closed_off (delims s : list N) : Prop :=
  s = [] \/ exists s' d, s = s' ++ [d] /\ In d delims.
