(** Vocabulary for limits: amounts of numbers, and when C++ compares numbers of different types
    by their amounts. *)
From Coq Require Import List NArith ZArith Bool SpecFloat.
From Verif Require Import Base PathModel EnumModel EnumSpec SerialModel FloatModel FloatSpec RangeModel.
Import ListNotations.
Local Open Scope Z_scope.

Definition amount_of_num (v : val) : amount :=
  match v with
  | VInt z => integer z
  | VFlt b => amount_of (decode binary32 b)
  | VDbl b => amount_of (decode binary64 b)
  | _ => NotANumber
  end.

(** [v] is a number of type [n]. *)
Definition num_of_type (n : nty) (v : val) : Prop :=
  match n, v with
  | NInt t, VInt z => int_type t /\ of_type t z
  | NFlt, VFlt _ | NDbl, VDbl _ => True
  | _, _ => False
  end.

(** The number [z] of type [own] is unchanged when compared with a number of type [other]: it is
    negative only if [other] is signed, narrower than [int], or narrower than [own]. *)
Definition keeps_sign (own other : ity) (z : Z) : Prop :=
  z < 0 -> isigned other = true \/ (ibits other < 32)%nat \/ (ibits other < ibits own)%nat.

Definition compared_exactly (tx : nty) (x : val) (ty : nty) (y : val) : Prop :=
  match tx, x, ty, y with
  | NInt a, VInt z, NInt b, VInt w => keeps_sign a b z /\ keeps_sign b a w
  | NInt _, VInt z, NFlt, _ | NFlt, _, NInt _, VInt z => Z.abs z <= 2 ^ 24
  | NInt _, VInt z, NDbl, _ | NDbl, _, NInt _, VInt z => Z.abs z <= 2 ^ 53
  | _, _, _, _ => True
  end.

(** The number in a field of type [t], through optionals. *)
Inductive content : ty -> val -> nty -> val -> Prop :=
| ct_int it z : content (TInt it) (VInt z) (NInt it) (VInt z)
| ct_flt b : content TFloat (VFlt b) NFlt (VFlt b)
| ct_dbl b : content TDouble (VDbl b) NDbl (VDbl b)
| ct_some t v n x : content t v n x -> content (TOpt t) (VSome v) n x.

(** There is none. *)
Inductive no_content : ty -> val -> Prop :=
| nc_none t : no_content (TOpt t) VNone
| nc_some t v : no_content t v -> no_content (TOpt t) (VSome v).

(** Comparing with a limit is exact. *)
Definition fair (n : nty) (x : val) (l : limit) : Prop :=
  num_of_type (l_type l) (l_value l) /\ compared_exactly n x (l_type l) (l_value l).

(** A field that holds one number or none. *)
Fixpoint numeric (t : ty) : Prop :=
  match t with
  | TInt _ | TFloat | TDouble => True
  | TOpt t' => numeric t'
  | _ => False
  end.
