(** The validators of serialization_attributes.hpp (133-168): [range], [greater_equal],
    [less_equal], with limits of any arithmetic type, on fields of arithmetic types and
    optionals of them.  The text of the error is not modelled. *)
From Coq Require Import List NArith ZArith Bool SpecFloat.
From Verif Require Import Base PathModel EnumModel EnumOpsModel SerialModel FloatModel.
Import ListNotations.
Local Open Scope Z_scope.

(** Arithmetic types. *)
Inductive nty := NInt (t : ity) | NFlt | NDbl.

(** The usual arithmetic conversions. *)
Definition common_type (a b : nty) : nty :=
  match a, b with
  | NDbl, _ | _, NDbl => NDbl
  | NFlt, _ | _, NFlt => NFlt
  | NInt x, NInt y => NInt (common x y)
  end.

(** A number converted to a type. *)
Inductive number := Int (z : Z) | Flo (f : spec_float).

Definition convert_to (n : nty) (v : val) : option number :=
  match n, v with
  | NInt t, VInt z => Some (Int (wrap t z))
  | NFlt, VInt z => Some (Flo (from_int binary32 z))
  | NFlt, VFlt b => Some (Flo (decode binary32 b))
  | NDbl, VInt z => Some (Flo (from_int binary64 z))
  | NDbl, VFlt b => Some (Flo (convert binary64 (decode binary32 b)))
  | NDbl, VDbl b => Some (Flo (decode binary64 b))
  | _, _ => None
  end.

Definition lt_numbers (a b : number) : bool :=
  match a, b with
  | Int x, Int y => x <? y
  | Flo x, Flo y => SFltb x y
  | _, _ => false
  end.

(** [x < y] for numbers of types [tx] and [ty]. *)
Definition lt_mixed (tx : nty) (x : val) (ty : nty) (y : val) : bool :=
  let c := common_type tx ty in
  match convert_to c x, convert_to c y with
  | Some a, Some b => lt_numbers a b
  | _, _ => false
  end.

(** A limit: its type and value. *)
Record limit := mklimit { l_type : nty; l_value : val }.

(** [value < limit] and [value > limit]: an empty optional is below everything. *)
Fixpoint below (t : ty) (v : val) (l : limit) : bool :=
  match t, v with
  | TInt it, VInt _ => lt_mixed (NInt it) v (l_type l) (l_value l)
  | TFloat, VFlt _ => lt_mixed NFlt v (l_type l) (l_value l)
  | TDouble, VDbl _ => lt_mixed NDbl v (l_type l) (l_value l)
  | TOpt _, VNone => true
  | TOpt t', VSome v' => below t' v' l
  | _, _ => false
  end.
Fixpoint above (t : ty) (v : val) (l : limit) : bool :=
  match t, v with
  | TInt it, VInt _ => lt_mixed (l_type l) (l_value l) (NInt it) v
  | TFloat, VFlt _ => lt_mixed (l_type l) (l_value l) NFlt v
  | TDouble, VDbl _ => lt_mixed (l_type l) (l_value l) NDbl v
  | TOpt _, VNone => false
  | TOpt t', VSome v' => above t' v' l
  | _, _ => false
  end.

(** 133-144 *)
Definition range (t : ty) (lo hi : limit) (v : val) : verdict :=
  if below t v lo || above t v hi then Reject else Accept.
(** 146-156 *)
Definition greater_equal (t : ty) (lo : limit) (v : val) : verdict := if below t v lo then Reject else Accept.
(** 158-168 *)
Definition less_equal (t : ty) (hi : limit) (v : val) : verdict := if above t v hi then Reject else Accept.
