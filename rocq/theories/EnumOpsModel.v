(** The rest of kl/enum_traits.hpp, and the iterator operators of
    kl/iterator_facade.hpp that [enum_iterator] uses.  Enums are represented as in
    EnumModel.  The operators in the global namespace (198-308) call those of
    [enums::operators], so they are not repeated. *)
From Coq Require Import List ZArith Arith Bool.
From Verif Require Import Base EnumModel.
Import ListNotations.
Local Open Scope outcome_scope.

(** The usual arithmetic conversions: the type both operands are converted to. *)
Definition common (a b : ity) : ity :=
  let a := promote a in
  let b := promote b in
  if Bool.eqb (isigned a) (isigned b) then mkity (isigned a) (Nat.max (ibits a) (ibits b))
  else
    let '(s, u) := if isigned a then (a, b) else (b, a) in
    if ibits s <=? ibits u then u else s.

(** enum_traits.hpp:92-96 [in_range(Integral)], for a value of type [tv]. *)
Definition in_range_i (r : erange) (tv : ity) (v : Z) : bool :=
  let c := common tv (rty r) in
  match max_value r with
  | Some m => ((wrap c (min_value r) <=? wrap c v) && (wrap c v <? wrap c m))%Z%bool
  | None => false
  end.

(** 101-105 *)
Definition op_plus (e : Z) : Z := e.

(** 107-111: the new value, which is also returned. *)
Definition op_inc (t : ity) (e : Z) : outcome Z := r <- arith (promote t) (e + 1) ;; Ok (wrap t r).

(** 113-120: what is returned, and the new value. *)
Definition op_post_inc (t : ity) (e : Z) : outcome (Z * Z) :=
  let ret := e in
  e' <- (r <- arith (promote t) (e + 1) ;; Ok (wrap t r)) ;; Ok (ret, e').

(** 122-162 *)
Definition op_or (t : ity) (a b : Z) : Z := wrap t (Z.lor a b).
Definition op_and (t : ity) (a b : Z) : Z := wrap t (Z.land a b).
Definition op_xor (t : ity) (a b : Z) : Z := wrap t (Z.lxor a b).
Definition op_not (t : ity) (a : Z) : Z := wrap t (Z.lnot a).

(** 278-283 [check_mask] *)
Definition check_mask (v mask : Z) : bool := negb (Z.land v mask =? 0)%Z.

(** [a << n] and [a >> n] in a promoted type.  Until C++20 ([strict]) a negative
    value cannot be shifted left, nor bits out of the corresponding unsigned type. *)
Definition shl (strict : bool) (p : ity) (a n : Z) : outcome Z :=
  if ((n <? 0) || (Z.of_nat (ibits p) <=? n))%Z%bool then UB
  else if strict && isigned p && ((a <? 0) || (2 ^ Z.of_nat (ibits p) <=? a * 2 ^ n))%Z%bool then UB
  else Ok (wrap p (a * 2 ^ n)).
Definition shr (p : ity) (a n : Z) : outcome Z :=
  if ((n <? 0) || (Z.of_nat (ibits p) <=? n))%Z%bool then UB else Ok (Z.shiftr a n).

(** 164-188 *)
Definition op_shl (strict : bool) (t : ity) (a n : Z) : outcome Z := r <- shl strict (promote t) a n ;; Ok (wrap t r).
Definition op_shr (t : ity) (a n : Z) : outcome Z := r <- shr (promote t) a n ;; Ok (wrap t r).

(** iterator_facade.hpp:94-125: [it += n], [it -= n], [it + n], [n + it], [it - n]. *)
Definition it_plus (t : ity) (i n : Z) : Z := it_advance t i n.
Definition it_minus (t : ity) (i n : Z) : Z := it_advance t i (- n).

(** [++it] or [--it], [n] times. *)
Fixpoint times (n : nat) (f : Z -> outcome Z) (i : Z) : outcome Z :=
  match n with
  | O => Ok i
  | S n' => j <- f i ;; times n' f j
  end.
