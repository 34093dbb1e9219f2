(** Enums without a fixed underlying type ([enum e { ... }]): kl/enum_traits.hpp:13-17, 57-82, 107-188, kl/enum_set.hpp:54-75,
    kl/enum_range.hpp:30-58, kl/enum_reflector.hpp:93-118, kl/detail/serialization.hpp:1056-1061.

    Until C++17 a cast of a number that is not one of the values of such an enum is undefined ([expr.static.cast]); the values are those of the
    smallest range of bits that has all enumerators ([dcl.enum]; for enums with negative enumerators only, the wording of C++20, which
    compilers apply, is taken).  The underlying type [t] is the compiler's choice and left open.  An operation on fixed types is in
    EnumModel and EnumOpsModel; here are the casts back.  In constant expressions, where undefined behaviour does not compile, it is [UB] too. *)
From Coq Require Import List ZArith Bool.
From Verif Require Import Base EnumModel EnumOpsModel.
Import ListNotations.
Local Open Scope Z_scope.
Local Open Scope outcome_scope.

Definition smallest (es : list Z) : Z := match es with [] => 0 | x :: l => fold_left Z.min l x end.
Definition largest (es : list Z) : Z := match es with [] => 0 | x :: l => fold_left Z.max l x end.

(** [M], [bmax] and [bmin] of [dcl.enum] *)
Definition width (es : list Z) : Z := Z.log2_up (Z.max (- smallest es - 1) (largest es) + 1).
Definition bmax (es : list Z) : Z := 2 ^ width es - 1.
Definition bmin (es : list Z) : Z := if smallest es <? 0 then - 2 ^ width es else 0.

(** [static_cast<Enum>(z)] *)
Definition cast (es : list Z) (z : Z) : outcome Z := if (bmin es <=? z) && (z <=? bmax es) then Ok z else UB.

(** enum_traits.hpp:122-156, enum_set.hpp:59-75: the operands are promoted, which does not change the result *)
Definition u_or (es : list Z) (a b : Z) : outcome Z := cast es (Z.lor a b).
Definition u_and (es : list Z) (a b : Z) : outcome Z := cast es (Z.land a b).
Definition u_xor (es : list Z) (a b : Z) : outcome Z := cast es (Z.lxor a b).
(** enum_traits.hpp:158-162, enum_set.hpp:54-57 *)
Definition u_not (t : ity) (es : list Z) (a : Z) : outcome Z := cast es (wrap (promote t) (Z.lnot a)).
(** enum_traits.hpp:107-111 *)
Definition u_inc (t : ity) (es : list Z) (a : Z) : outcome Z := r <- arith (promote t) (a + 1) ;; cast es r.
(** enum_traits.hpp:164-188 *)
Definition u_shl (t : ity) (es : list Z) (a n : Z) : outcome Z := r <- shl true (promote t) a n ;; cast es r.
Definition u_shr (t : ity) (es : list Z) (a n : Z) : outcome Z := r <- shr (promote t) a n ;; cast es r.

(** enum_set.hpp:38-51 *)
Definition u_has_any (es : list Z) (a b : Z) : outcome bool := r <- u_and es a b ;; Ok (negb (r =? 0)).
Definition u_has_all (es : list Z) (a b : Z) : outcome bool := r <- u_and es a b ;; Ok (r =? b).

(** serialization.hpp:1056-1061, for an enum that is not reflected; [z] is the number in the document, refused if it is not one of the
    underlying type *)
Definition u_read (t : ity) (es : list Z) (z : Z) : outcome Z :=
  if (ity_min t <=? z) && (z <=? ity_max t) then cast es z else Throws.

(** enum_traits.hpp:13-17: [n] more numbers from [i] on; also enum_range.hpp:30-58, where the numbers go from [min_value] to [max_value] *)
Fixpoint casts (es : list Z) (i : Z) (n : nat) : outcome (list Z) :=
  match n with
  | O => Ok []
  | S n' => x <- cast es i ;; l <- casts es (i + 1) n' ;; Ok (x :: l)
  end.
Definition u_for_each (es : list Z) (first last : Z) : outcome (list Z) := casts es first (Z.to_nat (last - first)).
(** [None]: does not compile (EnumModel) *)
Definition u_range (t : ity) (es : list Z) (lo hi : Z) (open : bool) : option (outcome (list Z)) :=
  option_map (u_for_each es lo) (max_value (mkerange t lo hi open)).
(** enum_traits.hpp:75-78 [max()] *)
Definition u_max (t : ity) (es : list Z) (lo hi : Z) (open : bool) : option (outcome Z) :=
  option_map (cast es) (max_value (mkerange t lo hi open)).

(** enum_reflector.hpp:93-118: [vs] are the enumerators in the order of the macro; there is at least one *)
Fixpoint rising (vs : list Z) : bool :=
  match vs with
  | x :: ((y :: _) as r) => (x <? y) && rising r
  | _ => true
  end.
Definition u_ordinary (es vs : list Z) : outcome bool :=
  match vs with
  | [] => UB
  | v :: _ =>
      zero <- cast es 0 ;;
      if negb (v =? zero) then Ok false
      else
        end_ <- cast es (Z.of_nat (length vs) - 1) ;;
        Ok ((last vs 0 =? end_) && rising vs)
  end.
