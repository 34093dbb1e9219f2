(** Enums: kl/enum_reflector.hpp, kl/enum_set.hpp, kl/enum_traits.hpp,
    kl/enum_range.hpp, kl/iterator_facade.hpp.

    An enumerator is represented by its underlying value, an integer.  Names are
    byte lists; [KL_REFLECT_ENUM] makes them from identifiers by stringizing
    (reflect_enum.hpp:148-149), so [name.data()] is NUL terminated and denotes
    the whole name.  Enums are assumed to have a fixed underlying type, for
    which every value of the type is a value of the enum. *)
From Coq Require Import List NArith ZArith Arith Bool.
From Verif Require Import Base PathModel.
Import ListNotations.
Local Open Scope outcome_scope.

(** An integer type: signedness and number of bits. *)
Record ity := mkity { isigned : bool; ibits : nat }.

Definition ity_min (t : ity) : Z := if isigned t then (- 2 ^ (Z.of_nat (ibits t) - 1))%Z else 0%Z.
Definition ity_max (t : ity) : Z :=
  if isigned t then (2 ^ (Z.of_nat (ibits t) - 1) - 1)%Z else (2 ^ Z.of_nat (ibits t) - 1)%Z.

(** Conversion to the type: modular.  For signed types this is implementation
    defined before C++20; every supported compiler does this. *)
Definition wrap (t : ity) (z : Z) : Z :=
  ((z - ity_min t) mod 2 ^ Z.of_nat (ibits t) + ity_min t)%Z.

(** Integral promotion: types narrower than [int] become [int] (32 bits). *)
Definition promote (t : ity) : ity := if ibits t <? 32 then mkity true 32 else t.

Definition size_t : ity := mkity false 64.
Definition ptrdiff_t : ity := mkity true 64.

(** The value of an arithmetic expression computed in type [t] (already
    promoted): signed overflow is undefined, unsigned wraps. *)
Definition arith (t : ity) (z : Z) : outcome Z :=
  if isigned t then
    if ((z <? ity_min t) || (ity_max t <? z))%Z%bool then UB else Ok z
  else Ok (wrap t z).

(* ------------------------------------------------------------------ *)
(** ** enum_reflector *)

(** [reflection_data]: reflect_enum.hpp:84-110; the array has at least one
    element.  [str_eqb] compares string views. *)
Definition table := list (Z * list N).

(** enum_reflector.hpp:121-129 [from_string_impl]: a fold that keeps the first match. *)
Definition from_string (tab : table) (s : list N) : option Z :=
  fold_left (fun ret p =>
    match ret with
    | None => if str_eqb s (snd p) then Some (fst p) else None
    | Some _ => ret
    end) tab None.

(** enum_reflector.hpp:105-112: the loop with [cur] and [next]. *)
Fixpoint sorted_from (cur : Z) (rest : table) : bool :=
  match rest with
  | [] => true
  | next :: rest' => if (fst next <=? cur)%Z then false else sorted_from (fst next) rest'
  end.

(** enum_reflector.hpp:89-114 [is_ordinary_enum]; [static_cast<Enum>(n)]
    converts to the underlying type. *)
Definition is_ordinary (t : ity) (tab : table) : bool :=
  match tab with
  | [] => false
  | first :: rest =>
      let last := List.last tab first in
      if (negb (fst first =? wrap t 0) || negb (fst last =? wrap t (Z.of_nat (length tab) - 1)))%Z%bool
      then false
      else sorted_from (fst first) rest
  end.

Fixpoint find_name (tab : table) (v : Z) (def : list N) : list N :=
  match tab with
  | [] => def
  | p :: tab' => if (fst p =? v)%Z then snd p else find_name tab' v def
  end.

(** enum_reflector.hpp:57-78 [to_string]; [rng.begin() + num_value] outside the
    array is undefined. *)
Definition to_string (t : ity) (tab : table) (v : Z) (def : list N) : outcome (list N) :=
  if is_ordinary t tab then
    let num_value := wrap size_t v in
    if (num_value <? Z.of_nat (length tab))%Z then
      match nth_error tab (Z.to_nat num_value) with
      | Some p => Ok (snd p)
      | None => UB
      end
    else Ok def
  else Ok (find_name tab v def).

(** enum_reflector.hpp:132-143 [values_impl]. *)
Definition values (tab : table) : list Z := map fst tab.

(* ------------------------------------------------------------------ *)
(** ** enum_set (enum_set.hpp:7-184).  The set is its underlying value; the
    operators compute in the promoted type and convert back. *)

Definition es_empty : Z := 0%Z.
Definition es_and (t : ity) (a b : Z) : Z := wrap t (Z.land a b).      (* 59-63 *)
Definition es_or (t : ity) (a b : Z) : Z := wrap t (Z.lor a b).        (* 65-69 *)
Definition es_xor (t : ity) (a b : Z) : Z := wrap t (Z.lxor a b).      (* 71-75 *)
Definition es_not (t : ity) (a : Z) : Z := wrap t (Z.lnot a).          (* 54-57 *)
Definition es_eq (a b : Z) : bool := (a =? b)%Z.                       (* 77-80 *)
Definition es_bool (a : Z) : bool := negb (a =? 0)%Z.                  (* 26-29 *)
Definition es_has_any (t : ity) (a b : Z) : bool := negb (es_eq (es_and t a b) es_empty). (* 38-41 *)
Definition es_has_all (t : ity) (a b : Z) : bool := es_eq (es_and t a b) b.               (* 48-51 *)
Definition es_test (t : ity) (a b : Z) : bool := es_has_all t a b.     (* 31 *)

(* ------------------------------------------------------------------ *)
(** ** enum_trait_support_range (enum_traits.hpp:53-103) *)

(** The template arguments; [half_open] is [open_closed]. *)
Record erange := mkerange { rty : ity; rmin : Z; rmax : Z; half_open : bool }.

(** 59-62 *)
Definition min_value (r : erange) : Z := rmin r.

(** 63-69 [max_value]: the static assertion and the returned value; [None] is
    a program that does not compile (assertion failed or the constant
    expression overflows). *)
Definition max_value (r : erange) : option Z :=
  if half_open r then Some (rmax r)
  else
    match arith (promote (rty r)) (rmax r + 1) with
    | Ok m => if (rmax r <? m)%Z then Some (wrap (rty r) m) else None
    | _ => None
    end.

(** 79-82 [count]: computed in the promoted type, converted to [size_t]. *)
Definition count (r : erange) : option Z :=
  match max_value r with
  | Some m =>
      match arith (promote (rty r)) (m - min_value r) with
      | Ok d => Some (wrap size_t d)
      | _ => None
      end
  | None => None
  end.

(** 84: [static_assert(count() > 0)]. *)
Definition compiles (r : erange) : bool :=
  match count r with Some n => (0 <? n)%Z | None => false end.

(** 86-90 [in_range(Enum)] *)
Definition in_range_e (r : erange) (e : Z) : bool :=
  match max_value r with
  | Some m => ((min_value r <=? e) && (e <? m))%Z%bool
  | None => false
  end.

(** enum_traits.hpp:13-18 [for_each_enum]: [fuel] bounds the number of rounds;
    [None] when it does not suffice. *)
Fixpoint for_each_enum (fuel : nat) (t : ity) (i last : Z) : outcome (option (list Z)) :=
  if (i <? last)%Z then
    match fuel with
    | O => Ok None
    | S fuel' =>
        i1 <- arith (promote t) (i + 1) ;;
        rest <- for_each_enum fuel' t (wrap t i1) last ;;
        Ok (option_map (cons i) rest)
    end
  else Ok (Some []).

(* ------------------------------------------------------------------ *)
(** ** enum_iterator (enum_range.hpp:13-58); an iterator is its [index_] *)

(** 37 [increment]: [++index_] on a narrow type converts back. *)
Definition it_increment (t : ity) (i : Z) : outcome Z :=
  r <- arith (promote t) (i + 1) ;; Ok (wrap t r).
(** 36 *)
Definition it_decrement (t : ity) (i : Z) : outcome Z :=
  r <- arith (promote t) (i - 1) ;; Ok (wrap t r).
(** 35 [index_ += n]: computed in [ptrdiff_t] or wider, converted back. *)
Definition it_advance (t : ity) (i n : Z) : Z := wrap t (i + n).
(** 39-42 [distance_to]: [other.index_ - index_] is computed in the promoted
    type and converted to [ptrdiff_t]. *)
Definition it_distance_to (t : ity) (self other : Z) : outcome Z :=
  r <- arith (promote t) (other - self) ;; Ok (wrap ptrdiff_t r).
(** 44-47 *)
Definition it_equal_to (self other : Z) : bool := (other =? self)%Z.

(** iterator_facade.hpp:121-165, the operators made from [distance_to], for
    any iterator type [I]. *)
Section facade.
  Context {I : Type} (distance_to : I -> I -> outcome Z).
  Definition fa_minus (left right : I) : outcome Z := distance_to left right.
  Definition fa_lt (left right : I) : outcome bool := d <- fa_minus right left ;; Ok (0 <? d)%Z.
  Definition fa_gt (left right : I) : outcome bool := d <- fa_minus left right ;; Ok (0 <? d)%Z.
  Definition fa_le (left right : I) : outcome bool := b <- fa_gt left right ;; Ok (negb b).
  Definition fa_ge (left right : I) : outcome bool := b <- fa_lt left right ;; Ok (negb b).
End facade.

(** enum_range.hpp:51-57: [begin] and [end]. *)
Definition range_begin (r : erange) : Z := min_value r.
Definition range_end (r : erange) : option Z := max_value r.

(** [for (auto v : enum_range<Enum>())]. *)
Fixpoint walk (fuel : nat) (t : ity) (i last : Z) : outcome (option (list Z)) :=
  if it_equal_to i last then Ok (Some [])
  else
    match fuel with
    | O => Ok None
    | S fuel' =>
        i1 <- it_increment t i ;;
        rest <- walk fuel' t i1 last ;;
        Ok (option_map (cons i) rest)
    end.
