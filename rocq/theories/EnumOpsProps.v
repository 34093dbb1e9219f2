(** C90-C92: moving enum iterators, integers in enum ranges, enum operators. *)
From Coq Require Import List ZArith Arith Bool Lia.
From Verif Require Import Base EnumModel EnumSpec EnumOpsModel EnumOpsProofs EnumRangeProofs.
Import ListNotations.

(** C90: positions are the elements followed by the end. *)
Theorem enum_iterator_moves_by_positions : forall r last, good_range r -> range_end r = Some last ->
  (forall k e, nth_error (elements r ++ [last]) k = Some e ->
     times k (it_increment (rty r)) (range_begin r) = Ok e /\ it_plus (rty r) (range_begin r) (Z.of_nat k) = e /\
     times k (it_decrement (rty r)) e = Ok (range_begin r) /\ it_minus (rty r) e (Z.of_nat k) = range_begin r) /\
  (forall j k e e', nth_error (elements r ++ [last]) j = Some e -> nth_error (elements r ++ [last]) k = Some e' ->
     it_plus (rty r) e (Z.of_nat k - Z.of_nat j) = e' /\ (it_equal_to e e' = true <-> j = k)).
Proof. exact moves_lemma. Qed.
Print Assumptions enum_iterator_moves_by_positions.

(** C91, when the comparison is signed or nothing is negative. *)
Theorem enum_in_range_of_integer_partial : forall r tv v, good_range r -> int_type tv -> of_type tv v ->
  isigned (common tv (rty r)) = true \/ (0 <= rmin r /\ 0 <= v)%Z ->
  (in_range_i r tv v = true <-> In v (elements r)).
Proof. exact in_range_i_lemma. Qed.
Print Assumptions enum_in_range_of_integer_partial.

(** C91 fails otherwise: 3u is not in [-1, 5) but -5 is in [0, 0xFFFFFFFF). *)
Theorem enum_in_range_of_integer_refuted :
  (exists r tv v, good_range r /\ int_type tv /\ of_type tv v /\ In v (elements r) /\ in_range_i r tv v = false) /\
  (exists r tv v, good_range r /\ int_type tv /\ of_type tv v /\ (v < rmin r)%Z /\ in_range_i r tv v = true).
Proof.
  split.
  - exists (mkerange (mkity true 32) (-1) 5 true), (mkity false 32), 3%Z.
    split; [unfold good_range, int_type, of_type; cbn; intuition lia|]. split; [unfold int_type; cbn; auto|].
    split; [unfold of_type; cbn; lia|]. split; [vm_compute; auto 10|vm_compute; reflexivity].
  - exists (mkerange (mkity false 32) 0 4294967295 true), (mkity true 32), (-5)%Z.
    split; [unfold good_range, int_type, of_type; cbn; intuition lia|]. split; [unfold int_type; cbn; auto|].
    split; [unfold of_type; cbn; lia|]. split; [cbn; lia|vm_compute; reflexivity].
Qed.
Print Assumptions enum_in_range_of_integer_refuted.

(** C91, what is answered when the comparison is unsigned, with [n] bits: the range may also hold what wraps into it; a range
    that begins below zero holds nothing but what wraps into it, and that only if it ends below zero too. *)
Theorem enum_in_range_of_integer_exactly : forall r tv v n, good_range r -> int_type tv -> of_type tv v ->
  isigned (common tv (rty r)) = false -> n = Z.of_nat (ibits (common tv (rty r))) ->
  ((0 <= rmin r)%Z -> (in_range_i r tv v = true <-> In v (elements r) \/ ((v < 0)%Z /\ In (v + 2 ^ n)%Z (elements r)))) /\
  ((rmin r < 0)%Z -> (0 <= v)%Z /\ (in_range_i r tv v = true <-> (past r < 0)%Z /\ In (v - 2 ^ n)%Z (elements r))).
Proof. exact in_range_unsigned. Qed.
Print Assumptions enum_in_range_of_integer_exactly.
Example ex_in_range_wraps :
  in_range_i (mkerange (mkity true 32) (-5) (-2) true) (mkity false 32) 4294967292 = true /\
  in_range_i (mkerange (mkity true 32) (-5) 2 true) (mkity false 32) 1 = false /\
  in_range_i (mkerange (mkity false 32) 4294967290 4294967295 true) (mkity true 16) (-3) = true.
Proof. repeat split; vm_compute; reflexivity. Qed.

(** C92: the bit operators. *)
Theorem enum_bit_operators : forall t a b, int_type t -> of_type t a -> of_type t b ->
  (of_type t (op_and t a b) /\ of_type t (op_or t a b) /\ of_type t (op_xor t a b) /\ of_type t (op_not t a)) /\
  (forall i, i < ibits t ->
     (flag (op_and t a b) i <-> flag a i /\ flag b i) /\ (flag (op_or t a b) i <-> flag a i \/ flag b i) /\
     (flag (op_xor t a b) i <-> (flag a i <-> ~ flag b i)) /\ (flag (op_not t a) i <-> ~ flag a i)) /\
  (check_mask a b = true <-> exists i, i < ibits t /\ flag a i /\ flag b i).
Proof. exact bit_operators_lemma. Qed.
Print Assumptions enum_bit_operators.

(** C92: shifts by less than the width.  Until C++20 a left shift in a signed
    type must not lose bits. *)
Theorem enum_shift_operators : forall t a n, int_type t -> of_type t a -> (0 <= n < Z.of_nat (ibits t))%Z ->
  (exists x, op_shr t a n = Ok x /\ of_type t x /\ forall i, flag x i <-> flag a (i + Z.to_nat n)) /\
  (forall strict,
     (strict = true -> isigned (promote t) = true -> (0 <= a /\ a * 2 ^ n < 2 ^ Z.of_nat (ibits (promote t)))%Z) ->
     exists x, op_shl strict t a n = Ok x /\ of_type t x /\
       forall i, i < ibits t -> (flag x i <-> Z.to_nat n <= i /\ flag a (i - Z.to_nat n))).
Proof. exact (fun t a n Ht Ha Hn => conj (shift_right_lemma t a n Ht Ha Hn) (fun strict Hs => shift_left_lemma strict t a n Ht Ha Hn Hs)). Qed.
Print Assumptions enum_shift_operators.

(** C92: the next value, where there is one. *)
Theorem enum_increment_operators : forall t a, int_type t -> of_type t a -> of_type t (a + 1) ->
  op_inc t a = Ok (a + 1)%Z /\ op_post_inc t a = Ok (a, (a + 1)%Z).
Proof. exact next_lemma. Qed.
Print Assumptions enum_increment_operators.

(* ------------------------------------------------------------------ *)

Example ex_moves : let r := mkerange (mkity false 8) 2 6 true in
  good_range r /\ range_end r = Some 6%Z /\ elements r = [2; 3; 4; 5]%Z /\
  it_plus (rty r) 5 (-2) = 3%Z /\ it_minus (rty r) 6 4 = 2%Z.
Proof. split; [unfold good_range, int_type, of_type; cbn; intuition lia|]. repeat split; reflexivity. Qed.

(** -1 is compared as 255 to nothing: a narrow unsigned type is promoted to int. *)
Example ex_in_range : in_range_i (mkerange (mkity false 8) 0 255 true) (mkity true 32) (-5) = false /\
  in_range_i (mkerange (mkity true 32) 2 8 false) (mkity false 64) 8 = true.
Proof. split; reflexivity. Qed.

Example ex_shifts : op_shl true (mkity false 8) 129 1 = Ok 2%Z /\ op_shl true (mkity true 32) 1 31 = Ok (-2147483648)%Z /\
  op_shl true (mkity true 32) (-1) 1 = UB /\ op_shl false (mkity true 32) (-1) 1 = Ok (-2)%Z /\
  op_shr (mkity true 8) (-128) 3 = Ok (-16)%Z /\ op_shr (mkity false 32) 5 32 = UB.
Proof. repeat split; reflexivity. Qed.

(** At the end of the type: undefined for int, back to zero for a narrow type. *)
Example ex_inc_end : op_inc (mkity true 32) 2147483647 = UB /\ op_inc (mkity false 8) 255 = Ok 0%Z.
Proof. split; reflexivity. Qed.
