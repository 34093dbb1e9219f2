(** [in_range] of integers of any type. *)
From Coq Require Import List NArith ZArith Arith Bool Lia.
From Verif Require Import Base EnumModel EnumSpec EnumProofs EnumOpsModel EnumOpsProofs.
Import ListNotations.
Local Open Scope Z_scope.

(** A value of a narrower type, as a value of an unsigned type. *)
Lemma wrap_unsigned a b z : int_type a -> int_type b -> of_type a z -> isigned (common a b) = false ->
  wrap (common a b) z = if z <? 0 then z + 2 ^ Z.of_nat (ibits (common a b)) else z.
Proof.
  intros Ha Hb [L U] Hs.
  assert (H : forall a b, int_type a -> int_type b -> isigned (common a b) = false ->
    ity_max a < 2 ^ Z.of_nat (ibits (common a b)) /\ - 2 ^ Z.of_nat (ibits (common a b)) <= ity_min a).
  { clear. intros a b Ha Hb. revert a Ha. refine (int_type_cases _ _ _ _ _ _ _ _ _);
      (revert b Hb; refine (int_type_cases _ _ _ _ _ _ _ _ _)); vm_compute; intuition discriminate. }
  destruct (H a b Ha Hb Hs) as [H1 H2]. clear H.
  unfold wrap. unfold ity_min at 1 2. rewrite Hs. rewrite Z.sub_0_r, Z.add_0_r.
  destruct (Z.ltb_spec z 0) as [Hz|Hz].
  - rewrite <- (Z.mod_add z 1) by lia. rewrite Z.mul_1_l. apply Z.mod_small. lia.
  - apply Z.mod_small. lia.
Qed.

Lemma common_sym a b : int_type a -> int_type b -> common a b = common b a.
Proof.
  intros Ha Hb. revert a Ha. refine (int_type_cases _ _ _ _ _ _ _ _ _);
      (revert b Hb; refine (int_type_cases _ _ _ _ _ _ _ _ _)); reflexivity.
Qed.

Lemma common_unsigned a b : int_type a -> int_type b -> isigned (common a b) = false -> isigned a = true ->
  isigned b = false /\ - (2 ^ Z.of_nat (ibits (common a b))) / 2 <= ity_min a /\ ity_max a < (2 ^ Z.of_nat (ibits (common a b))) / 2.
Proof.
  intros Ha Hb. revert a Ha. refine (int_type_cases _ _ _ _ _ _ _ _ _);
    (revert b Hb; refine (int_type_cases _ _ _ _ _ _ _ _ _)); vm_compute; intuition discriminate.
Qed.

Lemma negative_signed t z : of_type t z -> z < 0 -> isigned t = true.
Proof. intros [L _] H. unfold ity_min in L. destruct (isigned t); [reflexivity|lia]. Qed.

(** Compared as numbers of an unsigned type with [n] bits. *)
Lemma in_range_unsigned r tv v n : good_range r -> int_type tv -> of_type tv v ->
  isigned (common tv (rty r)) = false -> n = Z.of_nat (ibits (common tv (rty r))) ->
  (0 <= rmin r -> (in_range_i r tv v = true <-> In v (elements r) \/ (v < 0 /\ In (v + 2 ^ n) (elements r)))) /\
  (rmin r < 0 -> 0 <= v /\ (in_range_i r tv v = true <-> past r < 0 /\ In (v - 2 ^ n) (elements r))).
Proof.
  intros Hg Ht Hv Hs Hn. rewrite !in_elements. unfold in_range_i. rewrite max_value_good by exact Hg. unfold min_value.
  pose proof Hg as (Hr & Hmin & Hmax & Hpast & Hlt).
  pose proof (wrap_unsigned _ _ _ Ht Hr Hv Hs) as Ev.
  assert (rmin r < 0 -> 0 <= v /\ - 2 ^ n / 2 <= rmin r /\ past r < 2 ^ n / 2) as Hneg.
  { intros H. pose proof (negative_signed _ _ Hmin H) as Hsig. rewrite (common_sym tv (rty r) Ht Hr) in *.
    destruct (common_unsigned _ _ Hr Ht Hs Hsig) as (U & B1 & B2). rewrite <- Hn in B1, B2.
    destruct Hv as [Lv _]. unfold ity_min in Lv. rewrite U in Lv. destruct Hmin, Hpast. lia. }
  assert (isigned tv = true -> - 2 ^ n / 2 <= v) as Hvneg.
  { intros Hsig. destruct (common_unsigned _ _ Ht Hr Hs Hsig) as (U & B1 & B2). rewrite <- Hn in B1. destruct Hv. lia. }
  rewrite (common_sym tv (rty r) Ht Hr) in *.
  rewrite (wrap_unsigned _ _ _ Hr Ht Hmin Hs), (wrap_unsigned _ _ _ Hr Ht Hpast Hs), Ev, <- Hn.
  rewrite andb_true_iff, Z.leb_le, Z.ltb_lt.
  assert (0 < 2 ^ n) as Hp by (apply Z.pow_pos_nonneg; lia).
  remember (2 ^ n) as w eqn:Ew. clear Ew Ev Hn n.
  pose proof (Z.div_mod w 2) as Hd. pose proof (Z.mod_pos_bound w 2) as Hm. pose proof (Z.div_mod (- w) 2) as Hd'. pose proof (Z.mod_pos_bound (- w) 2) as Hm'.
  destruct (Z.ltb_spec v 0), (Z.ltb_spec (rmin r) 0), (Z.ltb_spec (past r) 0); split; intros Hc; lia.
Qed.
