From Coq Require Import List ZArith Bool Lia.
From Verif Require Import Base EnumModel EnumOpsModel EnumSpec EnumProofs UnfModel UnfSpec.
Import ListNotations.
Local Open Scope Z_scope.

(* ---------- the range ---------- *)

Lemma fold_min l : forall x, fold_left Z.min l x <= x /\ (forall y, In y l -> fold_left Z.min l x <= y) /\
  (fold_left Z.min l x = x \/ In (fold_left Z.min l x) l).
Proof.
  induction l as [|a l IH]; intros x; cbn [fold_left]; [split; [lia|split; [intros ? []|now left]]|].
  destruct (IH (Z.min x a)) as (H1 & H2 & H3). split; [lia|]. split.
  - intros y [->|Hy]; [lia|auto].
  - destruct H3 as [H3|H3]; [|right; now right]. destruct (Z.min_spec x a) as [[_ E]|[_ E]]; rewrite E in *; [now left|right; left; congruence].
Qed.
Lemma fold_max l : forall x, x <= fold_left Z.max l x /\ (forall y, In y l -> y <= fold_left Z.max l x) /\
  (fold_left Z.max l x = x \/ In (fold_left Z.max l x) l).
Proof.
  induction l as [|a l IH]; intros x; cbn [fold_left]; [split; [lia|split; [intros ? []|now left]]|].
  destruct (IH (Z.max x a)) as (H1 & H2 & H3). split; [lia|]. split.
  - intros y [->|Hy]; [lia|auto].
  - destruct H3 as [H3|H3]; [|right; now right]. destruct (Z.max_spec x a) as [[_ E]|[_ E]]; rewrite E in *; [right; left; congruence|now left].
Qed.

Lemma smallest_le es x : In x es -> smallest es <= x.
Proof. destruct es as [|a l]; [intros []|]. cbn. destruct (fold_min l a) as (H1 & H2 & _). intros [->|H]; auto. Qed.
Lemma largest_ge es x : In x es -> x <= largest es.
Proof. destruct es as [|a l]; [intros []|]. cbn. destruct (fold_max l a) as (H1 & H2 & _). intros [->|H]; auto. Qed.
Lemma smallest_in es : es = [] /\ smallest es = 0 \/ In (smallest es) es.
Proof. destruct es as [|a l]; [now left|right]. cbn. destruct (fold_min l a) as (_ & _ & [->|H]); auto. Qed.
Lemma largest_in es : es = [] /\ largest es = 0 \/ In (largest es) es.
Proof. destruct es as [|a l]; [now left|right]. cbn. destruct (fold_max l a) as (_ & _ & [->|H]); auto. Qed.

Lemma signed_smallest es : signed_ es <-> smallest es < 0.
Proof.
  split.
  - intros (x & H & L). apply smallest_le in H. lia.
  - intros L. destruct (smallest_in es) as [[_ E]|H]; [lia|]. exists (smallest es). auto.
Qed.

Definition need (es : list Z) : Z := Z.max (- smallest es - 1) (largest es).
Lemma need_nonneg es : 0 <= need es.
Proof.
  unfold need. destruct (smallest_in es) as [[-> _]|H]; [cbn; lia|]. apply largest_ge in H. lia.
Qed.

Lemma pow_pos m : 0 <= m -> 0 < 2 ^ m.
Proof. intros H. apply Z.pow_pos_nonneg; lia. Qed.

Lemma enough_need es m : enough es m <-> 0 <= m /\ need es < 2 ^ m.
Proof.
  unfold enough, need. split; intros [H0 H]; (split; [exact H0|]); pose proof (pow_pos m H0) as P.
  - apply Z.max_lub_lt.
    + destruct (smallest_in es) as [[_ ->]|I]; [lia|]. specialize (H _ I). lia.
    + destruct (largest_in es) as [[_ ->]|I]; [lia|]. specialize (H _ I). lia.
  - intros x I. pose proof (smallest_le es x I). pose proof (largest_ge es x I). lia.
Qed.

Lemma width_fewest es : fewest es (width es).
Proof.
  pose proof (need_nonneg es) as N. unfold fewest. rewrite enough_need. unfold width. fold (need es).
  split.
  - split; [apply Z.log2_up_nonneg|]. destruct (Z.eq_dec (need es) 0) as [E|E]; [rewrite E; reflexivity|].
    destruct (Z.log2_up_spec (need es + 1)) as [_ H]; lia.
  - intros m. rewrite enough_need. intros [H0 H]. apply Z.log2_up_le_pow2; lia.
Qed.

Lemma fewest_fun es m m' : fewest es m -> fewest es m' -> m = m'.
Proof. intros [A B] [C D]. specialize (B _ C). specialize (D _ A). lia. Qed.

Lemma width_nonneg es : 0 <= width es.
Proof. apply Z.log2_up_nonneg. Qed.

Lemma value_iff es z : value es z <-> bmin es <= z <= bmax es.
Proof.
  pose proof (width_nonneg es) as W. pose proof (pow_pos _ W) as P. unfold value, bmin, bmax. split.
  - intros (m & F & L & C). rewrite (fewest_fun _ _ _ F (width_fewest es)) in *. rewrite signed_smallest in C.
    destruct (Z.ltb_spec (smallest es) 0); lia.
  - intros H. exists (width es). split; [apply width_fewest|]. rewrite signed_smallest.
    destruct (Z.ltb_spec (smallest es) 0); lia.
Qed.

Lemma cast_ok es z : value es z -> cast es z = Ok z.
Proof.
  rewrite value_iff. intros [A B]. unfold cast. apply Z.leb_le in A. apply Z.leb_le in B. now rewrite A, B.
Qed.
Lemma cast_ub es z : ~ value es z -> cast es z = UB.
Proof.
  rewrite value_iff. intros H. unfold cast. destruct (Z.leb_spec (bmin es) z); [|reflexivity].
  destruct (Z.leb_spec z (bmax es)); [exfalso; lia|reflexivity].
Qed.
Lemma value_dec es z : value es z \/ ~ value es z.
Proof. rewrite value_iff. lia. Qed.
Lemma cast_iff es z r : cast es z = Ok r <-> value es z /\ r = z.
Proof.
  destruct (value_dec es z) as [V|V].
  - rewrite (cast_ok es z V). split; [intros E; injection E as <-; auto|intros [_ ->]; reflexivity].
  - rewrite (cast_ub es z V). split; [discriminate|intros [? _]; contradiction].
Qed.

(* ---------- bits ---------- *)

(** In [-2^m, 2^m) exactly if what is above the bits is 0 or -1. *)
Lemma shiftr_range m z : 0 <= m -> (- 2 ^ m <= z < 2 ^ m <-> Z.shiftr z m = 0 \/ Z.shiftr z m = -1).
Proof.
  intros H. rewrite Z.shiftr_div_pow2 by exact H. pose proof (pow_pos m H) as P.
  pose proof (Z.div_mod z (2 ^ m) ltac:(lia)) as D. pose proof (Z.mod_pos_bound z (2 ^ m) P) as B. split.
  - intros L. assert (-1 <= z / 2 ^ m < 1); [|lia]. split; [apply Z.div_le_lower_bound; lia|apply Z.div_lt_upper_bound; lia].
  - intros [E|E]; rewrite E in D; lia.
Qed.
Lemma shiftr_unsigned m z : 0 <= m -> (0 <= z < 2 ^ m <-> Z.shiftr z m = 0).
Proof.
  intros H. rewrite Z.shiftr_div_pow2 by exact H. pose proof (pow_pos m H) as P.
  pose proof (Z.div_mod z (2 ^ m) ltac:(lia)) as D. pose proof (Z.mod_pos_bound z (2 ^ m) P) as B. split.
  - apply Z.div_small.
  - intros E; rewrite E in D; lia.
Qed.

Lemma value_bits es z : value es z <-> Z.shiftr z (width es) = 0 \/ signed_ es /\ Z.shiftr z (width es) = -1.
Proof.
  pose proof (width_nonneg es) as W. rewrite value_iff. unfold bmin, bmax. rewrite signed_smallest.
  pose proof (shiftr_range _ z W) as A. pose proof (shiftr_unsigned _ z W) as B.
  destruct (Z.ltb_spec (smallest es) 0); [|rewrite <- B; lia].
  split; [intros C|intros C]; [destruct (proj1 A ltac:(lia)); auto|assert (- 2 ^ width es <= z < 2 ^ width es) by (apply A; tauto); lia].
Qed.

Lemma bits_closed es a b : value es a -> value es b ->
  value es (Z.lor a b) /\ value es (Z.land a b) /\ value es (Z.lxor a b).
Proof.
  rewrite !value_bits, Z.shiftr_lor, Z.shiftr_land, Z.shiftr_lxor.
  intros [->|[S ->]] [->|[S' ->]]; cbn; auto 10.
Qed.

Lemma meets a b : negb (Z.land a b =? 0) = true <-> exists i, 0 <= i /\ Z.testbit a i = true /\ Z.testbit b i = true.
Proof.
  rewrite negb_true_iff, Z.eqb_neq. split.
  - intros N. destruct (Z_lt_le_dec (Z.land a b) 0) as [L|L].
    + exists (Z.max (Z.succ (Z.log2 (Z.abs a))) (Z.succ (Z.log2 (Z.abs b)))).
      apply Z.land_neg in L. destruct L as [La Lb].
      split; [pose proof (Z.log2_nonneg (Z.abs a)); lia|].
      split; apply Z.bits_iff_neg; lia.
    + exists (Z.log2 (Z.land a b)). split; [apply Z.log2_nonneg|]. apply andb_true_iff. rewrite <- Z.land_spec. apply Z.bit_log2. lia.
  - intros (i & H & A & B) E. assert (X : Z.testbit (Z.land a b) i = true) by (rewrite Z.land_spec, A, B; reflexivity).
    rewrite E, Z.bits_0 in X. discriminate.
Qed.
Lemma within a b : (Z.land a b =? b) = true <-> forall i, 0 <= i -> Z.testbit b i = true -> Z.testbit a i = true.
Proof.
  rewrite Z.eqb_eq. split.
  - intros E i H B. rewrite <- E, Z.land_spec in B. apply andb_true_iff in B. tauto.
  - intros H. apply Z.bits_inj'. intros i Hi. rewrite Z.land_spec. destruct (Z.testbit b i) eqn:E; [rewrite (H i Hi E); reflexivity|apply andb_false_r].
Qed.

Lemma bit_operators es a b : value es a -> value es b ->
  (u_or es a b = Ok (Z.lor a b) /\ value es (Z.lor a b)) /\ (u_and es a b = Ok (Z.land a b) /\ value es (Z.land a b)) /\
  (u_xor es a b = Ok (Z.lxor a b) /\ value es (Z.lxor a b)) /\
  (exists x, u_has_any es a b = Ok x /\ (x = true <-> exists i, 0 <= i /\ Z.testbit a i = true /\ Z.testbit b i = true)) /\
  (exists x, u_has_all es a b = Ok x /\ (x = true <-> forall i, 0 <= i -> Z.testbit b i = true -> Z.testbit a i = true)).
Proof.
  intros A B. destruct (bits_closed es a b A B) as (H1 & H2 & H3). unfold u_has_any, u_has_all, u_or, u_and, u_xor.
  rewrite !cast_ok by assumption. cbn [obind]. split; [auto|]. split; [auto|]. split; [auto|].
  split; (eexists; split; [reflexivity|]); [apply meets|apply within].
Qed.

(* ---------- the underlying type ---------- *)

Lemma pow_half n : 1 <= n -> 2 ^ n = 2 * 2 ^ (n - 1).
Proof. intros H. replace n with (Z.succ (n - 1)) at 1 by lia. rewrite Z.pow_succ_r by lia. reflexivity. Qed.

Lemma under_width es t : underlying es t ->
  width es <= (if isigned t then Z.of_nat (ibits t) - 1 else Z.of_nat (ibits t)) /\ (isigned t = false -> ~ signed_ es).
Proof.
  intros [B H]. split.
  - apply width_fewest. split; [destruct (isigned t); lia|]. intros x I. specialize (H x I). unfold ity_min, ity_max in H.
    destruct (isigned t); [lia|]. pose proof (pow_pos (Z.of_nat (ibits t)) ltac:(lia)). lia.
  - intros E (x & I & L). specialize (H x I). unfold ity_min in H. rewrite E in H. lia.
Qed.

Lemma promote_bits t : (1 <= ibits t)%nat -> (1 <= ibits (promote t))%nat.
Proof. unfold promote. destruct (ibits t <? 32)%nat; cbn; lia. Qed.

(** Values are numbers of the promoted type, and below the largest unless they are all its numbers. *)
Lemma value_promoted es t z : underlying es t -> value es z -> ity_min (promote t) <= z <= ity_max (promote t).
Proof.
  intros U V. destruct (under_width es t U) as [W N]. destruct U as [B _]. apply value_iff in V. unfold bmin, bmax in V.
  pose proof (signed_smallest es) as S. pose proof (width_nonneg es) as W0.
  assert (P : 2 ^ width es <= (if isigned t then 2 ^ (Z.of_nat (ibits t) - 1) else 2 ^ Z.of_nat (ibits t))).
  { destruct (isigned t); apply Z.pow_le_mono_r; lia. }
  assert (T : ity_min t <= z <= ity_max t).
  { unfold ity_min, ity_max. destruct (isigned t) eqn:E; destruct (Z.ltb_spec (smallest es) 0); try lia. exfalso. apply N; tauto. }
  unfold promote. destruct (Nat.ltb_spec (ibits t) 32) as [L|L]; [|exact T].
  unfold ity_min, ity_max in *. cbn [isigned ibits]. change (Z.of_nat 32 - 1) with 31.
  destruct (isigned t).
  - assert (2 ^ (Z.of_nat (ibits t) - 1) <= 2 ^ 31) by (apply Z.pow_le_mono_r; lia). lia.
  - assert (2 ^ Z.of_nat (ibits t) <= 2 ^ 31) by (apply Z.pow_le_mono_r; lia). lia.
Qed.

Lemma promote_unsigned t : isigned (promote t) = false <-> isigned t = false /\ (32 <= ibits t)%nat.
Proof.
  unfold promote. destruct (Nat.ltb_spec (ibits t) 32) as [L|L]; cbn; [split; [discriminate|intros [_ ?]; lia]|tauto].
Qed.
Lemma promote_wide t : (32 <= ibits t)%nat -> promote t = t.
Proof. intros H. unfold promote. destruct (Nat.ltb_spec (ibits t) 32); [lia|reflexivity]. Qed.

Lemma full_iff es t : full es t <-> isigned (promote t) = false /\ width es = Z.of_nat (ibits (promote t)).
Proof.
  unfold full. rewrite promote_unsigned. split.
  - intros (A & B & F). rewrite promote_wide by exact B. split; [auto|]. exact (fewest_fun _ _ _ (width_fewest es) F).
  - intros [[A B] E]. rewrite promote_wide in E by exact B. rewrite <- E. auto using width_fewest.
Qed.

Lemma wrap_unsigned t z : isigned t = false -> wrap t z = z mod 2 ^ Z.of_nat (ibits t).
Proof. intros E. unfold wrap, ity_min. rewrite E. now rewrite Z.sub_0_r, Z.add_0_r. Qed.

Lemma complement es t a : underlying es t -> value es a ->
  (exists r, u_not t es a = Ok r) <-> signed_ es \/ full es t.
Proof.
  intros U V. pose proof (value_promoted es t a U V) as R. destruct (under_width es t U) as [W N]. pose proof (proj1 U) as B.
  pose proof (promote_bits t B) as PB. unfold u_not. rewrite full_iff.
  assert (X : (exists r, cast es (wrap (promote t) (Z.lnot a)) = Ok r) <-> value es (wrap (promote t) (Z.lnot a))).
  { split; [intros [r E]; apply cast_iff in E; tauto|intros H; eexists; apply cast_ok; exact H]. }
  rewrite X. clear X. destruct (isigned (promote t)) eqn:S.
  - assert (E : wrap (promote t) (Z.lnot a) = Z.lnot a).
    { apply wrap_id; [exact PB|]. unfold of_type, ity_min, ity_max in *. rewrite S in *. unfold Z.lnot. lia. }
    rewrite E. rewrite value_iff. unfold Z.lnot, bmin, bmax. apply value_iff in V. unfold bmin, bmax in V. rewrite signed_smallest.
    destruct (Z.ltb_spec (smallest es) 0); [split; [now left|lia]|]. split; [lia|intros [?|[? _]]; [lia|discriminate]].
  - pose proof (proj1 (promote_unsigned t) S) as [S' L]. specialize (N S'). rewrite promote_wide in * by exact L. rewrite S' in W.
    pose proof (width_nonneg es) as W0. pose proof (pow_pos _ W0) as P0.
    rewrite wrap_unsigned by exact S'. unfold ity_min, ity_max in R. rewrite S' in R.
    set (w := Z.of_nat (ibits t)) in *.
    assert (E : Z.lnot a mod 2 ^ w = 2 ^ w - 1 - a).
    { unfold Z.lnot. symmetry. apply (Z.mod_unique _ _ (-1)); lia. }
    rewrite E, value_iff. apply value_iff in V. unfold bmin, bmax in *. rewrite signed_smallest in *.
    destruct (Z.ltb_spec (smallest es) 0); [exfalso; lia|]. split.
    + intros H1. right. split; [reflexivity|]. destruct (Z.eq_dec (width es) w) as [Q|Q]; [exact Q|]. exfalso.
      assert (2 ^ width es <= 2 ^ (w - 1)) by (apply Z.pow_le_mono_r; lia).
      pose proof (pow_half w ltac:(lia)). lia.
    + intros [?|[_ Q]]; [lia|]. rewrite Q in *. lia.
Qed.

Lemma increment es t a : underlying es t -> value es a ->
  (value es (a + 1) -> u_inc t es a = Ok (a + 1)) /\
  (~ value es (a + 1) -> (full es t /\ u_inc t es a = Ok 0) \/ (~ full es t /\ u_inc t es a = UB)).
Proof.
  intros U V. pose proof (value_promoted es t a U V) as R. pose proof (promote_bits t (proj1 U)) as PB. unfold u_inc. split.
  - intros V'. pose proof (value_promoted es t _ U V') as R'. unfold arith. destruct (isigned (promote t)) eqn:S.
    + assert (E : (a + 1 <? ity_min (promote t)) || (ity_max (promote t) <? a + 1) = false).
      { apply orb_false_iff. split; apply Z.ltb_ge; lia. }
      rewrite E. cbn. apply cast_ok, V'.
    + rewrite wrap_id; [cbn; apply cast_ok, V'|exact PB|exact R'].
  - intros V'. rewrite full_iff. destruct (under_width es t U) as [W N]. unfold arith. destruct (isigned (promote t)) eqn:S.
    + right. split; [intros [? _]; discriminate|]. destruct (_ || _); [reflexivity|]. cbn. apply cast_ub, V'.
    + pose proof (proj1 (promote_unsigned t) S) as [S' L]. specialize (N S'). rewrite promote_wide in * by exact L. rewrite S' in W.
      rewrite wrap_unsigned by exact S'. cbn [obind]. unfold ity_min, ity_max in R. rewrite S' in R.
      pose proof (width_nonneg es) as W0. pose proof (pow_pos _ W0) as P0. rewrite signed_smallest in N.
      set (w := Z.of_nat (ibits t)) in *. pose proof V as V0. rewrite value_iff in V0, V'. unfold bmin, bmax in V0, V'.
      destruct (Z.ltb_spec (smallest es) 0); [exfalso; lia|]. assert (Ea : a + 1 = 2 ^ width es) by lia.
      destruct (Z.eq_dec (width es) w) as [Q|Q].
      * left. split; [auto|]. rewrite Ea, Q, Z.mod_same by lia. apply cast_ok. apply value_iff. unfold bmin, bmax.
        destruct (Z.ltb_spec (smallest es) 0); lia.
      * right. split; [tauto|]. assert (2 ^ width es <= 2 ^ (w - 1)) by (apply Z.pow_le_mono_r; lia).
        pose proof (pow_half w ltac:(lia)). rewrite Z.mod_small by lia. apply cast_ub. rewrite value_iff. unfold bmin, bmax.
        destruct (Z.ltb_spec (smallest es) 0); lia.
Qed.

(* ---------- shifts ---------- *)

Lemma shift_right es t a n : value es a ->
  (0 <= n < Z.of_nat (ibits (promote t)) -> u_shr t es a n = Ok (Z.shiftr a n) /\ value es (Z.shiftr a n)) /\
  (~ 0 <= n < Z.of_nat (ibits (promote t)) -> u_shr t es a n = UB).
Proof.
  intros V. unfold u_shr, shr. split; intros H.
  - assert (E : (n <? 0) || (Z.of_nat (ibits (promote t)) <=? n) = false).
    { apply orb_false_iff. split; [apply Z.ltb_ge|apply Z.leb_gt]; lia. }
    rewrite E. cbn. assert (V' : value es (Z.shiftr a n)); [|split; [apply cast_ok|]; exact V'].
    rewrite value_bits in *. rewrite Z.shiftr_shiftr by (apply width_nonneg). rewrite Z.add_comm, <- Z.shiftr_shiftr by lia.
    destruct V as [->|[S ->]].
    + left. apply Z.shiftr_0_l.
    + right. split; [exact S|]. change (-1) with (Z.lnot 0). rewrite <- Z.lnot_shiftr by lia. now rewrite Z.shiftr_0_l.
  - destruct (Z.ltb_spec n 0); [reflexivity|]. destruct (Z.leb_spec (Z.of_nat (ibits (promote t))) n); [reflexivity|]. exfalso. lia.
Qed.

Lemma shift_left es t a n : underlying es t -> value es a -> 0 <= a -> 0 <= n < Z.of_nat (ibits (promote t)) ->
  a * 2 ^ n <= ity_max (promote t) ->
  (value es (a * 2 ^ n) -> u_shl t es a n = Ok (a * 2 ^ n)) /\ (~ value es (a * 2 ^ n) -> u_shl t es a n = UB).
Proof.
  intros U V A N M. pose proof (promote_bits t (proj1 U)) as PB. pose proof (pow_pos n ltac:(lia)) as P. unfold u_shl, shl.
  assert (E : (n <? 0) || (Z.of_nat (ibits (promote t)) <=? n) = false).
  { apply orb_false_iff. split; [apply Z.ltb_ge|apply Z.leb_gt]; lia. }
  rewrite E. assert (Q : true && isigned (promote t) && ((a <? 0) || (2 ^ Z.of_nat (ibits (promote t)) <=? a * 2 ^ n)) = false).
  { cbn [andb]. destruct (isigned (promote t)) eqn:S; [|reflexivity]. cbn [andb]. apply orb_false_iff. split; [apply Z.ltb_ge; lia|].
    apply Z.leb_gt. unfold ity_max in M. rewrite S in M.
    pose proof (pow_half (Z.of_nat (ibits (promote t))) ltac:(lia)). pose proof (pow_pos (Z.of_nat (ibits (promote t)) - 1) ltac:(lia)). lia. }
  rewrite Q. rewrite wrap_id; [|exact PB|].
  - cbn. split; [apply cast_ok|apply cast_ub].
  - unfold of_type. split; [|exact M]. unfold ity_min. destruct (isigned (promote t)).
    + pose proof (pow_pos (Z.of_nat (ibits (promote t)) - 1) ltac:(lia)). assert (0 <= a * 2 ^ n) by (apply Z.mul_nonneg_nonneg; lia). lia.
    + apply Z.mul_nonneg_nonneg; lia.
Qed.

(* ---------- numbers from documents ---------- *)

Lemma read_exact es t z :
  (u_read t es z = Ok z <-> ity_min t <= z <= ity_max t /\ value es z) /\
  (u_read t es z = Throws <-> ~ ity_min t <= z <= ity_max t) /\
  (u_read t es z = UB <-> ity_min t <= z <= ity_max t /\ ~ value es z).
Proof.
  unfold u_read. destruct (Z.leb_spec (ity_min t) z), (Z.leb_spec z (ity_max t)); cbn [andb];
    try (repeat split; try discriminate; try reflexivity; lia).
  destruct (value_dec es z) as [V|V]; [rewrite cast_ok by exact V|rewrite cast_ub by exact V];
    repeat split; try discriminate; try reflexivity; try lia; try assumption; intros; exfalso; try tauto; lia.
Qed.

(** An underlying type that is unsigned and not larger than [int] has other numbers unless the enumerators use its highest bit. *)
Lemma read_gap es t : underlying es t -> (forall z, ity_min t <= z <= ity_max t -> value es z) <->
  width es = (if isigned t then Z.of_nat (ibits t) - 1 else Z.of_nat (ibits t)) /\ (isigned t = true -> signed_ es).
Proof.
  intros U. destruct (under_width es t U) as [W N]. pose proof (proj1 U) as B. pose proof (width_nonneg es) as W0.
  pose proof (pow_pos _ W0) as P0. split.
  - intros H. assert (Hx : value es (ity_max t)) by (apply H; split; [|lia]; unfold ity_min, ity_max; destruct (isigned t);
      [pose proof (pow_pos (Z.of_nat (ibits t) - 1) ltac:(lia))|pose proof (pow_pos (Z.of_nat (ibits t)) ltac:(lia))]; lia).
    assert (Hn : value es (ity_min t)) by (apply H; split; [lia|]; unfold ity_min, ity_max; destruct (isigned t);
      [pose proof (pow_pos (Z.of_nat (ibits t) - 1) ltac:(lia))|pose proof (pow_pos (Z.of_nat (ibits t)) ltac:(lia))]; lia).
    rewrite value_iff in Hx, Hn. unfold ity_max, ity_min, bmax, bmin in *. split.
    + destruct (isigned t).
      * destruct (Z.eq_dec (width es) (Z.of_nat (ibits t) - 1)) as [E|E]; [exact E|]. exfalso.
        assert (2 ^ width es < 2 ^ (Z.of_nat (ibits t) - 1)) by (apply Z.pow_lt_mono_r; lia). lia.
      * destruct (Z.eq_dec (width es) (Z.of_nat (ibits t))) as [E|E]; [exact E|]. exfalso.
        assert (2 ^ width es < 2 ^ Z.of_nat (ibits t)) by (apply Z.pow_lt_mono_r; lia). lia.
    + intros E. rewrite E in *. apply signed_smallest. destruct (Z.ltb_spec (smallest es) 0); [assumption|].
      pose proof (pow_pos (Z.of_nat (ibits t) - 1) ltac:(lia)). lia.
  - intros [E S] z. rewrite value_iff. unfold ity_min, ity_max, bmin, bmax. rewrite E. destruct (isigned t).
    + specialize (S eq_refl). apply signed_smallest in S. destruct (Z.ltb_spec (smallest es) 0); lia.
    + rewrite signed_smallest in N. specialize (N eq_refl). destruct (Z.ltb_spec (smallest es) 0); lia.
Qed.

(* ---------- loops ---------- *)

Lemma casts_ok es n : forall i, (forall k, (k < n)%nat -> value es (i + Z.of_nat k)) ->
  casts es i n = Ok (map (fun k => i + Z.of_nat k) (seq 0 n)).
Proof.
  induction n as [|n IH]; intros i H; [reflexivity|]. cbn [casts]. rewrite cast_ok.
  - cbn [obind]. rewrite IH.
    + cbn [obind seq map]. rewrite Z.add_0_r. f_equal. f_equal. rewrite <- seq_shift, map_map. apply map_ext. intros k. lia.
    + intros k Hk. replace (i + 1 + Z.of_nat k) with (i + Z.of_nat (S k)) by lia. apply H. lia.
  - specialize (H 0%nat). rewrite Z.add_0_r in H. apply H. lia.
Qed.

Lemma for_each_ok es first last : value es first -> value es last ->
  u_for_each es first last = Ok (map (fun k => first + Z.of_nat k) (seq 0 (Z.to_nat (last - first)))).
Proof.
  intros A B. apply casts_ok. intros k Hk. rewrite value_iff in *. lia.
Qed.

Lemma promote_max t z : (1 <= ibits t)%nat -> ity_min t <= z <= ity_max t -> ity_min (promote t) <= z <= ity_max (promote t).
Proof.
  intros B T. unfold promote. destruct (Nat.ltb_spec (ibits t) 32) as [L|L]; [|exact T].
  unfold ity_min, ity_max in *. cbn [isigned ibits]. change (Z.of_nat 32 - 1) with 31.
  destruct (isigned t).
  - assert (2 ^ (Z.of_nat (ibits t) - 1) <= 2 ^ 31) by (apply Z.pow_le_mono_r; lia). lia.
  - assert (2 ^ Z.of_nat (ibits t) <= 2 ^ 31) by (apply Z.pow_le_mono_r; lia). lia.
Qed.

Lemma closed_max t lo hi : (1 <= ibits t)%nat -> ity_min t <= hi < ity_max t -> max_value (mkerange t lo hi false) = Some (hi + 1).
Proof.
  intros B H. unfold max_value. cbn [half_open rmax rty].
  rewrite arith_id; [|apply promote_bits; exact B|apply promote_max; [exact B|lia]].
  destruct (Z.ltb_spec hi (hi + 1)); [|lia]. rewrite wrap_id; [reflexivity|exact B|split; lia].
Qed.

Lemma value_under es t z : underlying es t -> value es z -> ity_min t <= z.
Proof.
  intros U V. destruct (under_width es t U) as [W N]. destruct U as [B _]. apply value_iff in V. unfold bmin, bmax in V.
  pose proof (signed_smallest es) as S. pose proof (width_nonneg es) as W0. unfold ity_min. destruct (isigned t) eqn:E.
  - assert (2 ^ width es <= 2 ^ (Z.of_nat (ibits t) - 1)) by (apply Z.pow_le_mono_r; lia). destruct (Z.ltb_spec (smallest es) 0); lia.
  - destruct (Z.ltb_spec (smallest es) 0); [exfalso; apply N; tauto|lia].
Qed.

Lemma range_ok es t lo hi : underlying es t -> value es lo -> value es hi ->
  u_range t es lo hi true = Some (Ok (map (fun k => lo + Z.of_nat k) (seq 0 (Z.to_nat (hi - lo))))) /\
  (hi < ity_max t -> u_range t es lo hi false = Some (Ok (map (fun k => lo + Z.of_nat k) (seq 0 (Z.to_nat (hi + 1 - lo)))))).
Proof.
  intros U A B. unfold u_range. split.
  - cbn. now rewrite for_each_ok.
  - intros L. rewrite closed_max; [|exact (proj1 U)|pose proof (value_under es t hi U B); lia]. cbn [option_map]. f_equal.
    apply casts_ok. intros k Hk. rewrite value_iff in *. lia.
Qed.

Lemma max_exact es t lo hi : underlying es t -> value es hi ->
  u_max t es lo hi true = Some (Ok hi) /\
  (hi < ity_max t -> value es (hi + 1) -> u_max t es lo hi false = Some (Ok (hi + 1))) /\
  (hi < ity_max t -> ~ value es (hi + 1) -> u_max t es lo hi false = Some UB).
Proof.
  intros U B. pose proof (value_under es t hi U B). unfold u_max. split; [cbn; now rewrite cast_ok|].
  split; intros L V; (rewrite closed_max; [|exact (proj1 U)|lia]); cbn [option_map]; f_equal; [now apply cast_ok|now apply cast_ub].
Qed.

(* ---------- reflection ---------- *)

Lemma zero_value es : value es 0.
Proof.
  apply value_iff. pose proof (pow_pos _ (width_nonneg es)). unfold bmin, bmax. destruct (Z.ltb_spec (smallest es) 0); lia.
Qed.

Lemma enumerator_value es x : In x es -> value es x.
Proof.
  intros I. exists (width es). split; [apply width_fewest|]. destruct (width_fewest es) as [[_ H] _]. specialize (H x I).
  split; [lia|]. destruct (Z.ltb_spec x 0); [right|left; lia]. split; [exists x; auto|lia].
Qed.

Lemma ordinary_ub es v vs : u_ordinary es (v :: vs) = UB <-> v = 0 /\ ~ value es (Z.of_nat (length vs)).
Proof.
  unfold u_ordinary. rewrite cast_ok by apply zero_value. cbn [obind]. destruct (Z.eqb_spec v 0) as [->|N]; cbn [negb].
  - replace (Z.of_nat (length (0 :: vs)) - 1) with (Z.of_nat (length vs)) by (cbn [length]; lia).
    destruct (value_dec es (Z.of_nat (length vs))) as [V|V]; [rewrite cast_ok by exact V|rewrite cast_ub by exact V]; cbn [obind].
    + split; [discriminate|tauto].
    + tauto.
  - split; [discriminate|tauto].
Qed.

Lemma rising_last vs : forall x, rising (x :: vs) = true ->
  x + Z.of_nat (length vs) <= last (x :: vs) 0 /\
  (last (x :: vs) 0 = x + Z.of_nat (length vs) -> x :: vs = map (fun k => x + Z.of_nat k) (seq 0 (S (length vs)))).
Proof.
  induction vs as [|y vs IH]; intros x H.
  - cbn. split; [lia|]. intros _. now rewrite Z.add_0_r.
  - cbn [rising] in H. apply andb_true_iff in H. destruct H as [L H]. apply Z.ltb_lt in L. destruct (IH y H) as [A B].
    change (last (x :: y :: vs) 0) with (last (y :: vs) 0). cbn [length]. split; [lia|]. intros E. rewrite B by lia.
    assert (y = x + 1) as -> by lia. cbn [seq map]. f_equal; [lia|]. f_equal; [lia|].
    rewrite <- !seq_shift, !map_map. apply map_ext. intros k. lia.
Qed.

Lemma rising_seq n : forall x s, rising (map (fun k => x + Z.of_nat k) (seq s n)) = true.
Proof.
  induction n as [|n IH]; intros x s; [reflexivity|]. specialize (IH x (S s)). cbn [seq map] in *. destruct n as [|n]; [reflexivity|].
  cbn [seq map] in *. change (rising (?a :: ?b :: ?l)) with ((a <? b) && rising (b :: l)).
  apply andb_true_iff. split; [apply Z.ltb_lt; lia|exact IH].
Qed.

Lemma last_seq n : forall s, last (map Z.of_nat (seq s (S n))) 0 = Z.of_nat (s + n).
Proof.
  induction n as [|n IH]; intros s; [cbn; f_equal; lia|].
  change (last (map Z.of_nat (seq s (S (S n)))) 0) with (last (map Z.of_nat (seq (S s) (S n))) 0). rewrite IH. f_equal. lia.
Qed.

Lemma ordinary_exact es v vs b : u_ordinary es (v :: vs) = Ok b ->
  (b = true <-> v :: vs = map Z.of_nat (seq 0 (S (length vs)))).
Proof.
  unfold u_ordinary. rewrite cast_ok by apply zero_value. cbn [obind]. destruct (Z.eqb_spec v 0) as [->|N]; cbn [negb].
  - replace (Z.of_nat (length (0 :: vs)) - 1) with (Z.of_nat (length vs)) by (cbn [length]; lia).
    destruct (value_dec es (Z.of_nat (length vs))) as [V|V]; [rewrite cast_ok by exact V|rewrite cast_ub by exact V; discriminate].
    cbn [obind]. intros E. injection E as <-. rewrite andb_true_iff, Z.eqb_eq.
    match goal with |- ?a = _ /\ ?b = _ <-> _ => change a with (last (0 :: vs) 0); change b with (rising (0 :: vs)) end. split.
    + intros [L R]. destruct (rising_last vs 0 R) as [_ H]. rewrite H by exact L. apply map_ext. intros k. lia.
    + intros E. split; [rewrite E, last_seq; lia|]. rewrite E. exact (rising_seq (S (length vs)) 0 0).
  - intros E. injection E as <-. split; [discriminate|]. intros E. exfalso. cbn in E. congruence.
Qed.

Lemma fits es v vs : incl (v :: vs) es -> NoDup (v :: vs) -> Forall (fun x => 0 <= x) (v :: vs) -> value es (Z.of_nat (length vs)).
Proof.
  intros I D P. apply value_iff.
  assert (L : (length (v :: vs) <= length (map Z.of_nat (seq 0 (Z.to_nat (bmax es + 1)))))%nat).
  { apply NoDup_incl_length; [exact D|]. intros x Hx. apply in_map_iff. exists (Z.to_nat x).
    rewrite Forall_forall in P. specialize (P x Hx). pose proof (enumerator_value es x (I x Hx)) as V. apply value_iff in V.
    split; [lia|]. apply in_seq. lia. }
  rewrite map_length, seq_length in L. cbn [length] in L. pose proof (proj1 (value_iff es 0) (zero_value es)). lia.
Qed.

Lemma ordinary_defined es v vs : incl (v :: vs) es -> NoDup (v :: vs) -> Forall (fun x => 0 <= x) (v :: vs) ->
  exists b, u_ordinary es (v :: vs) = Ok b /\ (b = true <-> v :: vs = map Z.of_nat (seq 0 (S (length vs)))).
Proof.
  intros I D P. pose proof (fits es v vs I D P) as V.
  assert (X : exists b, u_ordinary es (v :: vs) = Ok b).
  { unfold u_ordinary. rewrite cast_ok by apply zero_value. cbn [obind]. destruct (negb (v =? 0)); [eauto|].
    replace (Z.of_nat (length (v :: vs)) - 1) with (Z.of_nat (length vs)) by (cbn [length]; lia). rewrite cast_ok by exact V. cbn. eauto. }
  destruct X as [b E]. exists b. split; [exact E|]. exact (ordinary_exact es v vs b E).
Qed.
