(** Iterator movement, membership of integers and the operators of enums. *)
From Coq Require Import List ZArith Arith Bool Lia.
From Verif Require Import Base EnumModel EnumSpec EnumProofs EnumOpsModel.
Import ListNotations.

Lemma good_bounds r z : good_range r -> (rmin r <= z <= past r)%Z -> of_type (rty r) z.
Proof. intros (Ht & [H1 H2] & _ & [H3 H4] & _) H. unfold of_type in *. lia. Qed.

Lemma elements_nth r k e : nth_error (elements r) k = Some e -> e = (rmin r + Z.of_nat k)%Z /\ (e < past r)%Z.
Proof.
  unfold elements. intros H. pose proof (nth_error_In _ _ H) as Hin. apply in_elements in Hin.
  rewrite nth_error_map in H. destruct (nth_error (seq 0 _) k) as [x|] eqn:E; [|discriminate].
  injection H as <-. split; [|apply Hin]. pose proof (nth_error_nth _ _ 0 E) as Hx.
  assert (k < Z.to_nat (past r - rmin r)) by (rewrite <- (seq_length (Z.to_nat (past r - rmin r)) 0); apply nth_error_Some; congruence).
  rewrite seq_nth in Hx by assumption. lia.
Qed.

Lemma good_int r : good_range r -> int_type (rty r). Proof. intros H. apply H. Qed.

Lemma incr_ok t i : int_type t -> of_type t i -> of_type t (i + 1) -> it_increment t i = Ok (i + 1)%Z.
Proof.
  intros Ht Hi Hd. unfold it_increment. rewrite arith_id by (eauto using promote_bits, promote_of_type). cbn [obind].
  now rewrite wrap_id by eauto using bits_pos.
Qed.

Lemma incr_times t n : int_type t -> forall i, of_type t i -> of_type t (i + Z.of_nat n) ->
  times n (it_increment t) i = Ok (i + Z.of_nat n)%Z.
Proof.
  intros Ht. induction n as [|n IH]; intros i Hi Hn; cbn [times]; [f_equal; lia|].
  unfold of_type in *. rewrite incr_ok; unfold of_type; auto; [|lia]. cbn [obind].
  rewrite IH; [f_equal; lia| |]; unfold of_type; lia.
Qed.

Lemma decrement_ok t i : int_type t -> of_type t i -> of_type t (i - 1) -> it_decrement t i = Ok (i - 1)%Z.
Proof.
  intros Ht Hi Hd. unfold it_decrement. rewrite arith_id by (eauto using promote_bits, promote_of_type). cbn [obind].
  now rewrite wrap_id by eauto using bits_pos.
Qed.

Lemma decr_times t n : int_type t -> forall i, of_type t i -> of_type t (i - Z.of_nat n) ->
  times n (it_decrement t) i = Ok (i - Z.of_nat n)%Z.
Proof.
  intros Ht. induction n as [|n IH]; intros i Hi Hn; cbn [times]; [f_equal; lia|].
  unfold of_type in *. rewrite decrement_ok; unfold of_type; auto; [|lia]. cbn [obind].
  rewrite IH; [f_equal; lia| |]; unfold of_type; lia.
Qed.

Lemma moves_lemma r last : good_range r -> range_end r = Some last ->
  (forall k e, nth_error (elements r ++ [last]) k = Some e ->
     times k (it_increment (rty r)) (range_begin r) = Ok e /\ it_plus (rty r) (range_begin r) (Z.of_nat k) = e /\
     times k (it_decrement (rty r)) e = Ok (range_begin r) /\ it_minus (rty r) e (Z.of_nat k) = range_begin r) /\
  (forall j k e e', nth_error (elements r ++ [last]) j = Some e -> nth_error (elements r ++ [last]) k = Some e' ->
     it_plus (rty r) e (Z.of_nat k - Z.of_nat j) = e' /\ (it_equal_to e e' = true <-> j = k)).
Proof.
  intros Hg He. pose proof (good_int r Hg) as Ht. unfold range_end in He. rewrite max_value_good in He by exact Hg. injection He as <-.
  assert (Len : Z.of_nat (length (elements r)) = (past r - rmin r)%Z).
  { unfold elements. rewrite map_length, seq_length. destruct Hg as (_ & _ & _ & _ & H). lia. }
  assert (At : forall k e, nth_error (elements r ++ [past r]) k = Some e -> e = (rmin r + Z.of_nat k)%Z /\ of_type (rty r) e).
  { intros k e H. assert (Hk : e = (rmin r + Z.of_nat k)%Z /\ (e <= past r)%Z).
    { destruct (Nat.lt_ge_cases k (length (elements r))) as [Hl|Hl].
      - rewrite nth_error_app1 in H by exact Hl. apply elements_nth in H. lia.
      - rewrite nth_error_app2 in H by exact Hl. destruct (k - length (elements r)) as [|m] eqn:Em.
        + injection H as <-. lia.
        + destruct m; discriminate. }
    split; [apply Hk|]. apply good_bounds; [exact Hg|]. lia. }
  assert (Hmin : of_type (rty r) (rmin r)) by apply Hg. unfold range_begin, min_value, it_plus, it_minus, it_advance, it_equal_to. split.
  - intros k e H. destruct (At k e H) as [-> Hof]. repeat split.
    + now apply incr_times.
    + now rewrite wrap_id by eauto using bits_pos.
    + rewrite decr_times; [f_equal; lia|exact Ht|exact Hof|now replace (rmin r + Z.of_nat k - Z.of_nat k)%Z with (rmin r) by lia].
    + replace (rmin r + Z.of_nat k + - Z.of_nat k)%Z with (rmin r) by lia. now rewrite wrap_id by eauto using bits_pos.
  - intros j k e e' H1 H2. destruct (At j e H1) as [-> O1], (At k e' H2) as [-> O2].
    replace (rmin r + Z.of_nat j + (Z.of_nat k - Z.of_nat j))%Z with (rmin r + Z.of_nat k)%Z by lia.
    rewrite wrap_id by eauto using bits_pos. rewrite Z.eqb_eq. split; [reflexivity|lia].
Qed.

(* ------------------------------------------------------------------ *)

Lemma ity_min_signed t : isigned t = true -> ity_min t = (- 2 ^ (Z.of_nat (ibits t) - 1))%Z.
Proof. unfold ity_min. now intros ->. Qed.

(** The common type of C++ integer types. *)
Lemma common_fits a b z : int_type a -> int_type b -> of_type a z -> isigned (common a b) = true \/ (0 <= z)%Z -> of_type (common a b) z.
Proof.
  assert (H : forall a b, int_type a -> int_type b -> int_type (common a b) /\
    (ity_max a <= ity_max (common a b))%Z /\ (isigned (common a b) = true -> (ity_min (common a b) <= ity_min a)%Z) /\
    (isigned (common a b) = false -> ity_min (common a b) = 0%Z)).
  { clear. intros a b Ha Hb. revert a Ha. refine (int_type_cases _ _ _ _ _ _ _ _ _);
      (revert b Hb; refine (int_type_cases _ _ _ _ _ _ _ _ _)); vm_compute; intuition discriminate. }
  intros Ha Hb [L U] Hs. destruct (H a b Ha Hb) as (_ & Hmax & Hmin & Hz). unfold of_type.
  destruct (isigned (common a b)); [specialize (Hmin eq_refl); lia|]. specialize (Hz eq_refl). destruct Hs as [Hs|Hs]; [discriminate|lia].
Qed.

Lemma in_range_i_lemma r tv v : good_range r -> int_type tv -> of_type tv v ->
  isigned (common tv (rty r)) = true \/ (0 <= rmin r /\ 0 <= v)%Z ->
  (in_range_i r tv v = true <-> In v (elements r)).
Proof.
  intros Hg Htv Hv Hs. rewrite in_elements. unfold in_range_i. rewrite max_value_good by exact Hg. unfold min_value.
  pose proof (good_int r Hg) as Ht. pose proof Hg as (_ & Hmin & _ & Hpast & Hlt).
  assert (Sym : common tv (rty r) = common (rty r) tv).
  { clear -Htv Ht. revert Htv. revert tv. refine (int_type_cases _ _ _ _ _ _ _ _ _); revert Ht; generalize (rty r);
      refine (int_type_cases _ _ _ _ _ _ _ _ _); reflexivity. }
  assert (Hb : 1 <= ibits (common tv (rty r))).
  { clear -Htv Ht. revert Htv. revert tv. refine (int_type_cases _ _ _ _ _ _ _ _ _); revert Ht; generalize (rty r);
      refine (int_type_cases _ _ _ _ _ _ _ _ _); vm_compute; lia. }
  rewrite !wrap_id; [|exact Hb| |exact Hb| |exact Hb|].
  - rewrite andb_true_iff, Z.leb_le, Z.ltb_lt. tauto.
  - rewrite Sym in *. apply common_fits; auto. destruct Hs; [now left|right; lia].
  - apply common_fits; auto. destruct Hs; [now left|right; lia].
  - rewrite Sym in *. apply common_fits; auto. destruct Hs; [now left|right; lia].
Qed.

(* ------------------------------------------------------------------ *)

(** Bits beyond the width repeat the sign. *)
Lemma high_bits t a i : int_type t -> of_type t a -> ibits t <= i ->
  Z.testbit a (Z.of_nat i) = (a <? 0)%Z /\ (isigned t = false -> Z.testbit a (Z.of_nat i) = false) /\
  (isigned t = true -> Z.testbit a (Z.of_nat (ibits t - 1)) = (a <? 0)%Z).
Proof.
  intros Ht [L U] Hi. pose proof (bits_pos t Ht) as Hb.
  assert (P : forall m, (- 2 ^ Z.of_nat m <= a < 2 ^ Z.of_nat m)%Z -> Z.testbit a (Z.of_nat m) = (a <? 0)%Z).
  { intros m Hm. rewrite Z.testbit_odd, Z.shiftr_div_pow2 by lia. destruct (Z.ltb_spec a 0).
    - replace (a / 2 ^ Z.of_nat m)%Z with (-1)%Z; [reflexivity|]. apply (Z.div_unique _ _ _ (a + 2 ^ Z.of_nat m)%Z); lia.
    - rewrite Z.div_small by lia. reflexivity. }
  assert (Pow : forall m n, m <= n -> (2 ^ Z.of_nat m <= 2 ^ Z.of_nat n)%Z) by (intros m n Hmn; apply Z.pow_le_mono_r; lia).
  unfold ity_min, ity_max in *.
  replace (Z.of_nat (ibits t) - 1)%Z with (Z.of_nat (ibits t - 1)) in * by lia. destruct (isigned t) eqn:Es.
  - split; [apply P; pose proof (Pow (ibits t - 1) i); lia|]. split; [discriminate|]. intros _. apply P. lia.
  - assert (Z.testbit a (Z.of_nat i) = (a <? 0)%Z) as E by (apply P; pose proof (Pow (ibits t) i Hi); lia).
    split; [exact E|]. split; [intros _; rewrite E; apply Z.ltb_ge; lia|discriminate].
Qed.

Lemma mask_lemma t a b : int_type t -> of_type t a -> of_type t b ->
  (check_mask a b = true <-> exists i, i < ibits t /\ flag a i /\ flag b i).
Proof.
  intros Ht Ha Hb. unfold check_mask, flag. rewrite negb_true_iff, Z.eqb_neq. pose proof (bits_pos t Ht) as Hp. split.
  - intros Hne. destruct (bits_dec (ibits t) (fun i => Z.testbit a (Z.of_nat i) && Z.testbit b (Z.of_nat i))) as [(i & Hi & H)|H].
    + apply andb_true_iff in H. eauto.
    + exfalso. apply Hne. apply Z.bits_inj'. intros n Hn. rewrite Z.land_spec, Z.bits_0.
      destruct (Z.lt_ge_cases n (Z.of_nat (ibits t))) as [Hl|Hl].
      { specialize (H (Z.to_nat n) ltac:(lia)). cbv beta in H. now rewrite Z2Nat.id in H by exact Hn. }
      destruct (high_bits t a (Z.to_nat n) Ht Ha ltac:(lia)) as (A1 & A2 & A3), (high_bits t b (Z.to_nat n) Ht Hb ltac:(lia)) as (B1 & B2 & B3).
      rewrite Z2Nat.id in * by exact Hn. destruct (isigned t) eqn:Es.
      * specialize (H (ibits t - 1) ltac:(lia)). cbv beta in H. rewrite A3, B3 in H by reflexivity. now rewrite A1, B1.
      * now rewrite A2.
  - intros (i & _ & H1 & H2) E. assert (Z.testbit (Z.land a b) (Z.of_nat i) = true) by (rewrite Z.land_spec, H1, H2; reflexivity).
    rewrite E, Z.bits_0 in H. discriminate.
Qed.

Lemma bit_operators_lemma t a b : int_type t -> of_type t a -> of_type t b ->
  (of_type t (op_and t a b) /\ of_type t (op_or t a b) /\ of_type t (op_xor t a b) /\ of_type t (op_not t a)) /\
  (forall i, i < ibits t ->
     (flag (op_and t a b) i <-> flag a i /\ flag b i) /\ (flag (op_or t a b) i <-> flag a i \/ flag b i) /\
     (flag (op_xor t a b) i <-> (flag a i <-> ~ flag b i)) /\ (flag (op_not t a) i <-> ~ flag a i)) /\
  (check_mask a b = true <-> exists i, i < ibits t /\ flag a i /\ flag b i).
Proof.
  intros Ht Ha Hb. destruct (enum_set_lemma t a b Ht Ha Hb) as (H1 & H2 & _). split; [exact H1|]. split.
  - intros i Hi. destruct (H2 i Hi) as (A & B & C & D & _). auto.
  - now apply mask_lemma.
Qed.

Lemma shift_right_lemma t a n : int_type t -> of_type t a -> (0 <= n < Z.of_nat (ibits t))%Z ->
  exists x, op_shr t a n = Ok x /\ of_type t x /\ forall i, flag x i <-> flag a (i + Z.to_nat n).
Proof.
  intros Ht Ha Hn. pose proof (bits_pos t Ht) as Hb.
  assert (Hp : ibits t <= ibits (promote t)) by (revert t Ht Ha Hn Hb; refine (int_type_cases _ _ _ _ _ _ _ _ _); cbn; lia).
  unfold op_shr, shr. destruct (Z.ltb_spec n 0); [lia|]. destruct (Z.leb_spec (Z.of_nat (ibits (promote t))) n); [lia|]. cbn [orb obind].
  assert (Ho : of_type t (Z.shiftr a n)).
  { rewrite Z.shiftr_div_pow2 by lia. assert (1 <= 2 ^ n)%Z by (apply (Z.pow_le_mono_r 2 0 n); lia).
    destruct Ha as [L U]. assert (Lm : (ity_min t <= 0 <= ity_max t)%Z) by exact (zero_of_type t Hb). split.
    - apply Z.div_le_lower_bound; [lia|]. nia.
    - apply Z.div_le_upper_bound; [lia|]. nia. }
  exists (Z.shiftr a n). rewrite wrap_id by auto. split; [reflexivity|]. split; [exact Ho|].
  intros i. unfold flag. rewrite Z.shiftr_spec by lia. now replace (Z.of_nat (i + Z.to_nat n)) with (Z.of_nat i + n)%Z by lia.
Qed.

Lemma shift_left_lemma strict t a n : int_type t -> of_type t a -> (0 <= n < Z.of_nat (ibits t))%Z ->
  (strict = true -> isigned (promote t) = true -> (0 <= a /\ a * 2 ^ n < 2 ^ Z.of_nat (ibits (promote t)))%Z) ->
  exists x, op_shl strict t a n = Ok x /\ of_type t x /\
    forall i, i < ibits t -> (flag x i <-> Z.to_nat n <= i /\ flag a (i - Z.to_nat n)).
Proof.
  intros Ht Ha Hn Hs. pose proof (bits_pos t Ht) as Hb.
  assert (Hp : ibits t <= ibits (promote t)) by (revert t Ht Ha Hn Hs Hb; refine (int_type_cases _ _ _ _ _ _ _ _ _); cbn; lia).
  unfold op_shl, shl. destruct (Z.ltb_spec n 0); [lia|]. destruct (Z.leb_spec (Z.of_nat (ibits (promote t))) n); [lia|]. cbn [orb obind].
  assert (E : strict && isigned (promote t) && ((a <? 0) || (2 ^ Z.of_nat (ibits (promote t)) <=? a * 2 ^ n))%Z%bool = false).
  { destruct strict, (isigned (promote t)); try reflexivity. specialize (Hs eq_refl eq_refl).
    destruct (Z.ltb_spec a 0); [lia|]. destruct (Z.leb_spec (2 ^ Z.of_nat (ibits (promote t))) (a * 2 ^ n)); [lia|reflexivity]. }
  rewrite E. cbn [obind]. eexists. split; [reflexivity|]. split; [now apply wrap_range|].
  intros i Hi. unfold flag. rewrite wrap_testbit by exact Hi. rewrite wrap_testbit by lia.
  rewrite <- Z.shiftl_mul_pow2 by lia. destruct (Nat.le_gt_cases (Z.to_nat n) i) as [Hle|Hgt].
  - rewrite Z.shiftl_spec by lia. replace (Z.of_nat i - n)%Z with (Z.of_nat (i - Z.to_nat n)) by lia. tauto.
  - rewrite Z.shiftl_spec_low by lia. split; [discriminate|lia].
Qed.

Lemma next_lemma t a : int_type t -> of_type t a -> of_type t (a + 1) ->
  op_inc t a = Ok (a + 1)%Z /\ op_post_inc t a = Ok (a, (a + 1)%Z).
Proof.
  intros Ht Ha Hn. unfold op_inc, op_post_inc. rewrite arith_id by eauto using promote_bits, promote_of_type. cbn [obind].
  now rewrite wrap_id by eauto using bits_pos.
Qed.
