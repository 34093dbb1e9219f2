(** Proofs about the hash functions. *)
From Coq Require Import List NArith ZArith Arith Bool Lia ZifyBool ZifyNat ZifyN.
From Verif Require Import Base HashModel HashSpec.
Import ListNotations.
Local Open Scope outcome_scope.
Local Open Scope N_scope.

Lemma u32_spec n : u32 n = n mod 2 ^ 32.
Proof. reflexivity. Qed.

Lemma fnv1a_ascii s : ascii s -> fnv1a s = fnv 2166136261 s.
Proof.
  unfold fnv1a. generalize 2166136261. induction s as [|b s IH]; intros h Ha; [reflexivity|].
  inversion Ha as [|? ? Hb Hs]; subst. cbn [fold_left fnv]. rewrite (IH _ Hs). f_equal.
  unfold char_u32. destruct (N.ltb_spec b 128); [|lia]. reflexivity.
Qed.

(** Multiplying by the prime loses nothing. *)
Lemma prime_cancel x y : x < 2 ^ 32 -> y < 2 ^ 32 -> (x * 16777619) mod 2 ^ 32 = (y * 16777619) mod 2 ^ 32 -> x = y.
Proof.
  intros Hx Hy H.
  assert (K : forall z, z < 2 ^ 32 -> ((z * 16777619) mod 2 ^ 32 * 899433627) mod 2 ^ 32 = z).
  { intros z Hz. rewrite N.mul_mod_idemp_l by discriminate.
    replace (z * 16777619 * 899433627) with (z + (z * 3513497) * 2 ^ 32) by lia.
    rewrite N.mod_add by discriminate. now apply N.mod_small. }
  rewrite <- (K x Hx), <- (K y Hy), H. reflexivity.
Qed.

Lemma lxor_small a b : a < 2 ^ 32 -> b < 2 ^ 32 -> N.lxor a b < 2 ^ 32.
Proof.
  intros Ha Hb. destruct (N.eq_dec (N.lxor a b) 0) as [-> |Hne]; [reflexivity|].
  apply N.log2_lt_pow2; [lia|]. eapply N.le_lt_trans; [apply N.log2_lxor|].
  assert (L : forall z, z < 2 ^ 32 -> N.log2 z < 32).
  { intros z Hz. destruct (N.eq_dec z 0) as [-> |Hz0]; [reflexivity|]. apply N.log2_lt_pow2; lia. }
  apply N.max_lub_lt; auto.
Qed.

Lemma lxor_cancel a b c : N.lxor a c = N.lxor b c -> a = b.
Proof.
  intros H. assert (N.lxor (N.lxor a c) c = N.lxor (N.lxor b c) c) as E by now rewrite H.
  now rewrite !N.lxor_assoc, N.lxor_nilpotent, !N.lxor_0_r in E.
Qed.

Lemma fnv_inj s : ascii s -> forall h h', h < 2 ^ 32 -> h' < 2 ^ 32 -> fnv h s = fnv h' s -> h = h'.
Proof.
  induction s as [|b s IH]; intros Ha h h' Hh Hh' H; [exact H|]. inversion Ha as [|? ? Hb Hs]; subst. cbn [fnv] in H.
  apply IH in H; [|exact Hs|now apply N.mod_lt|now apply N.mod_lt].
  assert (b < 2 ^ 32) by (change (2 ^ 32) with 4294967296; lia).
  apply prime_cancel in H; [|now apply lxor_small|now apply lxor_small]. exact (lxor_cancel _ _ _ H).
Qed.

Lemma fnv1a_from s : ascii s -> forall h,
  fold_left (fun hash c => u32 (N.lxor hash (char_u32 c) * 16777619)) s h = fnv h s.
Proof.
  intros Ha. induction Ha as [|b s Hb Hs IH]; intros h; [reflexivity|]. cbn [fold_left fnv]. rewrite IH. f_equal.
  unfold char_u32. destruct (N.ltb_spec b 128); [|lia]. reflexivity.
Qed.

Lemma fnv_app s s' : forall h, fnv h (s ++ s') = fnv (fnv h s) s'.
Proof. induction s as [|b s IH]; intros h; [reflexivity|]. cbn [app fnv]. apply IH. Qed.

Lemma fnv_small s : forall h, h < 2 ^ 32 -> fnv h s < 2 ^ 32.
Proof. induction s as [|b s IH]; intros h Hh; [exact Hh|]. cbn [fnv]. apply IH. now apply N.mod_lt. Qed.

Lemma fnv1a_one_differs s b s' : ascii s -> 128 <= b < 256 -> ascii s' ->
  fnv1a (s ++ b :: s') <> fnv 2166136261 (s ++ b :: s').
Proof.
  intros Ha Hb Ha' H. unfold fnv1a in H. rewrite fold_left_app in H. cbn [fold_left] in H.
  rewrite (fnv1a_from s Ha), (fnv1a_from s' Ha'), fnv_app in H. cbn [fnv] in H.
  assert (Hh : fnv 2166136261 s < 2 ^ 32) by (apply fnv_small; reflexivity). set (h := fnv 2166136261 s) in *.
  apply fnv_inj in H; [|exact Ha'|now apply N.mod_lt|now apply N.mod_lt]. rewrite u32_spec in H.
  assert (Hc : char_u32 b < 2 ^ 32) by (unfold char_u32; change (2 ^ 32) with 4294967296; destruct (N.ltb_spec b 128); lia).
  assert (Hb' : b < 2 ^ 32) by (change (2 ^ 32) with 4294967296; lia).
  apply prime_cancel in H; [|now apply lxor_small|now apply lxor_small].
  rewrite (N.lxor_comm h), (N.lxor_comm h) in H. apply lxor_cancel in H. unfold char_u32 in H.
  destruct (N.ltb_spec b 128); lia.
Qed.

Lemma fnv1a_array_literal s : fnv1a_array (s ++ [0]) = Ok (fnv1a_string s).
Proof.
  unfold fnv1a_array. rewrite rev_app_distr. cbn [rev app].
  rewrite app_length. cbn [length]. replace (length s + 1 - 1)%nat with (length s + 0)%nat by lia.
  rewrite firstn_app_2. cbn [firstn]. rewrite app_nil_r. reflexivity.
Qed.

Lemma fnv1a_array_unterminated s c : c <> 0 -> fnv1a_array (s ++ [c]) = Throws.
Proof.
  intros H. unfold fnv1a_array. rewrite rev_app_distr. cbn [rev app]. destruct (N.eqb_spec c 0); [contradiction|reflexivity].
Qed.

Lemma rd_some {A} (s : list A) i : (i < length s)%nat -> exists b, rd s i = Ok b /\ nth_error s i = Some b.
Proof.
  intros H. unfold rd. destruct (nth_error s i) eqn:E; [eauto|]. apply nth_error_None in E. lia.
Qed.

Lemma get16_safe data i : (i + 1 < length data)%nat -> exists a, get16bits false data i = Ok a.
Proof.
  intros H. unfold get16bits. destruct (rd_some data i) as (d0 & -> & _); [lia|].
  destruct (rd_some data (i + 1)) as (d1 & -> & _); [lia|]. cbn [obind]. unfold shl_char.
  destruct (d1 <? 128); cbn [obind]; eauto.
Qed.

Lemma loop_safe data : forall n i h, (i + 4 * n <= length data)%nat -> exists h', hsieh_loop false data n i h = Ok h'.
Proof.
  induction n as [|n IH]; intros i h H; cbn [hsieh_loop]; [eauto|]. unfold hsieh_round.
  destruct (get16_safe data i) as [a ->]; [lia|]. cbn [obind].
  destruct (get16_safe data (i + 2)) as [b ->]; [lia|]. cbn [obind]. apply IH. lia.
Qed.

Lemma hsieh_memory_safe data : exists h, hsieh false data = Ok h.
Proof.
  unfold hsieh. destruct (length data) as [|m] eqn:E; [eauto|]. rewrite <- E. clear m E.
  pose proof (Nat.div_mod (length data) 4 ltac:(lia)) as HD.
  pose proof (Nat.mod_upper_bound (length data) 4 ltac:(lia)) as HM.
  set (q := (length data / 4)%nat) in *. set (r := (length data mod 4)%nat) in *.
  destruct (loop_safe data q 0 (u32 (N.of_nat (length data)))) as [h ->]; [lia|]. cbn [obind].
  assert (exists h', hsieh_tail false data (4 * q) r h = Ok h') as [h' ->]; [|cbn [obind]; eauto].
  unfold hsieh_tail. destruct r as [|[|[|[|r]]]].
  - eauto.
  - destruct (rd_some data (4 * q)) as (c & -> & _); [lia|]. cbn [obind]. eauto.
  - destruct (get16_safe data (4 * q)) as [a ->]; [lia|]. cbn [obind]. eauto.
  - destruct (get16_safe data (4 * q)) as [a ->]; [lia|]. cbn [obind].
    destruct (rd_some data (4 * q + 2)) as (c & -> & _); [lia|]. cbn [obind]. unfold shl_char.
    destruct (c <? 128); cbn [obind]; eauto.
  - lia.
Qed.

(* ---------- agreement on ASCII ---------- *)

Lemma shr_div h n : N.shiftr h n = h / 2 ^ n.
Proof. apply N.shiftr_div_pow2. Qed.

Lemma shl_mul h n : u32 (N.shiftl h n) = shl32 h n.
Proof. unfold shl32. rewrite N.shiftl_mul_pow2. reflexivity. Qed.

Lemma lor_word (a b : N) : a < 256 -> Z.lor (Z.of_N a) (Z.of_N (N.shiftl b 8)) = Z.of_N (word16 a b).
Proof.
  intros Ha. replace (Z.lor (Z.of_N a) (Z.of_N (N.shiftl b 8))) with (Z.of_N (N.lor a (N.shiftl b 8))) by (destruct a, (N.shiftl b 8); reflexivity). f_equal. unfold word16.
  rewrite N.shiftl_mul_pow2. change (2 ^ 8) with 256.
  assert (N.land a (b * 256) = 0).
  { apply N.bits_inj. intros n. rewrite N.land_spec, N.bits_0. change 256 with (2 ^ 8).
    destruct (N.lt_ge_cases n 8) as [Hn|Hn].
    - rewrite N.mul_pow2_bits_low by assumption. apply andb_false_r.
    - destruct (N.eq_dec a 0) as [-> |Hz]; [now rewrite N.bits_0|].
      rewrite N.bits_above_log2; [reflexivity|]. apply N.log2_lt_pow2; [lia|].
      apply N.lt_le_trans with (2 ^ 8); [exact Ha|]. apply N.pow_le_mono_r; lia. }
  rewrite <- N.lxor_lor by assumption. rewrite <- N.add_nocarry_lxor by assumption. lia.
Qed.

Lemma get16_ascii strict data i a b : nth_error data i = Some a -> nth_error data (i + 1) = Some b ->
  a < 128 -> b < 128 -> get16bits strict data i = Ok (word16 a b).
Proof.
  intros Ha Hb La Lb. unfold get16bits, rd. rewrite Ha, Hb. cbn [obind]. unfold shl_char, char_z.
  destruct (N.ltb_spec a 128); [|lia]. destruct (N.ltb_spec b 128); [|lia]. cbn [obind].
  rewrite lor_word by lia. f_equal. unfold word16. rewrite Z.mod_small by lia. apply N2Z.id.
Qed.

Lemma ascii_nth data i a : ascii data -> nth_error data i = Some a -> a < 128.
Proof. intros H E. unfold ascii in H. rewrite Forall_forall in H. apply H. eapply nth_error_In; eauto. Qed.

Lemma skipn_four {A} (l : list A) i : (i + 4 <= length l)%nat ->
  exists a b c d, skipn i l = a :: b :: c :: d :: skipn (i + 4) l /\
    nth_error l i = Some a /\ nth_error l (i + 1) = Some b /\
    nth_error l (i + 2) = Some c /\ nth_error l (i + 2 + 1) = Some d.
Proof.
  revert l; induction i as [|i IH]; intros l H.
  - destruct l as [|a [|b [|c [|d l]]]]; cbn in H; try lia. cbn. exists a, b, c, d. auto.
  - destruct l as [|x l]; cbn in H; [lia|]. destruct (IH l) as (a & b & c & d & E & R); [lia|].
    exists a, b, c, d. split; [exact E|exact R].
Qed.

Lemma round_spec strict data i h a b c d : ascii data ->
  nth_error data i = Some a -> nth_error data (i + 1) = Some b ->
  nth_error data (i + 2) = Some c -> nth_error data (i + 2 + 1) = Some d ->
  hsieh_round strict data i h =
    Ok (let h := add32 h (word16 a b) in
        let tmp := N.lxor (shl32 (word16 c d) 11) h in
        let h := N.lxor (shl32 h 16) tmp in add32 h (h / 2 ^ 11)).
Proof.
  intros Ha E1 E2 E3 E4. unfold hsieh_round.
  pose proof (ascii_nth _ _ _ Ha E1). pose proof (ascii_nth _ _ _ Ha E2).
  pose proof (ascii_nth _ _ _ Ha E3). pose proof (ascii_nth _ _ _ Ha E4).
  rewrite (get16_ascii strict data i a b) by assumption. cbn [obind].
  rewrite (get16_ascii strict data (i + 2) c d) by assumption. cbn [obind]. cbv zeta.
  rewrite shr_div, shl_mul. fold (add32 h (word16 a b)).
  assert (Hs : N.shiftl (word16 c d) 11 = shl32 (word16 c d) 11).
  { rewrite <- shl_mul. unfold u32. rewrite N.mod_small; [reflexivity|]. rewrite N.shiftl_mul_pow2. unfold word16.
    change (2 ^ 11) with 2048. lia. }
  rewrite Hs. reflexivity.
Qed.

Lemma loop_spec strict data : ascii data -> forall n i h, (i + 4 * n <= length data)%nat ->
  exists h', hsieh_loop strict data n i h = Ok h' /\ sfh h (skipn i data) = sfh h' (skipn (i + 4 * n) data).
Proof.
  intros Ha. induction n as [|n IH]; intros i h Hl; cbn [hsieh_loop].
  - exists h. rewrite Nat.mul_0_r, Nat.add_0_r. auto.
  - destruct (skipn_four data i) as (a & b & c & d & Es & E1 & E2 & E3 & E4); [lia|].
    rewrite (round_spec strict data i h a b c d) by assumption. cbn [obind].
    match goal with |- context [hsieh_loop _ _ _ _ ?x] => destruct (IH (i + 4)%nat x) as (h' & E & R); [lia|] end.
    exists h'. split; [exact E|]. rewrite Es. replace (i + 4 * S n)%nat with (i + 4 + 4 * n)%nat by lia. rewrite <- R. reflexivity.
Qed.

Lemma skipn_tail {A} (l : list A) i r : (i + r = length l)%nat -> length (skipn i l) = r.
Proof. intros H. rewrite skipn_length. lia. Qed.

Lemma nth_skipn {A} (l : list A) i j : nth_error (skipn i l) j = nth_error l (i + j).
Proof. revert l; induction i as [|i IH]; intros [|x l]; cbn; auto. now destruct j. Qed.

Lemma tail_spec strict data i r h : ascii data -> (i + r = length data)%nat -> (r < 4)%nat ->
  hsieh_tail strict data i r h = Ok (sfh h (skipn i data)).
Proof.
  intros Ha Hl Hr. pose proof (skipn_tail data i r Hl) as HL.
  assert (HN : forall j, nth_error data (i + j) = nth_error (skipn i data) j) by (intros; now rewrite nth_skipn).
  destruct (skipn i data) as [|a [|b [|c [|d l]]]] eqn:Es; cbn [length] in HL; subst r; try lia; cbn [hsieh_tail sfh].
  - reflexivity.
  - pose proof (HN 0%nat) as H0. rewrite Nat.add_0_r in H0. cbn in H0. unfold rd. rewrite H0. cbn [obind].
    pose proof (ascii_nth _ _ _ Ha H0) as La. unfold char_u32. destruct (N.ltb_spec a 128); [|lia].
    cbv zeta. rewrite shr_div, shl_mul. reflexivity.
  - pose proof (HN 0%nat) as H0. rewrite Nat.add_0_r in H0. cbn in H0. pose proof (HN 1%nat) as H1. cbn in H1.
    rewrite (get16_ascii strict data i a b) by eauto using ascii_nth. cbn [obind]. cbv zeta.
    rewrite shr_div, shl_mul. reflexivity.
  - pose proof (HN 0%nat) as H0. rewrite Nat.add_0_r in H0. cbn in H0. pose proof (HN 1%nat) as H1. cbn in H1.
    pose proof (HN 2%nat) as H2. cbn in H2.
    rewrite (get16_ascii strict data i a b) by eauto using ascii_nth. cbn [obind]. unfold rd. rewrite H2. cbn [obind].
    pose proof (ascii_nth _ _ _ Ha H2) as Lc. unfold shl_char. destruct (N.ltb_spec c 128); [|lia]. cbn [obind]. cbv zeta.
    rewrite shr_div, shl_mul.
    assert (Hs : Z.to_N (Z.of_N (N.shiftl c 18) mod 4294967296) = shl32 c 18).
    { rewrite <- shl_mul. unfold u32. change 4294967296%Z with (Z.of_N 4294967296). rewrite <- N2Z.inj_mod by lia. apply N2Z.id. }
    rewrite Hs. reflexivity.
Qed.

Lemma final_spec h : hsieh_final h = avalanche h.
Proof. unfold hsieh_final, avalanche. cbv zeta. rewrite !shl_mul, !shr_div. reflexivity. Qed.

Lemma hsieh_ascii strict data : ascii data -> hsieh strict data = Ok (super_fast_hash data).
Proof.
  intros Ha. unfold hsieh, super_fast_hash. destruct data as [|x data0] eqn:E; [reflexivity|].
  change (match length (x :: data0) with O => Ok 0 | S _ => ?k end) with k.
  rewrite <- E in *. clear E x data0.
  pose proof (Nat.div_mod (length data) 4 ltac:(lia)) as HD.
  pose proof (Nat.mod_upper_bound (length data) 4 ltac:(lia)) as HM.
  set (q := (length data / 4)%nat) in *. set (r := (length data mod 4)%nat) in *.
  destruct (loop_spec strict data Ha q 0 (u32 (N.of_nat (length data)))) as (h & E1 & E2); [lia|].
  rewrite E1. cbn [obind]. rewrite (tail_spec strict data (4 * q) r h) by (auto; lia). cbn [obind].
  rewrite final_spec. cbn [skipn plus] in E2. rewrite <- E2. reflexivity.
Qed.
