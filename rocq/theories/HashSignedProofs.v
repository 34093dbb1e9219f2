(** Proofs about the hash functions on bytes that are not ASCII. *)
From Coq Require Import List NArith ZArith Arith Bool Lia ZifyBool ZifyNat ZifyN.
From Verif Require Import Base HashModel HashSpec HashProofs.
Import ListNotations.
Local Open Scope outcome_scope.
Local Open Scope N_scope.

(** * FNV-1a *)

Lemma lxor_mod_z a b n : (0 <= n)%Z -> (Z.lxor a b mod 2 ^ n = Z.lxor (a mod 2 ^ n) (b mod 2 ^ n))%Z.
Proof.
  intros Hn. apply Z.bits_inj'. intros i Hi. rewrite Z.lxor_spec. destruct (Z.lt_ge_cases i n) as [L|L].
  - now rewrite !Z.mod_pow2_bits_low, Z.lxor_spec by lia.
  - now rewrite !Z.mod_pow2_bits_high by lia.
Qed.
Lemma lxor_of_n a b : Z.of_N (N.lxor a b) = Z.lxor (Z.of_N a) (Z.of_N b).
Proof. destruct a, b; try reflexivity. Qed.
Lemma signed_char b : b < 256 -> (signed b mod 2 ^ 32 = Z.of_N (char_u32 b))%Z.
Proof.
  intros H. unfold signed, char_u32. change (2 ^ 32)%Z with 4294967296%Z. destruct (N.ltb_spec b 128).
  - apply Z.mod_small. lia.
  - symmetry. apply Z.mod_unique with (-1)%Z; lia.
Qed.
Lemma fnv1a_from_signed s : octets s -> forall h, h < 2 ^ 32 ->
  Z.of_N (fold_left (fun hash c => u32 (N.lxor hash (char_u32 c) * 16777619)) s h) = fnv_signed (Z.of_N h) s.
Proof.
  induction 1 as [|b s Hb Hs IH]; intros h Hh; [reflexivity|]. cbn [fold_left fnv_signed].
  rewrite IH by (rewrite u32_spec; now apply N.mod_lt). f_equal. rewrite u32_spec, N2Z.inj_mod, N2Z.inj_mul, lxor_of_n by discriminate.
  change (Z.of_N (2 ^ 32)) with (2 ^ 32)%Z. change (Z.of_N 16777619) with 16777619%Z.
  rewrite <- (signed_char b Hb). rewrite <- (Z.mod_small (Z.of_N h) (2 ^ 32)) at 1 by (change (2 ^ 32)%Z with 4294967296%Z; change (2 ^ 32) with 4294967296 in Hh; lia).
  rewrite <- lxor_mod_z by discriminate. now rewrite Z.mul_mod_idemp_l by discriminate.
Qed.
Theorem fnv1a_signed s : octets s -> Z.of_N (fnv1a s) = fnv_signed 2166136261 s.
Proof. intros H. exact (fnv1a_from_signed s H 2166136261 eq_refl). Qed.

Lemma lxor_mod a b n : N.lxor a b mod 2 ^ n = N.lxor (a mod 2 ^ n) (b mod 2 ^ n).
Proof.
  apply N.bits_inj. intros i. rewrite N.lxor_spec. destruct (N.lt_ge_cases i n) as [L|L].
  - now rewrite !N.mod_pow2_bits_low, N.lxor_spec by assumption.
  - now rewrite !N.mod_pow2_bits_high by assumption.
Qed.
Lemma mod_32_8 n : (n mod 2 ^ 32) mod 2 ^ 8 = n mod 2 ^ 8.
Proof.
  change (2 ^ 32) with (2 ^ 8 * 2 ^ 24). rewrite N.mod_mul_r by discriminate.
  rewrite (N.mul_comm (2 ^ 8)), N.mod_add by discriminate. now rewrite N.mod_mod by discriminate.
Qed.
Lemma low_step h h' c b : h mod 2 ^ 8 = h' mod 2 ^ 8 -> c mod 2 ^ 8 = b mod 2 ^ 8 ->
  (N.lxor h c * 16777619 mod 2 ^ 32) mod 2 ^ 8 = (N.lxor h' b * 16777619 mod 2 ^ 32) mod 2 ^ 8.
Proof.
  intros H C. rewrite !mod_32_8. rewrite <- (N.mul_mod_idemp_l (N.lxor h c)), <- (N.mul_mod_idemp_l (N.lxor h' b)) by discriminate.
  now rewrite !lxor_mod, H, C.
Qed.
Lemma fnv1a_low_from s : octets s -> forall h h', h mod 2 ^ 8 = h' mod 2 ^ 8 ->
  fold_left (fun hash c => u32 (N.lxor hash (char_u32 c) * 16777619)) s h mod 2 ^ 8 = fnv h' s mod 2 ^ 8.
Proof.
  induction 1 as [|b s Hb Hs IH]; intros h h' E; [exact E|]. cbn [fold_left fnv]. apply IH. rewrite u32_spec. apply low_step; [exact E|].
  unfold char_u32. destruct (N.ltb_spec b 128); [reflexivity|]. change 4294967040 with (16777215 * 2 ^ 8). now rewrite N.mod_add by discriminate.
Qed.
Theorem fnv1a_low s : octets s -> fnv1a s mod 256 = fnv 2166136261 s mod 256.
Proof. intros H. exact (fnv1a_low_from s H 2166136261 2166136261 eq_refl). Qed.

(** * hsieh *)

Definition bytes : list N := map N.of_nat (seq 0 256).
Lemma in_bytes b : b < 256 -> In b bytes.
Proof. intros H. apply in_map_iff. exists (N.to_nat b). split; [apply N2Nat.id|]. apply in_seq. lia. Qed.
Lemma pair_value a b : a < 256 -> b < 256 ->
  obind (shl_char false b 8) (fun hi => Ok (Z.to_N (Z.lor (char_z a) hi mod 65536))) = Ok (word16 a (if a <? 128 then b else 255)).
Proof.
  intros Ha Hb.
  assert (X : forallb (fun a => forallb (fun b =>
     match shl_char false b 8 with Ok hi => Z.to_N (Z.lor (char_z a) hi mod 65536) =? word16 a (if a <? 128 then b else 255) | _ => false end) bytes) bytes = true)
    by (vm_compute; reflexivity).
  rewrite forallb_forall in X. specialize (X a (in_bytes a Ha)). cbv beta in X. rewrite forallb_forall in X. specialize (X b (in_bytes b Hb)).
  cbv beta in X. destruct (shl_char false b 8); try discriminate. cbn [obind]. f_equal. now apply N.eqb_eq.
Qed.
Lemma third_value c : c < 256 -> obind (shl_char false c 18) (fun s => Ok (Z.to_N (s mod 4294967296))) = Ok (shl32 (sext c) 18).
Proof.
  intros Hc.
  assert (X : forallb (fun c => match shl_char false c 18 with Ok s => Z.to_N (s mod 4294967296) =? shl32 (sext c) 18 | _ => false end) bytes = true)
    by (vm_compute; reflexivity).
  rewrite forallb_forall in X. specialize (X c (in_bytes c Hc)). cbv beta in X. destruct (shl_char false c 18); try discriminate. cbn [obind]. f_equal. now apply N.eqb_eq.
Qed.
Lemma char_sext b : char_u32 b = sext b \/ 256 <= b.
Proof. unfold char_u32, sext. change (2 ^ 32) with 4294967296. destruct (N.ltb_spec b 128); [now left|]. destruct (N.lt_ge_cases b 256); [left; lia | now right]. Qed.
(** Shifts of negative bytes. *)
Definition high (b : N) : bool := 128 <=? b.
Lemma shl_strict b n : shl_char true b n = if high b then UB else shl_char false b n.
Proof. unfold shl_char, high. destruct (N.ltb_spec b 128), (N.leb_spec 128 b); try lia; reflexivity. Qed.

Definition weak (strict : bool) (b : bool) {A} (x : outcome A) : outcome A := if strict && b then UB else x.

Lemma get16_any strict data i a b : nth_error data i = Some a -> nth_error data (i + 1) = Some b -> a < 256 -> b < 256 ->
  get16bits strict data i = weak strict (high b) (Ok (word16 a (if a <? 128 then b else 255))).
Proof.
  intros Ea Eb Ha Hb. unfold get16bits, rd. rewrite Ea, Eb. cbn [obind]. rewrite <- (pair_value a b Ha Hb). destruct strict; [|reflexivity].
  rewrite shl_strict. unfold weak. cbn [andb]. now destruct (high b).
Qed.
Lemma word_small a b : a < 256 -> b < 256 -> word16 a b < 65536.
Proof. unfold word16. lia. Qed.
Lemma round_any strict data i h a b c d : a < 256 -> b < 256 -> c < 256 -> d < 256 ->
  nth_error data i = Some a -> nth_error data (i + 1) = Some b -> nth_error data (i + 2) = Some c -> nth_error data (i + 2 + 1) = Some d ->
  hsieh_round strict data i h = weak strict (high b || high d)
    (Ok (let h := add32 h (word16 a (if a <? 128 then b else 255)) in
        let tmp := N.lxor (shl32 (word16 c (if c <? 128 then d else 255)) 11) h in
        let h := N.lxor (shl32 h 16) tmp in add32 h (h / 2 ^ 11))).
Proof.
  intros La Lb Lc Ld E1 E2 E3 E4. unfold hsieh_round.
  rewrite (get16_any strict data i a b) by assumption. unfold weak. destruct (strict && high b) eqn:B1.
  { destruct strict; [|discriminate]. cbn [andb] in B1. rewrite B1. reflexivity. }
  cbn [obind]. rewrite (get16_any strict data (i + 2) c d) by assumption. unfold weak. destruct (strict && high d) eqn:B2.
  { destruct strict; [|discriminate]. cbn [andb] in B2. rewrite B2, orb_true_r. reflexivity. }
  replace (strict && (high b || high d)) with false by (destruct strict; [cbn [andb] in *; now rewrite B1, B2 | reflexivity]).
  cbn [obind]. cbv zeta. rewrite shr_div, shl_mul. set (u := if a <? 128 then b else 255). set (v := if c <? 128 then d else 255). fold (add32 h (word16 a u)).
  assert (Hs : N.shiftl (word16 c v) 11 = shl32 (word16 c v) 11).
  { rewrite <- shl_mul. unfold u32. rewrite N.mod_small; [reflexivity|]. rewrite N.shiftl_mul_pow2.
    assert (word16 c v < 65536) by (apply word_small; [exact Lc|]; unfold v; destruct (c <? 128); [exact Ld | reflexivity]).
    change (2 ^ 11) with 2048. lia. }
  now rewrite Hs.
Qed.

Fixpoint bad (s : list N) : bool :=
  match s with
  | a :: b :: c :: d :: s' => high b || high d || bad s'
  | [a; b; c] => high b || high c
  | [a; b] => high b
  | _ => false
  end.
Lemma octets_nth s i b : octets s -> nth_error s i = Some b -> b < 256.
Proof. intros H E. unfold octets in H. rewrite Forall_forall in H. apply H. eapply nth_error_In; eauto. Qed.

(** The blocks, then what is left. *)
Lemma rest_spec strict data r q : octets data -> (r < 4)%nat -> forall i h, (i + 4 * q + r = length data)%nat ->
  obind (hsieh_loop strict data q i h) (hsieh_tail strict data (i + 4 * q) r) =
  weak strict (bad (skipn i data)) (Ok (sfh_signed h (smeared (skipn i data)))).
Proof.
  intros O Hr. induction q as [|q IH]; intros i h Hl.
  - cbn [hsieh_loop obind]. rewrite Nat.mul_0_r, Nat.add_0_r in *. pose proof (skipn_tail data i r Hl) as HL.
    assert (HN : forall j, nth_error data (i + j) = nth_error (skipn i data) j) by (intros; now rewrite nth_skipn).
    destruct (skipn i data) as [|a [|b [|c [|d l]]]] eqn:Es; cbn [length] in HL; subst r; try lia; cbn [hsieh_tail smeared sfh_signed sfh bad].
    + unfold weak. now destruct strict.
    + pose proof (HN 0%nat) as H0. rewrite Nat.add_0_r in H0. cbn in H0. unfold rd. rewrite H0. cbn [obind].
      destruct (char_sext a) as [-> |G]; [|apply (octets_nth data i a O) in H0; lia]. cbv zeta. rewrite shr_div, shl_mul. unfold weak. rewrite andb_false_r. reflexivity.
    + pose proof (HN 0%nat) as H0. rewrite Nat.add_0_r in H0. cbn in H0. pose proof (HN 1%nat) as H1. cbn in H1.
      rewrite (get16_any strict data i a b) by eauto using octets_nth. unfold weak. destruct (strict && high b); [reflexivity|]. cbn [obind]. cbv zeta.
      rewrite shr_div, shl_mul. reflexivity.
    + pose proof (HN 0%nat) as H0. rewrite Nat.add_0_r in H0. cbn in H0. pose proof (HN 1%nat) as H1. cbn in H1. pose proof (HN 2%nat) as H2. cbn in H2.
      rewrite (get16_any strict data i a b) by eauto using octets_nth. unfold weak. destruct strict; cbn [andb].
      * destruct (high b); [reflexivity|]. cbn [obind orb]. unfold rd. rewrite H2. cbn [obind]. rewrite shl_strict. destruct (high c); [reflexivity|].
        pose proof (third_value c (octets_nth _ _ _ O H2)) as T. destruct (shl_char false c 18) as [s| |]; try discriminate. cbn [obind] in *. injection T as T.
        cbv zeta. rewrite T, shr_div, shl_mul. reflexivity.
      * cbn [obind]. unfold rd. rewrite H2. cbn [obind].
        pose proof (third_value c (octets_nth _ _ _ O H2)) as T. destruct (shl_char false c 18) as [s| |]; try discriminate. cbn [obind] in *. injection T as T.
        cbv zeta. rewrite T, shr_div, shl_mul. reflexivity.
  - cbn [hsieh_loop]. destruct (skipn_four data i) as (a & b & c & d & Es & E1 & E2 & E3 & E4); [lia|].
    rewrite (round_any strict data i h a b c d) by eauto using octets_nth. rewrite Es. cbn [bad smeared sfh_signed]. unfold weak at 1.
    destruct (strict && (high b || high d)) eqn:B.
    + cbn [obind]. unfold weak. destruct strict; [|discriminate]. cbn [andb] in *. now rewrite B.
    + cbn [obind]. replace (i + 4 * S q)%nat with ((i + 4) + 4 * q)%nat by lia. rewrite IH by lia. unfold weak.
      replace (strict && (high b || high d || bad (skipn (i + 4) data))) with (strict && bad (skipn (i + 4) data)); [reflexivity|].
      destruct strict; [|reflexivity]. cbn [andb] in *. now rewrite B.
Qed.
Lemma smeared_length s : length (smeared s) = length s.
Proof.
  assert (X : length (smeared s) = length s /\ forall a, length (smeared (a :: s)) = S (length s)); [|apply X].
  induction s as [|b s [IH1 IH2]]; [now split|]. split; [apply IH2|]. intros a. cbn [smeared length]. now rewrite IH1.
Qed.
Lemma hsieh_any strict data : octets data -> hsieh strict data = weak strict (bad data) (Ok (published_hash (smeared data))).
Proof.
  intros O. unfold hsieh, published_hash. destruct data as [|x data0] eqn:E; [unfold weak; cbn [bad]; now rewrite andb_false_r|].
  change (match length (x :: data0) with O => Ok 0 | S _ => ?k end) with k. rewrite <- E in *.
  pose proof (Nat.div_mod (length data) 4 ltac:(lia)) as HD. pose proof (Nat.mod_upper_bound (length data) 4 ltac:(lia)) as HM.
  set (q := (length data / 4)%nat) in *. set (r := (length data mod 4)%nat) in *.
  pose proof (rest_spec strict data r q O HM 0 (u32 (N.of_nat (length data))) ltac:(lia)) as R. cbn [Nat.add skipn] in R.
  rewrite smeared_length. assert (Q : exists y l, smeared data = y :: l).
  { destruct (smeared data) as [|y l] eqn:Es; [|now exists y, l]. pose proof (smeared_length data) as L. rewrite Es, E in L. discriminate. }
  destruct Q as (y & l & Es). rewrite Es. rewrite Es in R. unfold weak in *.
  destruct (hsieh_loop strict data q 0 _) as [h| |]; cbn [obind] in *; [|destruct (strict && bad data); (reflexivity || discriminate R)..].
  - rewrite R. destruct (strict && bad data); [reflexivity|]. cbn [obind]. now rewrite final_spec.
Qed.

Lemma four_ind (P : list N -> Prop) : P [] -> (forall a, P [a]) -> (forall a b, P [a; b]) -> (forall a b c, P [a; b; c]) ->
  (forall a b c d s, P s -> P (a :: b :: c :: d :: s)) -> forall s, P s.
Proof.
  intros H0 H1 H2 H3 H4. assert (X : forall n s, (length s <= n)%nat -> P s); [|intros s; exact (X (length s) s (le_n _))].
  induction n as [|n IH]; intros s L; [destruct s; [exact H0 | cbn in L; lia]|].
  destruct s as [|a [|b [|c [|d s]]]]; auto. apply H4, IH. cbn in L. lia.
Qed.
Lemma high_le b : high b = true <-> 128 <= b.
Proof. apply N.leb_le. Qed.
Lemma bad_shifted s : bad s = true <-> shifted s.
Proof.
  unfold shifted. induction s as [|a|a b|a b c|a b c d s IH] using four_ind; cbn [bad].
  - split; [discriminate|]. intros ([|i] & x & E & _); discriminate.
  - split; [discriminate|]. intros ([|[|i]] & x & E & H & [O|[L M]]); try discriminate.
  - rewrite high_le. split; [intros H; exists 1%nat, b; auto|].
    intros ([|[|[|i]]] & x & E & H & [O|[L M]]); try discriminate; injection E as <-; exact H.
  - rewrite orb_true_iff, !high_le. split.
    + intros [H|H]; [exists 1%nat, b; auto | exists 2%nat, c; auto].
    + intros ([|[|[|[|i]]]] & x & E & H & [O|[L M]]); try discriminate; injection E as <-; auto.
  - rewrite !orb_true_iff, !high_le, IH. split.
    + intros [[H|H]|(i & x & E & H & C)]; [exists 1%nat, b; auto | exists 3%nat, d; auto|]. exists (4 + i)%nat, x. split; [exact E|]. split; [exact H|].
      destruct C as [O|[L M]]; [left; exact O | right]. cbn [length]. split; [lia|].
      replace (S (S (S (S (length s))))) with (length s + 1 * 4)%nat by lia. now rewrite Nat.mod_add.
    + intros ([|[|[|[|i]]]] & x & E & H & C).
      * exfalso. destruct C as [O|[L M]]; [discriminate | cbn in L; lia].
      * injection E as <-. auto.
      * exfalso. destruct C as [O|[L M]]; [discriminate | cbn in L, M; destruct s; cbn in *; discriminate || lia].
      * injection E as <-. auto.
      * right. exists i, x. split; [exact E|]. split; [exact H|]. destruct C as [O|[L M]]; [left; exact O | right]. cbn [length] in L, M. split; [lia|].
        replace (S (S (S (S (length s))))) with (length s + 1 * 4)%nat in M by lia. now rewrite Nat.mod_add in M.
Qed.

Theorem hsieh_value data : octets data -> hsieh false data = Ok (published_hash (smeared data)).
Proof. intros O. now rewrite (hsieh_any false data O). Qed.
Theorem hsieh_cpp17 data : octets data -> (shifted data -> hsieh true data = UB) /\ (~ shifted data -> hsieh true data = Ok (published_hash (smeared data))).
Proof.
  intros O. rewrite (hsieh_any true data O). rewrite <- (bad_shifted data). unfold weak. cbn [andb]. destruct (bad data); split; intros H; try reflexivity; [now destruct H | discriminate].
Qed.
Lemma smeared_app s t : (Nat.even (length s) = true) -> smeared (s ++ t) = smeared s ++ smeared t.
Proof.
  assert (X : forall n s, (length s <= n)%nat -> Nat.even (length s) = true -> smeared (s ++ t) = smeared s ++ smeared t); [|intros E; exact (X _ s (le_n _) E)].
  clear s. induction n as [|n IH]; intros s L E; [destruct s; [reflexivity | cbn in L; lia]|].
  destruct s as [|a [|b s]]; [reflexivity | discriminate|]. cbn [app smeared]. rewrite IH; [reflexivity | cbn in L; lia | exact E].
Qed.
Theorem hsieh_loses s a b b' t : octets (s ++ a :: b :: t) -> b' < 256 -> Nat.even (length s) = true -> 128 <= a ->
  hsieh false (s ++ a :: b' :: t) = hsieh false (s ++ a :: b :: t).
Proof.
  intros O Hb E Ha. assert (O' : octets (s ++ a :: b' :: t)).
  { unfold octets in *. apply Forall_app in O as [O1 O2]. apply Forall_app. split; [exact O1|]. inversion O2 as [|? ? X1 X2]; subst. inversion X2; subst. repeat constructor; assumption. }
  rewrite !hsieh_value by assumption. do 2 f_equal. rewrite !smeared_app by assumption. cbn [smeared]. destruct (N.ltb_spec a 128); [lia | reflexivity].
Qed.
Theorem hsieh_same data : octets data -> smeared data = data -> hsieh false data = Ok (published_hash data).
Proof. intros O E. rewrite hsieh_value by exact O. now rewrite E. Qed.
