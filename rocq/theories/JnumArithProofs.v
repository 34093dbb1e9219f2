(** The arithmetic of reading numbers: no NaN, no sign, and the nearest result. *)
From Coq Require Import List ZArith NArith Bool SpecFloat Lia Zbool.
From Verif Require Import Base FloatModel FloatSpec FloatProofs FloatRoundProofs FloatMainProofs JtextModel JnumModel JnumSpec JnumRoundProofs.
Import ListNotations.
Local Open Scope Z_scope.

(** A double that is zero or above, perhaps an infinity. *)
Definition unsigned_dbl (g : spec_float) : Prop := canon binary64 g /\ negative g = false /\ g <> S754_nan.
(** One that is finite and not zero. *)
Definition positive_dbl (g : spec_float) : Prop := canon binary64 g /\ exists m e, g = S754_finite false m e.

Lemma fits64 : fits binary64.
Proof. exact (ieee_fits _ f64). Qed.
Lemma good64 : good binary64.
Proof. exact (ieee_good _ f64). Qed.

Lemma near_unsigned A B g : near_ratio binary64 A B g -> unsigned_dbl g.
Proof. intros (C & N & H). split; [exact C|]. split; [exact N|]. intros ->. exact H. Qed.

Lemma mul_near F mx ex my ey A B : fits F -> canon F (S754_finite false mx ex) -> canon F (S754_finite false my ey) -> 0 < B ->
  A * 2 ^ 1074 = Zpos mx * 2 ^ (ex + 1074) * (Zpos my * 2 ^ (ey + 1074)) * B ->
  near_ratio F A B (SFmul (f_prec F) (f_emax F) (S754_finite false mx ex) (S754_finite false my ey)).
Proof.
  intros Hf Cx Cy HB HA. pose proof Hf as [G K]. pose proof G as (Hm & Hw & Hx). cbn [SFmul xorb].
  destruct Cx as (Rx & Ux & Nx), Cy as (Ry & Uy & Ny).
  apply (aux_near F (Zpos (mx * my)) (ex + ey) loc_Exact (Zpos (mx * my)) 1 A B 1074); auto; try lia.
  - cbn [Zdigits2]. set (e0 := emin (f_prec F) (f_emax F)) in *. assert (e0 < 0) by (unfold e0, emin, f_prec in *; lia).
    unfold fexp. fold e0.
    assert (Key : forall a b, 2 ^ f_mw F <= Zpos a -> f_prec F <= Zpos (digits2_pos (a * b))).
    { intros a b La. assert (f_mw F < Zpos (digits2_pos (a * b))); [|unfold f_prec; lia]. apply digits_lower; [lia|].
      apply (Z.le_trans _ (Zpos a)); [exact La|]. rewrite Pos2Z.inj_mul. pose proof (Z.mul_le_mono_nonneg_l 1 (Zpos b) (Zpos a)). lia. }
    destruct Nx as [-> | Nx]; [destruct Ny as [-> | Ny]; [lia|]|].
    + specialize (Key my mx Ny). rewrite Pos.mul_comm in Key. lia.
    + specialize (Key mx my Nx). lia.
  - cbn. lia.
  - rewrite Z.mul_1_r, HA. replace (ex + ey + 1074 + 1074) with ((ex + 1074) + (ey + 1074)) by lia.
    rewrite (Z.pow_add_r 2 (ex + 1074) (ey + 1074)) by lia. rewrite Pos2Z.inj_mul. ring.
Qed.

Lemma location_located a b q r : 0 < b -> a = q * b + r -> 0 <= r < b -> located a b q (new_location b r).
Proof.
  intros Hb Ha Hr. pose proof (Zeq_is_eq_bool r 0) as Z0. unfold new_location. destruct (Z.even b) eqn:Ev.
  - unfold new_location_even. destruct (Zeq_bool r 0); [assert (r = 0) by (apply Z0; reflexivity); cbn [located]; lia|].
    assert (r <> 0) by (intros E; apply Z0 in E; discriminate). destruct (Z.compare_spec (2 * r) b); cbn [located]; lia.
  - unfold new_location_odd. destruct (Zeq_bool r 0); [assert (r = 0) by (apply Z0; reflexivity); cbn [located]; lia|].
    assert (r <> 0) by (intros E; apply Z0 in E; discriminate).
    assert (2 * r <> b) by (intros E1; rewrite <- E1, Z.even_mul in Ev; discriminate Ev).
    destruct (Z.compare_spec (2 * r + 1) b); cbn [located]; lia.
Qed.

Lemma div_near F mx ex my ey A B : fits F -> canon F (S754_finite false mx ex) -> canon F (S754_finite false my ey) -> 0 < B ->
  A * (Zpos my * 2 ^ (ey + 1074)) = Zpos mx * 2 ^ (ex + 1074) * 2 ^ 1074 * B ->
  near_ratio F A B (SFdiv (f_prec F) (f_emax F) (S754_finite false mx ex) (S754_finite false my ey)).
Proof.
  intros Hf Cx Cy HB HA. pose proof Hf as [G K]. pose proof G as (Hm & Hw & Hx). cbn [SFdiv xorb].
  destruct Cx as (Rx & Ux & Nx), Cy as (Ry & Uy & Ny).
  unfold SFdiv_core_binary. cbn [Zdigits2]. set (D := Zpos (digits2_pos mx) + ex - (Zpos (digits2_pos my) + ey)).
  set (e := Z.min (fexp (f_prec F) (f_emax F) D) (ex - ey)). set (s := ex - ey - e).
  assert (Hs : 0 <= s) by (unfold s, e; lia).
  replace (match s with Z0 => Zpos mx | Zpos _ => Z.shiftl (Zpos mx) s | Zneg _ => 0 end) with (Zpos mx * 2 ^ s).
  2: { destruct s eqn:Es; [change (2 ^ 0) with 1; lia | rewrite Z.shiftl_mul_pow2 by lia; reflexivity | lia]. }
  pose proof (pow_pos2 s Hs) as Ps.
  pose proof (Z_div_mod (Zpos mx * 2 ^ s) (Zpos my) ltac:(lia)) as Hd. destruct (Z.div_eucl (Zpos mx * 2 ^ s) (Zpos my)) as [q r]. destruct Hd as [Eq Hr].
  assert (Hq : 0 <= q). { destruct (Z.neg_nonneg_cases q) as [L|L]; [|exact L]. exfalso. assert (Zpos my * q <= Zpos my * -1) by (apply Z.mul_le_mono_nonneg_l; lia). assert (0 < Zpos mx * 2 ^ s) by (apply Z.mul_pos_pos; lia). lia. }
  set (j := 2048 + 2 * f_emax F + 2 * f_prec F).
  assert (He : 0 <= e + 1074 + j) by (unfold e, fexp, emin, j, f_prec in *; lia).
  apply (aux_near F q e (new_location (Zpos my) r) (Zpos mx * 2 ^ s) (Zpos my) A B j); auto; try lia.
  - (* digits enough *)
    assert (Dq : Zpos (digits2_pos mx) + s - Zpos (digits2_pos my) <= Zdigits2 q).
    { destruct (Z.le_gt_cases (Zpos (digits2_pos mx) + s - Zpos (digits2_pos my)) 0) as [L|L]; [destruct q; cbn [Zdigits2]; lia|].
      set (k := Zpos (digits2_pos mx) + s - Zpos (digits2_pos my)) in *.
      assert (Lq : 2 ^ (k - 1) <= q).
      { assert (L1 : 2 ^ (Zpos (digits2_pos mx) - 1) <= Zpos mx) by (apply digits_lower; lia).
        assert (L2 : Zpos my < 2 ^ Zpos (digits2_pos my)) by (apply digits_bounds; lia).
        assert (L3 : 2 ^ (k - 1) * Zpos my < (q + 1) * Zpos my); [|apply Z.mul_lt_mono_pos_r in L3; lia].
        apply (Z.lt_le_trans _ (2 ^ (k - 1) * 2 ^ Zpos (digits2_pos my))).
        - apply Z.mul_lt_mono_pos_l; [apply pow_pos2; lia | exact L2].
        - rewrite <- Z.pow_add_r by lia. replace (k - 1 + Zpos (digits2_pos my)) with (Zpos (digits2_pos mx) - 1 + s) by (unfold k; lia).
          rewrite Z.pow_add_r by lia. assert (2 ^ (Zpos (digits2_pos mx) - 1) * 2 ^ s <= Zpos mx * 2 ^ s) by (apply Z.mul_le_mono_nonneg_r; lia). lia. }
      destruct q as [|q|q]; [pose proof (pow_pos2 (k - 1) ltac:(lia)); lia| |lia]. cbn [Zdigits2]. apply digits_lower in Lq; lia. }
    assert (Dle : D <= Zdigits2 q + e) by (unfold D, s in *; lia).
    assert (e <= fexp (f_prec F) (f_emax F) D) by (unfold e; lia). unfold fexp in *. lia.
  - apply location_located; lia.
  - unfold j, f_prec in *. lia.
  - (* scale *)
    assert (Py : 0 < 2 ^ (ey + 1074)) by (apply pow_pos2; lia).
    apply (Z.mul_reg_r _ _ (2 ^ (ey + 1074))); [lia|].
    replace (A * Zpos my * 2 ^ j * 2 ^ (ey + 1074)) with (A * (Zpos my * 2 ^ (ey + 1074)) * 2 ^ j) by ring. rewrite HA.
    replace (Zpos mx * 2 ^ s * B * 2 ^ (e + 1074 + j) * 2 ^ (ey + 1074)) with (Zpos mx * B * (2 ^ s * 2 ^ (e + 1074 + j) * 2 ^ (ey + 1074))) by ring.
    replace (Zpos mx * 2 ^ (ex + 1074) * 2 ^ 1074 * B * 2 ^ j) with (Zpos mx * B * (2 ^ (ex + 1074) * 2 ^ 1074 * 2 ^ j)) by ring.
    assert (Hj : 0 <= j) by (unfold j, f_prec in *; lia).
    f_equal. rewrite <- !Z.pow_add_r by lia. f_equal. unfold s. lia.
Qed.

(* ------------------------------------------------------------------ signs and NaN *)

Lemma finite_exp (g : spec_float) m e : canon binary64 g -> g = S754_finite false m e -> -1074 <= e /\ e <= 971.
Proof. intros C ->. destruct C as (R & _). unfold emin, f_prec, f_emax in R. cbn in R. lia. Qed.

Lemma dmul_unsigned d c : unsigned_dbl d -> positive_dbl c -> unsigned_dbl (dmul d c).
Proof.
  intros (Cd & Nd & Xd) (Cc & m & e & ->). destruct d as [[]|[]| |[] mx ex]; try discriminate; try contradiction.
  - split; [exact I|]. split; [reflexivity|discriminate].
  - split; [exact I|]. split; [reflexivity|discriminate].
  - pose proof (finite_exp _ _ _ Cd eq_refl). pose proof (finite_exp _ _ _ Cc eq_refl). unfold dmul.
    apply (near_unsigned (Zpos mx * 2 ^ (ex + 1074) * (Zpos m * 2 ^ (e + 1074))) (2 ^ 1074)).
    apply mul_near; [apply fits64|exact Cd|exact Cc|apply pow_pos2; lia|ring].
Qed.

Lemma ddiv_unsigned d c : unsigned_dbl d -> positive_dbl c -> unsigned_dbl (ddiv d c).
Proof.
  intros (Cd & Nd & Xd) (Cc & m & e & ->). destruct d as [[]|[]| |[] mx ex]; try discriminate; try contradiction.
  - split; [exact I|]. split; [reflexivity|discriminate].
  - split; [exact I|]. split; [reflexivity|discriminate].
  - pose proof (finite_exp _ _ _ Cd eq_refl). pose proof (finite_exp _ _ _ Cc eq_refl). unfold ddiv.
    pose proof (pow_pos2 (e + 1074) ltac:(lia)).
    apply (near_unsigned (Zpos mx * 2 ^ (ex + 1074) * 2 ^ 1074) (Zpos m * 2 ^ (e + 1074))).
    apply div_near; [apply fits64|exact Cd|exact Cc|lia|ring].
Qed.

Lemma round_unsigned m e : -1074 <= e -> unsigned_dbl (binary_round (f_prec binary64) (f_emax binary64) false m e).
Proof. intros H. destruct (round_nearest binary64 false m e fits64 H) as (_ & C & N & S). split; [exact C|]. split; [exact S|exact N]. Qed.

Lemma dadd_unsigned x y : unsigned_dbl x -> unsigned_dbl y -> unsigned_dbl (dadd x y).
Proof.
  intros (Cx & Nx & Xx) (Cy & Ny & Xy).
  destruct x as [[]|[]| |[] mx ex]; try discriminate; try contradiction;
  destruct y as [[]|[]| |[] my ey]; try discriminate; try contradiction;
    try (split; [exact I|split; [reflexivity|discriminate]]); try (split; [assumption|split; [reflexivity|discriminate]]).
  pose proof (finite_exp _ _ _ Cx eq_refl). pose proof (finite_exp _ _ _ Cy eq_refl). unfold dadd. cbn [SFadd cond_Zopp].
  destruct (fst (shl_align mx ex (Z.min ex ey))) as [p|p|] eqn:E1; destruct (fst (shl_align my ey (Z.min ex ey))) as [q|q|] eqn:E2;
    cbn [Z.add]; unfold binary_normalize; apply round_unsigned; lia.
Qed.

Lemma dint_unsigned z : 0 <= z -> unsigned_dbl (dint z).
Proof.
  intros H. unfold dint, from_int. destruct z as [|p|p]; [|apply round_unsigned; lia|lia].
  split; [exact I|]. split; [reflexivity|discriminate].
Qed.

Definition finite_pos (f : spec_float) : bool := match f with S754_finite false _ _ => true | _ => false end.

Lemma checked_powers : forallb (fun n => finite_pos (dint (10 ^ Z.of_nat n))) (seq 0 309) = true.
Proof. vm_compute. reflexivity. Qed.

Lemma in_seq_Z n k : 0 <= n < Z.of_nat k -> In (Z.to_nat n) (seq 0 k).
Proof. intros H. apply in_seq. lia. Qed.

Lemma pow10_positive n : 0 <= n <= 308 -> positive_dbl (dint (10 ^ n)).
Proof.
  intros H. pose proof checked_powers as Hc. rewrite forallb_forall in Hc.
  specialize (Hc (Z.to_nat n) (in_seq_Z n 309 ltac:(lia))). cbv beta in Hc. rewrite Z2Nat.id in Hc by lia.
  destruct (dint_unsigned (10 ^ n)) as (C & _); [apply Z.pow_nonneg; lia|]. split; [exact C|].
  destruct (dint (10 ^ n)) as [[]|[]| |[] m e]; try discriminate. eauto.
Qed.

Lemma ten_positive : positive_dbl (dint 10).
Proof. exact (pow10_positive 1 ltac:(lia)). Qed.

Lemma pow10_ok n : 0 <= n <= 308 -> pow10 n = Ok (dint (10 ^ n)).
Proof. intros H. unfold pow10. destruct (Z.leb_spec 0 n); [|lia]. destruct (Z.leb_spec n 308); [reflexivity|lia]. Qed.

Lemma fast_path_unsigned d e : unsigned_dbl d -> e <= 308 -> exists d', fast_path d e = Ok d' /\ unsigned_dbl d'.
Proof.
  intros Hd He. unfold fast_path. destruct (Z.ltb_spec e (-308)).
  - eexists. split; [reflexivity|]. split; [exact I|]. split; [reflexivity|discriminate].
  - destruct (Z.leb_spec 0 e); rewrite pow10_ok by lia; cbn [obind]; eexists; (split; [reflexivity|]).
    + apply dmul_unsigned; [exact Hd|apply pow10_positive; lia].
    + apply ddiv_unsigned; [exact Hd|apply pow10_positive; lia].
Qed.

Lemma strtod_unsigned d p : unsigned_dbl d -> p <= 308 -> exists d', strtod_normal d p = Ok d' /\ unsigned_dbl d'.
Proof.
  intros Hd Hp. unfold strtod_normal. destruct (Z.ltb_spec p (-308)).
  - destruct (fast_path_unsigned d (-308) Hd ltac:(lia)) as (d1 & E & H1). rewrite E. cbn [obind]. apply fast_path_unsigned; [exact H1|lia].
  - apply fast_path_unsigned; [exact Hd|exact Hp].
Qed.

(** Greater than the greatest double: the infinity. *)
Lemma beyond_max d : unsigned_dbl d -> SFltb dbl_max d = false -> exists y, amount_of d = Finite y /\ 0 <= y.
Proof.
  intros (C & N & X) H. destruct d as [[]|[]| |[] m e]; try discriminate; try contradiction.
  - exists 0. split; [reflexivity|lia].
  - exists (Zpos m * 2 ^ (e + 1074)). split; [reflexivity|]. pose proof (finite_exp _ _ _ C eq_refl). apply Z.mul_nonneg_nonneg; [lia|]. apply Z.pow_nonneg. lia.
Qed.
Lemma within_max d y : canon binary64 d -> negative d = false -> amount_of d = Finite y -> SFltb dbl_max d = false.
Proof.
  intros C N Ha. destruct d as [[]|[]| |[] m e]; try discriminate; [reflexivity|].
  pose proof (finite_exp _ _ _ C eq_refl) as [_ He]. destruct C as (_ & U & _). unfold SFltb, dbl_max, SFcompare.
  destruct (Z.compare_spec 971 e) as [E|E|E]; [|lia|reflexivity].
  assert (U' : Zpos m < 9007199254740992) by exact U. clear - U'.
  change (Pos.compare_cont Eq 9007199254740991 m) with (9007199254740991 ?= m)%positive.
  destruct (Pos.compare_spec 9007199254740991 m) as [E|E|E]; [reflexivity|lia|reflexivity].
Qed.
