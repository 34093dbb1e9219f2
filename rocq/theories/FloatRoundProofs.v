(** Rounding gives the nearest number. *)
From Coq Require Import ZArith NArith Bool SpecFloat Lia.
From Verif Require Import FloatModel FloatSpec FloatProofs.
Local Open Scope Z_scope.

(** [st] is what [k] shifts to the right leave of [M]. *)
Definition shifted (M k : Z) (st : shr_record) : Prop :=
  0 <= k /\ 0 <= shr_m st /\ 0 <= M - shr_m st * 2 ^ k < 2 ^ k /\
  (k = 0 -> shr_r st = false /\ shr_s st = false) /\
  (0 < k -> (shr_r st = true <-> 2 ^ (k - 1) <= M - shr_m st * 2 ^ k) /\
            (shr_s st = true <-> M - shr_m st * 2 ^ k <> if shr_r st then 2 ^ (k - 1) else 0)).

Lemma shr_1_parts m r s : 0 <= m -> shr_1 (Build_shr_record m r s) = Build_shr_record (m / 2) (Z.odd m) (r || s).
Proof.
  intros Hm. destruct m as [|[p|p|]|p]; cbn [shr_1 Z.odd]; try reflexivity; try lia.
  - f_equal. change (Zpos p~1) with (2 * Zpos p + 1). rewrite Z.add_comm, Z.mul_comm, Z.div_add by lia. reflexivity.
  - f_equal. change (Zpos p~0) with (2 * Zpos p). rewrite Z.mul_comm, Z.div_mul by lia. reflexivity.
Qed.

Lemma shr_1_shifted M k st : shifted M k st -> shifted M (k + 1) (shr_1 st).
Proof.
  destruct st as [m r s]. intros (Hk & Hm & Hr & H0 & H1). cbn [shr_m shr_r shr_s] in *. rewrite shr_1_parts by exact Hm.
  pose proof (Z.div_mod m 2 ltac:(lia)) as Dm. rewrite Zmod_odd in Dm.
  assert (Pk : 2 ^ (k + 1) = 2 * 2 ^ k) by (rewrite Z.pow_add_r by lia; lia). pose proof (pow_pos2 k Hk) as P.
  set (rem := M - m * 2 ^ k) in *. assert (Em : M = m * 2 ^ k + rem) by (unfold rem; lia).
  set (q := m / 2) in *.
  assert (ER : M - q * 2 ^ (k + 1) = (if Z.odd m then 2 ^ k else 0) + rem).
  { rewrite Em, Pk. destruct (Z.odd m); rewrite Dm; ring. }
  unfold shifted. cbn [shr_m shr_r shr_s]. rewrite ER. replace (k + 1 - 1) with k by lia.
  assert (Hrs : (r || s = true) <-> rem <> 0).
  { destruct (Z.eq_dec k 0) as [K0 | Kn].
    - destruct (H0 K0) as [-> ->]. rewrite K0 in Hr. change (2 ^ 0) with 1 in Hr. split; [discriminate | lia].
    - destruct (H1 ltac:(lia)) as [Hr1 Hs1]. pose proof (pow_pos2 (k - 1) ltac:(lia)).
      destruct r; cbn [orb].
      + split; [|reflexivity]. intros _. assert (2 ^ (k - 1) <= rem) by (apply Hr1; reflexivity). lia.
      + exact Hs1. }
  assert (Hq : 0 <= q) by (apply Z.div_pos; lia).
  rewrite Hrs. destruct (Z.odd m); repeat split; intros; lia.
Qed.

Lemma iter_shifted M p : forall k st, shifted M k st -> shifted M (k + Zpos p) (iter_pos shr_1 p st).
Proof.
  induction p as [p IH|p IH|]; intros k st H; cbn [iter_pos].
  - replace (k + Zpos p~1) with (k + 1 + Zpos p + Zpos p) by lia. apply IH, IH, shr_1_shifted, H.
  - replace (k + Zpos p~0) with (k + Zpos p + Zpos p) by lia. apply IH, IH, H.
  - apply shr_1_shifted, H.
Qed.

(** Rounding to the nearest integer. *)
Definition to_nearest (M k m : Z) : Prop :=
  2 * Z.abs (M - m * 2 ^ k) <= 2 ^ k /\ (2 * Z.abs (M - m * 2 ^ k) = 2 ^ k -> Z.even m = true).

Lemma even_succ_odd m : Z.even m = false -> Z.even (m + 1) = true.
Proof. intros H. rewrite Z.add_1_r, Z.even_succ, <- Z.negb_even, H. reflexivity. Qed.

Lemma round_shifted M k st : 0 < k -> shifted M k st ->
  to_nearest M k (round_nearest_even (shr_m st) (loc_of_shr_record st)) /\
  shr_m st <= round_nearest_even (shr_m st) (loc_of_shr_record st) <= shr_m st + 1.
Proof.
  destruct st as [m r s]. intros Hk (_ & Hm & Hr & _ & H1). cbn [shr_m shr_r shr_s] in *. destruct (H1 Hk) as [Hr1 Hs1]. clear H1.
  assert (Pk : 2 ^ k = 2 * 2 ^ (k - 1)) by (rewrite <- Z.pow_succ_r by lia; f_equal; lia). pose proof (pow_pos2 (k - 1) ltac:(lia)) as P.
  assert (Eq : (m + 1) * 2 ^ k = m * 2 ^ k + 2 ^ k) by ring.
  unfold to_nearest. set (rem := M - m * 2 ^ k) in *. set (h := 2 ^ (k - 1)) in *.
  destruct r, s; cbn [loc_of_shr_record round_nearest_even].
  - assert (h <= rem) by (apply Hr1; reflexivity). assert (rem <> h) by (apply Hs1; reflexivity).
    replace (M - (m + 1) * 2 ^ k) with (rem - 2 ^ k) by lia. split; [split; intros; lia | lia].
  - assert (h <= rem) by (apply Hr1; reflexivity).
    assert (rem = h) by (destruct (Z.eq_dec rem h) as [|N]; [assumption | apply Hs1 in N; discriminate]).
    destruct (Z.even m) eqn:Ev.
    + fold rem. split; [split; [lia | auto] | lia].
    + replace (M - (m + 1) * 2 ^ k) with (rem - 2 ^ k) by lia. split; [split; [lia | intros _; apply even_succ_odd; exact Ev] | lia].
  - assert (~ h <= rem) by (intros X; apply Hr1 in X; discriminate). fold rem. split; [split; intros; lia | lia].
  - assert (~ h <= rem) by (intros X; apply Hr1 in X; discriminate). fold rem. split; [split; intros; lia | lia].
Qed.

(** The number [m * 2^e], brought to at most [prec] digits. *)
Definition packed (F : format) (m e : Z) (g : spec_float) : Prop :=
  match g with
  | S754_zero s => s = false /\ m = 0
  | S754_finite s p e' =>
      s = false /\ canon F g /\
      (m = Zpos p /\ e' = e \/ m = 2 ^ f_prec F /\ Zpos p = 2 ^ f_mw F /\ e' = e + 1)
  | S754_infinity s => s = false /\ (f_emax F - f_prec F < e \/ m = 2 ^ f_prec F /\ e = f_emax F - f_prec F)
  | S754_nan => False
  end.

Lemma digits_of_pow p k : 0 <= k -> Zpos p = 2 ^ k -> Zpos (digits2_pos p) = k + 1.
Proof. intros Hk E. rewrite digits_log, E, Z.log2_pow2 by lia. reflexivity. Qed.

(** The last steps: renormalise and test for overflow. *)
Lemma pack_result F m e : good F -> 0 <= m <= 2 ^ f_prec F -> emin (f_prec F) (f_emax F) <= e ->
  (e = emin (f_prec F) (f_emax F) \/ 2 ^ f_mw F <= m) ->
  packed F m e
    (let '(mrs, e') := shr_fexp (f_prec F) (f_emax F) m e loc_Exact in
     match shr_m mrs with
     | 0 => S754_zero false
     | Zpos p => if e' <=? f_emax F - f_prec F then S754_finite false p e' else S754_infinity false
     | Zneg _ => S754_nan
     end).
Proof.
  intros (Hmw & Hew & Hx) Bm Be Hc. unfold shr_fexp. cbn [shr_record_of_loc].
  assert (P2 : 2 ^ f_prec F = 2 * 2 ^ f_mw F) by (unfold f_prec; rewrite Z.pow_add_r by lia; lia).
  pose proof (pow_pos2 (f_mw F) ltac:(lia)) as PM.
  destruct m as [|p|p]; [| |lia].
  - cbn [Zdigits2]. destruct Hc as [-> | Hc]; [|lia].
    assert (E0 : fexp (f_prec F) (f_emax F) (0 + emin (f_prec F) (f_emax F)) - emin (f_prec F) (f_emax F) = 0) by (unfold fexp, f_prec; lia).
    rewrite E0. cbn [shr shr_m packed]. auto.
  - cbn [Zdigits2]. destruct (Z.eq_dec (Zpos p) (2 ^ f_prec F)) as [Ep | Np].
    + rewrite (digits_of_pow p (f_prec F)) by (exact Ep || (unfold f_prec; lia)).
      assert (E1 : fexp (f_prec F) (f_emax F) (f_prec F + 1 + e) - e = 1) by (unfold fexp; lia).
      rewrite E1. unfold shr. cbn [iter_pos]. destruct p as [p|p|]; try lia.
      cbn [shr_1 shr_m]. assert (Ep' : Zpos p = 2 ^ f_mw F) by (change (Zpos p~0) with (2 * Zpos p) in Ep; lia).
      destruct (Z.leb_spec (e + 1) (f_emax F - f_prec F)) as [L | L]; cbn [packed canon].
      * split; [reflexivity|]. split; [|right; auto]. repeat split; lia.
      * split; [reflexivity|]. lia.
    + assert (Hd : fexp (f_prec F) (f_emax F) (Zpos (digits2_pos p) + e) = e).
      { assert (Hu : Zpos (digits2_pos p) <= f_prec F) by (apply digits_bounds; [unfold f_prec; lia | lia]). unfold fexp.
        destruct Hc as [-> | Hc]; [lia|]. apply digits_lower in Hc; [|lia]. unfold f_prec in *. lia. }
      rewrite Hd, Z.sub_diag. cbn [shr shr_m].
      destruct (Z.leb_spec e (f_emax F - f_prec F)) as [L | L]; cbn [packed canon].
      * split; [reflexivity|]. split; [|left; auto]. repeat split; lia.
      * split; [reflexivity|]. lia.
Qed.

(** The result of [binary_round] for a positive number of units 2^k. *)
Lemma round_packed F mx ex : good F ->
  exists m e,
    packed F m e (binary_round (f_prec F) (f_emax F) false mx ex) /\
    e = fexp (f_prec F) (f_emax F) (Zpos (digits2_pos mx) + ex) /\
    0 <= m <= 2 ^ f_prec F /\ (e = emin (f_prec F) (f_emax F) \/ 2 ^ f_mw F <= m) /\
    (e <= ex -> Zpos mx * 2 ^ (ex - e) = m) /\ (ex < e -> to_nearest (Zpos mx) (e - ex) m).
Proof.
  intros G. pose proof G as (Hmw & Hew & Hx).
  set (D := Zpos (digits2_pos mx) + ex). set (e := fexp (f_prec F) (f_emax F) D).
  assert (P2 : 2 ^ f_prec F = 2 * 2 ^ f_mw F) by (unfold f_prec; rewrite Z.pow_add_r by lia; lia).
  assert (Le : emin (f_prec F) (f_emax F) <= e) by apply fexp_le_emin.
  assert (De : D - f_prec F <= e) by (unfold e, fexp; lia).
  unfold binary_round, shl_align. fold D. fold e. destruct (e - ex) as [|p|p] eqn:Ep.
  - exists (Zpos mx), e. assert (Eq : e = ex) by lia. clear Ep.
    assert (Bm : Zpos mx < 2 ^ f_prec F) by (apply digits_bounds; [unfold f_prec; lia | unfold D in De; lia]).
    assert (Hc : e = emin (f_prec F) (f_emax F) \/ 2 ^ f_mw F <= Zpos mx).
    { destruct (Z.eq_dec e (emin (f_prec F) (f_emax F))); [left; assumption|]. right. apply digits_lower; [lia|]. unfold e, fexp, D, f_prec in *. lia. }
    split; [|split; [reflexivity|split; [lia|split; [exact Hc|split; [|lia]]]]].
    + unfold binary_round_aux.
      assert (S1 : shr_fexp (f_prec F) (f_emax F) (Zpos mx) ex loc_Exact = (Build_shr_record (Zpos mx) false false, ex)).
      { unfold shr_fexp. cbn [Zdigits2]. fold D. fold e. rewrite Eq, Z.sub_diag. reflexivity. }
      rewrite S1. cbn [shr_m loc_of_shr_record round_nearest_even]. rewrite <- Eq. apply pack_result; [exact G | lia | exact Le | exact Hc].
    + intros _. rewrite Eq, Z.sub_diag. lia.
  - assert (Lt : ex < e) by lia.
    assert (Sh : shifted (Zpos mx) (e - ex) (iter_pos shr_1 p (Build_shr_record (Zpos mx) false false))).
    { rewrite Ep. replace (Zpos p) with (0 + Zpos p) by lia. apply iter_shifted. unfold shifted. cbn [shr_m shr_r shr_s]. change (2 ^ 0) with 1. repeat split; lia. }
    set (st := iter_pos shr_1 p (Build_shr_record (Zpos mx) false false)) in *.
    set (m := round_nearest_even (shr_m st) (loc_of_shr_record st)).
    destruct (round_shifted (Zpos mx) (e - ex) st ltac:(lia) Sh) as [Hn Hb]. fold m in Hn, Hb.
    destruct Sh as (_ & Hq0 & Hrem & _). pose proof (pow_pos2 (e - ex) ltac:(lia)) as Pe.
    assert (Hq1 : shr_m st < 2 ^ f_prec F).
    { assert (U : Zpos mx < 2 ^ f_prec F * 2 ^ (e - ex)).
      { rewrite <- Z.pow_add_r by (unfold f_prec; lia). apply digits_bounds; [unfold f_prec; lia | unfold D in De; lia]. }
      apply (Z.mul_lt_mono_pos_r (2 ^ (e - ex))); lia. }
    assert (Hc : e = emin (f_prec F) (f_emax F) \/ 2 ^ f_mw F <= m).
    { destruct (Z.eq_dec e (emin (f_prec F) (f_emax F))); [left; assumption|]. right.
      assert (Lo : 2 ^ f_mw F * 2 ^ (e - ex) <= Zpos mx).
      { rewrite <- Z.pow_add_r by lia. apply digits_lower; [lia|]. unfold e, fexp, D, f_prec in *. lia. }
      assert (2 ^ f_mw F < shr_m st + 1); [|lia]. apply (Z.mul_lt_mono_pos_r (2 ^ (e - ex))); lia. }
    exists m, e. split; [|split; [reflexivity|split; [lia|split; [exact Hc|split; [lia|intros _; exact Hn]]]]].
    unfold binary_round_aux.
    assert (S1 : shr_fexp (f_prec F) (f_emax F) (Zpos mx) ex loc_Exact = (st, e)).
    { unfold shr_fexp. cbn [Zdigits2 shr_record_of_loc]. fold D. fold e. rewrite Ep. cbn [shr]. fold st. f_equal. lia. }
    rewrite S1. fold m. apply pack_result; [exact G | lia | exact Le | exact Hc].
  - assert (Lt : e < ex) by lia.
    assert (Em : Zpos (shift_pos p mx) = Zpos mx * 2 ^ (ex - e)) by (rewrite shift_pos_mul; f_equal; f_equal; lia).
    set (n := shift_pos p mx) in *. pose proof (digits_shift n mx (ex - e) ltac:(lia) Em) as Dn.
    exists (Zpos n), e.
    assert (Bm : Zpos n < 2 ^ f_prec F) by (apply digits_bounds; [unfold f_prec; lia | rewrite Dn; unfold D in De; lia]).
    assert (Hc : e = emin (f_prec F) (f_emax F) \/ 2 ^ f_mw F <= Zpos n).
    { destruct (Z.eq_dec e (emin (f_prec F) (f_emax F))); [left; assumption|]. right. apply digits_lower; [lia|]. rewrite Dn. unfold e, fexp, D, f_prec in *. lia. }
    split; [|split; [reflexivity|split; [lia|split; [exact Hc|split; [auto|lia]]]]].
    unfold binary_round_aux.
    assert (S1 : shr_fexp (f_prec F) (f_emax F) (Zpos n) e loc_Exact = (Build_shr_record (Zpos n) false false, e)).
    { unfold shr_fexp. cbn [Zdigits2]. rewrite Dn. replace (Zpos (digits2_pos mx) + (ex - e) + e) with D by (unfold D; lia). fold e. rewrite Z.sub_diag. reflexivity. }
    rewrite S1. cbn [shr_m loc_of_shr_record round_nearest_even]. apply pack_result; [exact G | lia | exact Le | exact Hc].
Qed.

(* ------------------------------------------------------------------ *)
(** ** The nearest number *)

Lemma even_pow k : 0 < k -> Z.even (2 ^ k) = true.
Proof. intros H. replace k with (Z.succ (k - 1)) by lia. rewrite Z.pow_succ_r by lia. rewrite Z.even_mul. reflexivity. Qed.

Lemma encode_even F s p e : good F -> canon F (S754_finite s p e) -> Z.even (Zpos p) = true -> N.even (encode F (S754_finite s p e)) = true.
Proof.
  intros (Hm & He & Hx) (Hr & Hu & Hc) Ev. unfold encode.
  assert (Hs : Z.even (sign_bit F s) = true) by (unfold sign_bit; destruct s; [apply even_pow; lia | reflexivity]).
  assert (Hs0 : 0 <= sign_bit F s) by (unfold sign_bit; destruct s; [apply Z.pow_nonneg; lia | lia]).
  pose proof (pow_pos2 (f_mw F) ltac:(lia)) as PM.
  assert (K : forall z, 0 <= z -> Z.even z = true -> N.even (Z.to_N z) = true).
  { intros z Hz Hev. apply Z.even_spec in Hev. destruct Hev as [c ->]. apply N.even_spec. exists (Z.to_N c). rewrite Z2N.inj_mul by lia. reflexivity. }
  destruct (Z.ltb_spec (Zpos p) (2 ^ f_mw F)) as [L | L].
  - apply K; [lia|]. rewrite Z.even_add, Hs, Ev. reflexivity.
  - apply K; [assert (0 <= (e - emin (f_prec F) (f_emax F) + 1) * 2 ^ f_mw F) by (apply Z.mul_nonneg_nonneg; lia); lia|].
    rewrite !Z.even_add, Hs, Z.even_mul, (even_pow (f_mw F)) by lia. rewrite orb_true_r. rewrite Z.even_sub, Ev, (even_pow (f_mw F)) by lia. reflexivity.
Qed.

(** Numbers of the format near [X]. *)
Lemma grid F h z e : fits F -> canon F h -> amount_of h = Finite z -> -1074 <= e ->
  (exists j, z = j * 2 ^ (e + 1074)) \/ (emin (f_prec F) (f_emax F) < e /\ z < 2 ^ f_mw F * 2 ^ (e + 1074)).
Proof.
  intros [G K] C Ha He. pose proof G as (Hm & Hw & _). pose proof (pow_pos2 (e + 1074) ltac:(lia)) as PU. pose proof (pow_pos2 (f_mw F) ltac:(lia)) as PM.
  destruct h as [s|[]| |s p eh]; cbn [amount_of] in Ha; try discriminate.
  - left. exists 0. assert (z = 0) by congruence. lia.
  - assert (Ez : z = signed s p * 2 ^ (eh + 1074)) by congruence. clear Ha. destruct C as (Hr & Hu & _).
    destruct (Z.le_gt_cases e eh) as [L | L].
    + left. exists (signed s p * 2 ^ (eh - e)). rewrite Ez, <- Z.mul_assoc, <- Z.pow_add_r by lia. f_equal. f_equal. lia.
    + right. split; [lia|].
      assert (Hz : z < 2 ^ f_prec F * 2 ^ (eh + 1074)).
      { rewrite Ez. apply Z.mul_lt_mono_pos_r; [apply pow_pos2; lia|]. destruct s; cbn [signed]; lia. }
      assert (Hle : 2 ^ f_prec F * 2 ^ (eh + 1074) <= 2 ^ f_mw F * 2 ^ (e + 1074)).
      { rewrite <- !Z.pow_add_r by (unfold f_prec; lia). apply Z.pow_le_mono_r; unfold f_prec; lia. }
      lia.
Qed.

Lemma grid_distance U m j X : 0 < U -> 2 * Z.abs (X - m * U) <= U -> j <> m -> U <= Z.abs (X - m * U) + Z.abs (X - j * U).
Proof.
  intros HU Hn Hj. assert (H : U <= Z.abs (m * U - j * U)).
  { rewrite <- Z.mul_sub_distr_r, Z.abs_mul, (Z.abs_eq U) by lia. apply (Z.le_trans _ (1 * U)); [lia|]. apply Z.mul_le_mono_nonneg_r; lia. }
  lia.
Qed.

Lemma round_near F mx ex : fits F -> -1074 <= ex ->
  let g := binary_round (f_prec F) (f_emax F) false mx ex in
  let X := Zpos mx * 2 ^ (ex + 1074) in
  canon F g /\ negative g = false /\
  match amount_of g with
  | Finite y => X < overflow F /\
      forall h z, canon F h -> amount_of h = Finite z ->
        Z.abs (X - y) <= Z.abs (X - z) /\ (Z.abs (X - y) = Z.abs (X - z) -> z = y \/ N.even (encode F g) = true)
  | PlusInf => overflow F <= X
  | _ => False
  end.
Proof.
  intros Hf Hex. pose proof Hf as [G K]. pose proof G as (Hm & Hw & Hx). cbv zeta.
  destruct (round_packed F mx ex G) as (m & e & Hp & Ee & Bm & Hc & H1 & H2).
  set (g := binary_round (f_prec F) (f_emax F) false mx ex) in *. set (X := Zpos mx * 2 ^ (ex + 1074)).
  assert (Le : emin (f_prec F) (f_emax F) <= e) by (rewrite Ee; apply fexp_le_emin).
  set (U := 2 ^ (e + 1074)). assert (PU : 0 < U) by (apply pow_pos2; lia).
  assert (PX : 0 < 2 ^ (ex + 1074)) by (apply pow_pos2; lia).
  assert (P2 : 2 ^ f_prec F = 2 * 2 ^ f_mw F) by (unfold f_prec; rewrite Z.pow_add_r by lia; lia).
  pose proof (pow_pos2 (f_mw F) ltac:(lia)) as PM.
  (* X is near m U *)
  assert (Near : 2 * Z.abs (X - m * U) <= U /\ (2 * Z.abs (X - m * U) = U -> Z.even m = true)).
  { destruct (Z.le_gt_cases e ex) as [L | L].
    - assert (EX : X = m * U). { unfold X, U. rewrite <- (H1 L), <- Z.mul_assoc, <- Z.pow_add_r by lia. f_equal. f_equal. lia. }
      rewrite EX, Z.sub_diag. cbn [Z.abs]. split; lia.
    - destruct (H2 L) as [Hn He]. assert (EU : U = 2 ^ (e - ex) * 2 ^ (ex + 1074)) by (unfold U; rewrite <- Z.pow_add_r by lia; f_equal; lia).
      assert (EX : 2 * Z.abs (X - m * U) = 2 * Z.abs (Zpos mx - m * 2 ^ (e - ex)) * 2 ^ (ex + 1074)).
      { unfold X. rewrite EU, Z.mul_assoc, <- Z.mul_sub_distr_r, Z.abs_mul, (Z.abs_eq (2 ^ (ex + 1074))) by lia. ring. }
      rewrite EX, EU. split.
      + apply Z.mul_le_mono_nonneg_r; lia.
      + intros E. apply He. apply Z.mul_cancel_r in E; lia. }
  destruct Near as [Near Tie].
  (* where X lies *)
  set (D := Zpos (digits2_pos mx) + ex) in *.
  assert (XD : 2 ^ (D - 1 + 1074) <= X < 2 ^ (D + 1074)).
  { unfold X. replace (D - 1 + 1074) with (Zpos (digits2_pos mx) - 1 + (ex + 1074)) by (unfold D; lia).
    replace (D + 1074) with (Zpos (digits2_pos mx) + (ex + 1074)) by (unfold D; lia).
    rewrite (Z.pow_add_r 2 (Zpos (digits2_pos mx) - 1)), (Z.pow_add_r 2 (Zpos (digits2_pos mx))) by lia.
    split; [apply Z.mul_le_mono_nonneg_r; [lia|]; apply digits_lower; lia | apply Z.mul_lt_mono_pos_r; [lia|]; apply digits_bounds; lia]. }
  assert (XL : emin (f_prec F) (f_emax F) < e -> 2 ^ f_mw F * U <= X).
  { intros L. unfold U. rewrite <- Z.pow_add_r by lia. replace (f_mw F + (e + 1074)) with (D - 1 + 1074); [lia|]. unfold fexp, f_prec in Ee |- *. unfold f_prec in L. lia. }
  assert (OV : overflow F = (2 * 2 ^ f_prec F - 1) * 2 ^ (f_emax F - f_prec F - 1 + 1074)).
  { unfold overflow. replace (f_emax F) with (f_prec F + 1 + (f_emax F - f_prec F - 1)) at 1 by lia.
    rewrite !Z.pow_add_r by (unfold f_prec in *; lia). ring. }
  assert (OVle : overflow F <= 2 ^ (f_emax F + 1074)).
  { unfold overflow. rewrite (Z.pow_add_r 2 (f_emax F)) by (unfold f_prec in *; lia). apply Z.mul_le_mono_nonneg_r; [apply Z.pow_nonneg; lia|].
    pose proof (pow_pos2 (f_emax F - f_prec F - 1) ltac:(lia)). lia. }
  (* the distance to the numbers of the format *)
  assert (Dist : forall h z, canon F h -> amount_of h = Finite z ->
            Z.abs (X - m * U) <= Z.abs (X - z) /\ (Z.abs (X - m * U) = Z.abs (X - z) -> z = m * U \/ Z.even m = true)).
  { intros h z C Ha. destruct (grid F h z e Hf C Ha ltac:(lia)) as [[j Ej] | [L Lz]].
    - fold U in Ej. subst z. destruct (Z.eq_dec j m) as [-> | Nj]; [split; [lia | auto]|].
      pose proof (grid_distance U m j X PU Near Nj). split; [lia|]. intros E. right. apply Tie. lia.
    - fold U in Lz. specialize (XL L).
      assert (Hj : Z.abs (X - m * U) <= Z.abs (X - 2 ^ f_mw F * U)).
      { destruct (Z.eq_dec (2 ^ f_mw F) m) as [-> | Nj]; [lia|]. pose proof (grid_distance U m (2 ^ f_mw F) X PU Near Nj). lia. }
      split; [lia | intros; lia]. }
  (* no overflow *)
  assert (Below : e <= f_emax F - f_prec F -> (m < 2 ^ f_prec F \/ e < f_emax F - f_prec F) -> X < overflow F).
  { intros L1 L2. set (E' := f_emax F - f_prec F) in *.
    set (V := 2 ^ (E' - 1 + 1074)). assert (PV : 0 < V) by (apply pow_pos2; unfold E', f_prec in *; lia).
    assert (OV' : overflow F = (2 * 2 ^ f_prec F - 1) * V) by (rewrite OV; reflexivity).
    destruct (Z.eq_dec e E') as [Eq | Ne].
    - destruct L2 as [L2 | L2]; [|lia]. assert (EU : U = 2 * V). { unfold U, V. rewrite Eq. rewrite <- Z.pow_succ_r by lia. f_equal. lia. }
      rewrite OV'. destruct (Z.eq_dec m (2 ^ f_prec F - 1)) as [Em | Nm].
      + assert (Hodd : Z.even m = false). { rewrite Em. rewrite Z.even_sub, (even_pow (f_prec F)) by (unfold f_prec; lia). reflexivity. }
        assert (2 * Z.abs (X - m * U) <> U) by (intros E; apply Tie in E; congruence).
        rewrite Em, EU in *. lia.
      + assert (m * U <= (2 ^ f_prec F - 2) * U) by (apply Z.mul_le_mono_nonneg_r; lia). rewrite EU in *. lia.
    - assert (UV : U <= V) by (unfold U, V; apply Z.pow_le_mono_r; lia).
      assert (m * U <= 2 ^ f_prec F * V) by (apply Z.mul_le_mono_nonneg; lia).
      rewrite OV'. assert (2 * 1 <= 2 ^ f_prec F) by lia.
      assert (2 ^ f_prec F * V + 2 * V <= 2 ^ f_prec F * V + 2 ^ f_prec F * V) by (apply Z.add_le_mono_l, Z.mul_le_mono_nonneg_r; lia). lia. }
  destruct g as [s|s| |s p eg]; cbn [packed] in Hp.
  - destruct Hp as [-> Em]. cbn [canon negative amount_of]. split; [exact I|]. split; [reflexivity|]. subst m. split.
    + apply Below; [destruct Hc as [-> | Hc]; [unfold emin, f_prec in *; lia | lia] | left; lia].
    + intros h z C Ha. rewrite Z.mul_0_l in Dist. destruct (Dist h z C Ha) as [A B]. split; [exact A|]. intros _. right. reflexivity.
  - destruct Hp as [-> Hi]. cbn [canon negative amount_of]. split; [exact I|]. split; [reflexivity|].
    destruct Hi as [L | [Em Eq]].
    + assert (DL : f_emax F <= D - 1). { unfold fexp, emin in Ee. unfold f_prec in *. lia. }
      assert (2 ^ (f_emax F + 1074) <= 2 ^ (D - 1 + 1074)) by (apply Z.pow_le_mono_r; lia). lia.
    + assert (EU : U = 2 * 2 ^ (f_emax F - f_prec F - 1 + 1074)) by (unfold U; rewrite Eq, <- Z.pow_succ_r by (unfold f_prec in *; lia); f_equal; lia).
      rewrite OV. rewrite Em in Near. rewrite EU in *. set (V := 2 ^ (f_emax F - f_prec F - 1 + 1074)) in *. lia.
  - contradiction.
  - destruct Hp as (-> & C & Hp). cbn [negative amount_of signed]. split; [exact C|]. split; [reflexivity|].
    assert (Ey : Zpos p * 2 ^ (eg + 1074) = m * U).
    { destruct Hp as [[-> ->] | (-> & Ep & ->)]; [reflexivity|]. rewrite P2, Ep. unfold U. replace (e + 1 + 1074) with (Z.succ (e + 1074)) by lia.
      rewrite Z.pow_succ_r by lia. ring. }
    rewrite Ey. split.
    + apply Below; destruct C as (Hr & Hu & Hcc); destruct Hp as [[Em Eq] | (Em & Ep & Eq)]; lia.
    + intros h z Ch Ha. destruct (Dist h z Ch Ha) as [A B]. split; [exact A|]. intros E. destruct (B E) as [-> | Ev]; [left; reflexivity|]. right.
      apply encode_even; [exact G | exact C|]. destruct Hp as [[Em Eq] | (Em & Ep & Eq)]; [congruence|]. rewrite Ep. apply even_pow. lia.
Qed.
