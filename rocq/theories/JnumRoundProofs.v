(** Products, quotients and sums of doubles are rounded to nearest. *)
From Coq Require Import ZArith NArith Bool SpecFloat Lia Zbool.
From Verif Require Import FloatModel FloatSpec FloatProofs FloatRoundProofs FloatMainProofs JnumSpec.
Local Open Scope Z_scope.

(** Twice the bits after the point that a location stands for. *)
Definition quarters (l : location) : Z :=
  match l with loc_Exact => 0 | loc_Inexact Lt => 1 | loc_Inexact Eq => 2 | loc_Inexact Gt => 3 end.

Lemma located_shifted q l : 0 <= q -> shifted (4 * q + quarters l) 2 (shr_record_of_loc q l).
Proof.
  intros Hq. unfold shifted. change (2 ^ 2) with 4. change (2 ^ (2 - 1)) with 2.
  destruct l as [|[]]; cbn [shr_record_of_loc shr_m shr_r shr_s quarters]; repeat split; intros; try lia; try discriminate; try reflexivity.
Qed.

Lemma zdigits_bounds m d : 0 <= m -> 0 < d -> Zdigits2 m <= d -> m < 2 ^ d.
Proof. intros Hm Hd H. destruct m as [|p|p]; [apply pow_pos2; lia| |lia]. apply digits_bounds; [exact Hd|exact H]. Qed.
Lemma zdigits_lower m d : 0 <= m -> 0 <= d -> d < Zdigits2 m -> 2 ^ d <= m.
Proof. intros Hm Hd H. destruct m as [|p|p]; [cbn in H; lia| |lia]. apply digits_lower; [exact Hd|exact H]. Qed.

(** [binary_round_aux] when the mantissa has digits enough. *)
Lemma aux_packed F q ex l : good F -> 0 <= q -> ex <= fexp (f_prec F) (f_emax F) (Zdigits2 q + ex) ->
  exists m e,
    packed F m e (binary_round_aux (f_prec F) (f_emax F) false q ex l) /\
    e = fexp (f_prec F) (f_emax F) (Zdigits2 q + ex) /\
    0 <= m <= 2 ^ f_prec F /\ (e = emin (f_prec F) (f_emax F) \/ 2 ^ f_mw F <= m) /\
    to_nearest (4 * q + quarters l) (e - ex + 2) m.
Proof.
  intros G Hq Hle. pose proof G as (Hmw & Hew & Hx).
  set (D := Zdigits2 q + ex) in *. set (e := fexp (f_prec F) (f_emax F) D) in *.
  assert (P2 : 2 ^ f_prec F = 2 * 2 ^ f_mw F) by (unfold f_prec; rewrite Z.pow_add_r by lia; lia).
  assert (Le : emin (f_prec F) (f_emax F) <= e) by apply fexp_le_emin.
  assert (De : D - f_prec F <= e) by (unfold e, fexp; lia).
  assert (exists st, shr_fexp (f_prec F) (f_emax F) q ex l = (st, e) /\ shifted (4 * q + quarters l) (e - ex + 2) st) as (st & S1 & Sh).
  { pose proof (located_shifted q l Hq) as S0. unfold shr_fexp. fold D. fold e. destruct (e - ex) as [|p|p] eqn:Ep.
    - cbn [shr]. eexists. split; [apply f_equal2; [reflexivity|lia]|]. exact S0.
    - cbn [shr]. eexists. split; [apply f_equal2; [reflexivity|lia]|]. replace (Zpos p + 2) with (2 + Zpos p) by lia. apply iter_shifted. exact S0.
    - lia. }
  set (m := round_nearest_even (shr_m st) (loc_of_shr_record st)).
  destruct (round_shifted (4 * q + quarters l) (e - ex + 2) st ltac:(lia) Sh) as [Hn Hb]. fold m in Hn, Hb.
  destruct Sh as (_ & Hq0 & Hrem & _).
  assert (Q : 0 <= quarters l <= 3) by (destruct l as [|[]]; cbn; lia).
  assert (P4 : 2 ^ (e - ex + 2) = 4 * 2 ^ (e - ex)) by (rewrite Z.pow_add_r by lia; change (2 ^ 2) with 4; lia).
  pose proof (pow_pos2 (e - ex) ltac:(lia)) as Pe. rewrite P4 in Hrem.
  assert (Hq1 : shr_m st < 2 ^ f_prec F).
  { assert (U : q < 2 ^ f_prec F * 2 ^ (e - ex)).
    { rewrite <- Z.pow_add_r by (unfold f_prec; lia). apply zdigits_bounds; [exact Hq | unfold f_prec; lia | unfold D in De; lia]. }
    apply (Z.mul_lt_mono_pos_r (2 ^ (e - ex))); lia. }
  assert (Hc : e = emin (f_prec F) (f_emax F) \/ 2 ^ f_mw F <= m).
  { destruct (Z.eq_dec e (emin (f_prec F) (f_emax F))); [left; assumption|]. right.
    assert (Lo : 2 ^ f_mw F * 2 ^ (e - ex) <= q).
    { rewrite <- Z.pow_add_r by lia. apply zdigits_lower; [exact Hq | lia|]. unfold e, fexp, D, f_prec in *. lia. }
    assert (2 ^ f_mw F < shr_m st + 1); [|lia]. apply (Z.mul_lt_mono_pos_r (2 ^ (e - ex))); lia. }
  exists m, e. split; [|split; [reflexivity|split; [lia|split; [exact Hc|exact Hn]]]].
  unfold binary_round_aux. rewrite S1. fold m. apply pack_result; [exact G | lia | exact Le | exact Hc].
Qed.

(** [a / b] lies where the quarters say. *)
Definition located (a b q : Z) (l : location) : Prop :=
  match l with
  | loc_Exact => a = q * b
  | loc_Inexact Lt => q * b < a /\ 2 * a < (2 * q + 1) * b
  | loc_Inexact Eq => 2 * a = (2 * q + 1) * b
  | loc_Inexact Gt => (2 * q + 1) * b < 2 * a /\ a < (q + 1) * b
  end.

Lemma even_half k m : 2 <= k -> exists j, m * 2 ^ k = 4 * j /\ 2 ^ k = 4 * 2 ^ (k - 2).
Proof.
  intros Hk. exists (m * 2 ^ (k - 2)). assert (E : 2 ^ k = 4 * 2 ^ (k - 2)) by (change 4 with (2 ^ 2); rewrite <- Z.pow_add_r by lia; f_equal; lia).
  rewrite E. split; [ring|reflexivity].
Qed.

(** From the quarters to the ratio. *)
Lemma nearest_located a b q l k m : 0 < b -> 0 <= k -> located a b q l -> to_nearest (4 * q + quarters l) (k + 2) m ->
  2 * Z.abs (a - m * 2 ^ k * b) <= 2 ^ k * b /\ (2 * Z.abs (a - m * 2 ^ k * b) = 2 ^ k * b -> Z.even m = true).
Proof.
  intros Hb Hk Hl [Hn Ht].
  assert (P4 : 2 ^ (k + 2) = 4 * 2 ^ k) by (rewrite Z.pow_add_r by lia; change (2 ^ 2) with 4; lia).
  rewrite P4 in *. set (U := 2 ^ k) in *. assert (PU : 0 < U) by (apply pow_pos2; exact Hk).
  (* distances, with the sign of the difference *)
  set (c := 4 * q + quarters l - m * (4 * U)) in *.
  assert (Hc : - (2 * U) <= c <= 2 * U) by lia.
  (* a = q b + rest *)
  set (x := a - m * U * b). 
  assert (Rx : match l with
    | loc_Exact => 4 * x = c * b
    | loc_Inexact Lt => (c - 1) * b < 4 * x < (c + 1) * b
    | loc_Inexact Eq => 4 * x = c * b
    | loc_Inexact Gt => (c - 1) * b < 4 * x < (c + 1) * b end).
  { unfold located in Hl. unfold x, c. destruct l as [|[]]; cbn [quarters]; nia. }
  assert (Par : forall w, l = loc_Inexact Lt \/ l = loc_Inexact Gt -> c <> 2 * w).
  { intros w Hlw. unfold c. destruct Hlw as [-> | ->]; cbn [quarters]; lia. }
  assert (Goal1 : - (2 * U * b) <= 4 * x <= 2 * U * b).
  { destruct l as [|[]].
    - nia.
    - nia.
    - assert (c <> 2 * U /\ c <> - (2 * U)) by (split; [apply Par; auto | replace (- (2 * U)) with (2 * - U) by lia; apply Par; auto]). nia.
    - assert (c <> 2 * U /\ c <> - (2 * U)) by (split; [apply Par; auto | replace (- (2 * U)) with (2 * - U) by lia; apply Par; auto]). nia. }
  split; [lia|]. intros E. apply Ht.
  assert (E4 : 4 * x = 2 * U * b \/ 4 * x = - (2 * U) * b) by lia.
  destruct l as [|[]]; [| |exfalso|exfalso].
  - assert (c = 2 * U \/ c = - (2 * U)); [|lia]. destruct E4 as [E4|E4]; [left|right]; apply (Z.mul_reg_r _ _ b); lia.
  - assert (c = 2 * U \/ c = - (2 * U)); [|lia]. destruct E4 as [E4|E4]; [left|right]; apply (Z.mul_reg_r _ _ b); lia.
  - assert (c <> 2 * U /\ c <> - (2 * U)) by (split; [apply Par; auto | replace (- (2 * U)) with (2 * - U) by lia; apply Par; auto]). nia.
  - assert (c <> 2 * U /\ c <> - (2 * U)) by (split; [apply Par; auto | replace (- (2 * U)) with (2 * - U) by lia; apply Par; auto]). nia.
Qed.

Definition near_ratio (F : format) (A B : Z) (g : spec_float) : Prop :=
  canon F g /\ negative g = false /\
  match amount_of g with
  | Finite y => A < overflow F * B /\
      forall h z, canon F h -> amount_of h = Finite z ->
        Z.abs (A - y * B) <= Z.abs (A - z * B) /\ (Z.abs (A - y * B) = Z.abs (A - z * B) -> z = y \/ N.even (encode F g) = true)
  | PlusInf => overflow F * B <= A
  | _ => False
  end.

(** [A / B] is [a / b] times [2^ex], in units. *)
Lemma aux_near F q ex l a b A B j : fits F -> 0 <= q -> ex <= fexp (f_prec F) (f_emax F) (Zdigits2 q + ex) ->
  0 < b -> 0 < B -> located a b q l ->
  0 <= j -> 0 <= ex + 1074 + j -> A * b * 2 ^ j = a * B * 2 ^ (ex + 1074 + j) ->
  near_ratio F A B (binary_round_aux (f_prec F) (f_emax F) false q ex l).
Proof.
  intros Hf Hq Hex Hb HB Hl Hj Hj' HA. pose proof Hf as [G K]. pose proof G as (Hm & Hw & Hx).
  destruct (aux_packed F q ex l G Hq Hex) as (m & e & Hp & Ee & Bm & Hc & Hn).
  set (g := binary_round_aux (f_prec F) (f_emax F) false q ex l) in *.
  assert (Le : emin (f_prec F) (f_emax F) <= e) by (rewrite Ee; apply fexp_le_emin).
  assert (Lex : ex <= e) by lia.
  set (U := 2 ^ (e + 1074)). assert (PU : 0 < U) by (apply pow_pos2; lia).
  assert (P2 : 2 ^ f_prec F = 2 * 2 ^ f_mw F) by (unfold f_prec; rewrite Z.pow_add_r by lia; lia).
  pose proof (pow_pos2 (f_mw F) ltac:(lia)) as PM. pose proof (pow_pos2 j Hj) as PJ. pose proof (pow_pos2 _ Hj') as PX.
  assert (PUB : 0 < U * B) by (apply Z.mul_pos_pos; lia).
  (* A is near m U B *)
  assert (Near : 2 * Z.abs (A - m * (U * B)) <= U * B /\ (2 * Z.abs (A - m * (U * B)) = U * B -> Z.even m = true)).
  { destruct (nearest_located a b q l (e - ex) m Hb ltac:(lia) Hl Hn) as [N1 N2].
    set (W := 2 ^ (ex + 1074 + j)) in *. set (J := 2 ^ j) in *. set (k := 2 ^ (e - ex)) in *.
    assert (EU : U * J = k * W) by (unfold U, J, k, W; rewrite <- !Z.pow_add_r by lia; f_equal; lia).
    assert (PB : 0 < b * J) by (apply Z.mul_pos_pos; lia). assert (PW : 0 < B * W) by (apply Z.mul_pos_pos; lia).
    assert (E1 : 2 * Z.abs (A - m * (U * B)) * (b * J) = 2 * Z.abs (a - m * k * b) * (B * W)).
    { rewrite <- (Z.abs_eq (b * J)) at 1 by lia. rewrite <- (Z.abs_eq (B * W)) at 1 by lia. rewrite <- !Z.mul_assoc, <- !Z.abs_mul. f_equal. f_equal.
      transitivity (A * b * J - m * (U * J) * (b * B)); [ring|]. rewrite HA, EU. ring. }
    assert (E2 : U * B * (b * J) = k * b * (B * W)) by (transitivity (U * J * (B * b)); [ring|]; rewrite EU; ring).
    split.
    - apply (Z.mul_le_mono_pos_r _ _ (b * J) PB). rewrite E1, E2. apply Z.mul_le_mono_nonneg_r; lia.
    - intros E. apply N2. apply (Z.mul_reg_r _ _ (B * W)); [lia|]. rewrite <- E1, <- E2, E. reflexivity. }
  destruct Near as [Near Tie].
  (* where A lies *)
  set (D := Zdigits2 q + ex) in *.
  assert (XD : 0 < q -> 0 <= D - 1 + 1074 -> 2 ^ (D - 1 + 1074) * B <= A).
  { intros Hq1 HD. assert (D1 : 0 < Zdigits2 q) by (destruct q; [lia|reflexivity|lia]).
    assert (L1 : 2 ^ (Zdigits2 q - 1) <= q) by (apply zdigits_lower; lia).
    assert (L2 : q * b <= a) by (unfold located in Hl; destruct l as [|[]]; lia).
    apply (Z.mul_le_mono_pos_r _ _ (b * 2 ^ j)); [apply Z.mul_pos_pos; lia|].
    replace (A * (b * 2 ^ j)) with (A * b * 2 ^ j) by ring. rewrite HA.
    replace (2 ^ (D - 1 + 1074) * B * (b * 2 ^ j)) with (2 ^ (D - 1 + 1074) * 2 ^ j * b * B) by ring.
    replace (2 ^ (D - 1 + 1074) * 2 ^ j) with (2 ^ (Zdigits2 q - 1) * 2 ^ (ex + 1074 + j)).
    2: { rewrite <- !Z.pow_add_r by lia. f_equal. unfold D. lia. }
    replace (2 ^ (Zdigits2 q - 1) * 2 ^ (ex + 1074 + j) * b * B) with (2 ^ (Zdigits2 q - 1) * b * (B * 2 ^ (ex + 1074 + j))) by ring.
    replace (a * B * 2 ^ (ex + 1074 + j)) with (a * (B * 2 ^ (ex + 1074 + j))) by ring.
    apply Z.mul_le_mono_nonneg_r; [apply Z.mul_nonneg_nonneg; lia|]. apply (Z.le_trans _ (q * b)); [|lia]. apply Z.mul_le_mono_nonneg_r; lia. }
  assert (XL : emin (f_prec F) (f_emax F) < e -> 2 ^ f_mw F * (U * B) <= A).
  { intros L. assert (EE : f_mw F + (e + 1074) = D - 1 + 1074) by (unfold fexp, f_prec in Ee |- *; unfold f_prec in L; lia).
    rewrite Z.mul_assoc. unfold U. rewrite <- Z.pow_add_r by lia. rewrite EE. apply XD; [|lia]. destruct q as [|q|q]; [|lia|lia]. cbn [Zdigits2] in D. unfold fexp in Ee. unfold D, f_prec in *. lia. }
  assert (OV : overflow F = (2 * 2 ^ f_prec F - 1) * 2 ^ (f_emax F - f_prec F - 1 + 1074)).
  { unfold overflow. replace (f_emax F) with (f_prec F + 1 + (f_emax F - f_prec F - 1)) at 1 by lia.
    rewrite !Z.pow_add_r by (unfold f_prec in *; lia). ring. }
  assert (OVle : overflow F <= 2 ^ (f_emax F + 1074)).
  { unfold overflow. rewrite (Z.pow_add_r 2 (f_emax F)) by (unfold f_prec in *; lia). apply Z.mul_le_mono_nonneg_r; [apply Z.pow_nonneg; lia|].
    pose proof (pow_pos2 (f_emax F - f_prec F - 1) ltac:(lia)). lia. }
  (* the distance to the numbers of the format *)
  assert (Dist : forall h z, canon F h -> amount_of h = Finite z ->
            Z.abs (A - m * (U * B)) <= Z.abs (A - z * B) /\ (Z.abs (A - m * (U * B)) = Z.abs (A - z * B) -> z = m * U \/ Z.even m = true)).
  { intros h z C Ha. assert (Le' : -1074 <= e) by (clear - Le K; lia). clear HA Hl Hn Hp Hc Ee Hex XD OV OVle PX PJ Hj Hj'. destruct (grid F h z e Hf C Ha Le') as [[i Ei] | [L Lz]].
    - fold U in Ei. subst z. replace (i * U * B) with (i * (U * B)) by ring. destruct (Z.eq_dec i m) as [-> | Nj]; [split; [lia | auto]|].
      pose proof (grid_distance (U * B) m i A PUB Near Nj). split; [lia|]. intros E. right. apply Tie. lia.
    - fold U in Lz. specialize (XL L).
      assert (Hi : Z.abs (A - m * (U * B)) <= Z.abs (A - 2 ^ f_mw F * (U * B))).
      { destruct (Z.eq_dec (2 ^ f_mw F) m) as [-> | Nj]; [lia|]. pose proof (grid_distance (U * B) m (2 ^ f_mw F) A PUB Near Nj). lia. }
      assert (z * B < 2 ^ f_mw F * (U * B)) by (rewrite Z.mul_assoc; apply Z.mul_lt_mono_pos_r; lia).
      split; [lia | intros; lia]. }
  (* no overflow *)
  assert (Below : e <= f_emax F - f_prec F -> (m < 2 ^ f_prec F \/ e < f_emax F - f_prec F) -> A < overflow F * B).
  { intros L1 L2. clear Dist XD XL HA Hl Hn Hp Hc OVle Hex PX Hj Hj' PJ. set (E' := f_emax F - f_prec F) in *.
    set (V := 2 ^ (E' - 1 + 1074)). assert (PV : 0 < V) by (apply pow_pos2; unfold E', f_prec in *; lia).
    assert (OV' : overflow F * B = (2 * 2 ^ f_prec F - 1) * (V * B)) by (rewrite OV; fold V; ring).
    assert (PVB : 0 < V * B) by (apply Z.mul_pos_pos; lia).
    destruct (Z.eq_dec e E') as [Eq | Ne].
    - destruct L2 as [L2 | L2]; [|lia]. assert (EU : U * B = 2 * (V * B)). { replace (2 * (V * B)) with (2 * V * B) by ring. f_equal. unfold U, V. rewrite Eq. rewrite <- Z.pow_succ_r by lia. f_equal. lia. }
      rewrite OV'. destruct (Z.eq_dec m (2 ^ f_prec F - 1)) as [Em | Nm].
      + assert (Hodd : Z.even m = false). { rewrite Em. rewrite Z.even_sub, (even_pow (f_prec F)) by (unfold f_prec; lia). reflexivity. }
        assert (2 * Z.abs (A - m * (U * B)) <> U * B) by (intros E; apply Tie in E; congruence).
        rewrite Em, EU in *. lia.
      + assert (m * (U * B) <= (2 ^ f_prec F - 2) * (U * B)) by (apply Z.mul_le_mono_nonneg_r; lia). rewrite EU in *. lia.
    - assert (UV : U * B <= V * B) by (apply Z.mul_le_mono_nonneg_r; [lia|]; unfold U, V; apply Z.pow_le_mono_r; lia).
      assert (m * (U * B) <= 2 ^ f_prec F * (V * B)) by (apply Z.mul_le_mono_nonneg; lia).
      rewrite OV'. assert (2 * 1 <= 2 ^ f_prec F) by lia.
      assert (2 ^ f_prec F * (V * B) + 2 * (V * B) <= 2 ^ f_prec F * (V * B) + 2 ^ f_prec F * (V * B)) by (apply Z.add_le_mono_l, Z.mul_le_mono_nonneg_r; lia). lia. }
  unfold near_ratio. destruct g as [s|s| |s p eg]; cbn [packed] in Hp.
  - destruct Hp as [-> Em]. cbn [canon negative amount_of]. split; [exact I|]. split; [reflexivity|]. subst m. split.
    + apply Below; [destruct Hc as [-> | Hc]; [unfold emin, f_prec in *; lia | lia] | left; lia].
    + intros h z C Ha. rewrite Z.mul_0_l in *. destruct (Dist h z C Ha) as [A1 B1]. split; [exact A1|]. intros _. right. reflexivity.
  - destruct Hp as [-> Hi]. cbn [canon negative amount_of]. split; [exact I|]. split; [reflexivity|].
    destruct Hi as [L | [Em Eq]].
    + assert (DL : f_emax F <= D - 1). { unfold fexp, emin in Ee. unfold f_prec in *. lia. }
      assert (2 ^ (f_emax F + 1074) <= 2 ^ (D - 1 + 1074)) by (apply Z.pow_le_mono_r; lia).
      assert (overflow F * B <= 2 ^ (D - 1 + 1074) * B) by (apply Z.mul_le_mono_nonneg_r; lia). assert (0 < q) as Hq1 by (destruct q as [|q|q]; [|lia|lia]; cbn [Zdigits2] in D; unfold fexp in Ee; unfold D, f_prec, emin in *; lia).
      specialize (XD Hq1 ltac:(unfold f_prec in *; lia)). lia.
    + assert (EU : U = 2 * 2 ^ (f_emax F - f_prec F - 1 + 1074)) by (unfold U; rewrite Eq, <- Z.pow_succ_r by (unfold f_prec in *; lia); f_equal; lia).
      rewrite OV. rewrite Em in Near. rewrite EU in *. set (V := 2 ^ (f_emax F - f_prec F - 1 + 1074)) in *.
      replace (2 * V * B) with (2 * (V * B)) in * by ring. replace ((2 * 2 ^ f_prec F - 1) * V * B) with ((2 * 2 ^ f_prec F - 1) * (V * B)) by ring. lia.
  - contradiction.
  - destruct Hp as (-> & C & Hp). cbn [negative amount_of signed]. split; [exact C|]. split; [reflexivity|].
    assert (Ey : Zpos p * 2 ^ (eg + 1074) = m * U).
    { destruct Hp as [[-> ->] | (-> & Ep & ->)]; [reflexivity|]. rewrite P2, Ep. unfold U. replace (e + 1 + 1074) with (Z.succ (e + 1074)) by lia.
      rewrite Z.pow_succ_r by lia. ring. }
    rewrite Ey. replace (m * U * B) with (m * (U * B)) by ring. split.
    + apply Below; clear - C Hp Hc P2 PM Hm Hx Le; destruct C as (Hr & Hu & Hcc); destruct Hp as [[Em Eq] | (Em & Ep & Eq)]; lia.
    + intros h z Ch Ha. destruct (Dist h z Ch Ha) as [A1 B1]. split; [exact A1|]. intros E. destruct (B1 E) as [-> | Ev]; [left; reflexivity|]. right.
      apply encode_even; [exact G | exact C|]. destruct Hp as [[Em Eq] | (Em & Ep & Eq)]; [congruence|]. rewrite Ep. apply even_pow. lia.
Qed.
