(** The conversions of JSON: exact, or to the nearest number. *)
From Coq Require Import ZArith NArith Bool SpecFloat Lia.
From Verif Require Import SerialModel SerialSpec FloatModel FloatSpec FloatProofs FloatRoundProofs.
Local Open Scope Z_scope.

Definition with_sign (s : bool) (f : spec_float) : spec_float :=
  match f with
  | S754_zero _ => S754_zero s
  | S754_infinity _ => S754_infinity s
  | S754_nan => S754_nan
  | S754_finite _ m e => S754_finite s m e
  end.

Lemma round_sign F s mx ex :
  binary_round (f_prec F) (f_emax F) s mx ex = with_sign s (binary_round (f_prec F) (f_emax F) false mx ex).
Proof.
  unfold binary_round. destruct (shl_align mx ex _) as [mz ez]. unfold binary_round_aux.
  destruct (shr_fexp _ _ (Zpos mz) ez loc_Exact) as [st e]. destruct (shr_fexp _ _ _ e loc_Exact) as [st' e'].
  destruct (shr_m st'); cbn; try reflexivity. destruct (e' <=? f_emax F - f_prec F); reflexivity.
Qed.

Lemma even_to_N z : 0 <= z -> N.even (Z.to_N z) = Z.even z.
Proof. intros H. rewrite <- (Z2N.id z H) at 2. destruct (Z.to_N z) as [|[]]; reflexivity. Qed.

Lemma encode_even_sign F s g : good F -> canon F g -> N.even (encode F (with_sign s g)) = N.even (encode F (with_sign false g)).
Proof.
  intros (Hm & He & Hx) C. pose proof (pow_pos2 (f_mw F) ltac:(lia)) as PM. pose proof (pow_pos2 (f_ew F) ltac:(lia)) as PE.
  assert (Hs : forall s, Z.even (sign_bit F s) = true) by (intros []; [apply even_pow; lia | reflexivity]).
  assert (Hs0 : forall s, 0 <= sign_bit F s) by (intros []; [apply Z.pow_nonneg; lia | unfold sign_bit; lia]).
  destruct g as [s'|s'| |s' m e]; cbn [with_sign]; unfold encode.
  - rewrite !even_to_N by apply Hs0. rewrite !Hs. reflexivity.
  - assert (0 <= (2 ^ f_ew F - 1) * 2 ^ f_mw F) by (apply Z.mul_nonneg_nonneg; lia).
    pose proof (Hs0 s). pose proof (Hs0 false). rewrite !even_to_N by lia. rewrite !Z.even_add, !Hs. reflexivity.
  - reflexivity.
  - destruct C as (Hr & Hu & Hc). pose proof (Hs0 s). pose proof (Hs0 false).
    destruct (Z.ltb_spec (Zpos m) (2 ^ f_mw F)) as [L | L].
    + rewrite !even_to_N by lia. rewrite !Z.even_add, !Hs. reflexivity.
    + assert (0 <= (e - emin (f_prec F) (f_emax F) + 1) * 2 ^ f_mw F) by (apply Z.mul_nonneg_nonneg; lia).
      rewrite !even_to_N by lia. rewrite !(Z.even_add (sign_bit F _)), !Hs. reflexivity.
Qed.

Lemma canon_sign F s g : canon F g -> canon F (with_sign s g).
Proof. destruct g; auto. Qed.

Definition opp (a : amount) : amount :=
  match a with Finite x => Finite (- x) | PlusInf => MinusInf | MinusInf => PlusInf | NotANumber => NotANumber end.

Lemma amount_sign g : negative g = false -> amount_of (with_sign true g) = opp (amount_of g).
Proof.
  destruct g as [[]|[]| |[] m e]; cbn [with_sign amount_of opp signed negative]; try discriminate; intros _; try reflexivity. f_equal. change (Zneg m) with (- Zpos m). lia.
Qed.

Lemma negative_sign s g : g <> S754_nan -> negative (with_sign s g) = s.
Proof. destruct g; cbn; congruence. Qed.

Lemma with_sign_same g : with_sign (negative g) g = g.
Proof. destruct g; reflexivity. Qed.

Lemma amount_nan f : amount_of f = NotANumber <-> f = S754_nan.
Proof. destruct f as [s|[]| |s m e]; cbn; split; congruence. Qed.

(** Rounding a number of units. *)
Lemma round_nearest F s mx ex : fits F -> -1074 <= ex ->
  let g := binary_round (f_prec F) (f_emax F) s mx ex in
  nearest F (signed s mx * 2 ^ (ex + 1074)) (encode F g) /\ canon F g /\ g <> S754_nan /\ negative g = s.
Proof.
  intros Hf Hex. cbv zeta. pose proof Hf as [G K].
  destruct (round_near F mx ex Hf Hex) as (C & Hn & H). rewrite round_sign.
  set (g := binary_round (f_prec F) (f_emax F) false mx ex) in *.
  assert (Nn : g <> S754_nan) by (intros E; rewrite E in H; exact H).
  assert (Nn' : with_sign s g <> S754_nan) by (destruct g; cbn; congruence).
  split; [|split; [apply canon_sign; exact C|split; [exact Nn' | apply negative_sign; exact Nn]]].
  unfold nearest. rewrite (decode_encode F _ G (canon_sign F s g C) Nn').
  set (X := Zpos mx * 2 ^ (ex + 1074)) in *.
  assert (PX : 0 < X) by (apply Z.mul_pos_pos; [lia | apply pow_pos2; lia]).
  destruct s; cbn [signed].
  - rewrite (amount_sign g Hn). change (Zneg mx) with (- Zpos mx). rewrite Z.mul_opp_l. fold X.
    destruct (amount_of g) as [y| | |] eqn:Ea; cbn [opp]; try contradiction.
    + destruct H as [Ho Hd]. split; [lia|]. intros h z _ Hz.
      assert (Ch : canon F (decode F h)) by (apply decode_canon; exact G).
      set (h' := with_sign (negb (negative (decode F h))) (decode F h)).
      assert (Az : amount_of h' = Finite (- z)).
      { unfold h'. destruct (decode F h) as [[]|[]| |[] m e]; cbn [amount_of with_sign negb negative signed] in Hz |- *; try discriminate; f_equal.
        all: match type of Hz with Finite ?a = Finite ?b => assert (Hz' : a = b) by congruence end; try change (Zneg m) with (- Zpos m) in *; lia. }
      destruct (Hd h' (- z) (canon_sign F _ _ Ch) Az) as [A B]. split; [lia|]. intros E.
      destruct B as [B | B]; [lia | left; lia|]. right.
      rewrite (encode_even_sign F true g G C). rewrite <- Hn, with_sign_same. exact B.
    + lia.
  - fold X. replace (with_sign false g) with g by (rewrite <- Hn; symmetry; apply with_sign_same).
    destruct (amount_of g) as [y| | |] eqn:Ea; try contradiction.
    + destruct H as [Ho Hd]. split; [lia|]. intros h z _ Hz. apply (Hd (decode F h) z); [apply decode_canon; exact G | exact Hz].
    + exact H.
Qed.

(** Zero is near zero. *)
Lemma zero_nearest F s : fits F -> nearest F 0 (encode F (S754_zero s)).
Proof.
  intros [G K]. unfold nearest. rewrite (decode_encode F (S754_zero s) G I ltac:(discriminate)). cbn [amount_of]. split.
  - destruct G as (Hm & He & Hx). unfold overflow. rewrite Z.abs_0. apply Z.mul_pos_pos; [|apply pow_pos2; lia].
    assert (2 ^ (f_emax F - f_prec F - 1) < 2 ^ f_emax F) by (apply Z.pow_lt_mono_r; unfold f_prec in *; lia). lia.
  - intros h z _ _. split; [lia|]. intros E. left. lia.
Qed.

Lemma small_exponent F b s m e : ieee_format F -> decode F b = S754_finite s m e -> -1074 <= e.
Proof.
  intros HF E. pose proof (ieee_fits F HF) as [G K]. pose proof (decode_canon F b G) as C. rewrite E in C. destruct C as [[L _] _]. lia.
Qed.

Lemma f64 : ieee_format binary64. Proof. right. reflexivity. Qed.
Lemma f32 : ieee_format binary32. Proof. left. reflexivity. Qed.

Lemma narrow_lemma b :
  (forall x, amount_of (decode binary64 b) = Finite x -> nearest binary32 x (narrow_fp ieee b)) /\
  ((forall x, amount_of (decode binary64 b) <> Finite x) ->
     amount_of (decode binary32 (narrow_fp ieee b)) = amount_of (decode binary64 b)) /\
  (nan_free binary64 b -> negative (decode binary32 (narrow_fp ieee b)) = negative (decode binary64 b)).
Proof.
  pose proof (ieee_fits binary32 f32) as Hf. pose proof Hf as [G K]. cbn [narrow_fp ieee].
  destruct (decode binary64 b) as [s|s| |s m e] eqn:E; unfold nan_free; rewrite E; cbn [convert].
  - split; [|split].
    + intros x H. cbn [amount_of] in H. assert (x = 0) by congruence. subst x. apply zero_nearest. exact Hf.
    + intros H. exfalso. apply (H 0). reflexivity.
    + intros _. rewrite decode_encode; [reflexivity | exact G | exact I | discriminate].
  - split; [|split].
    + intros x H. destruct s; discriminate H.
    + intros _. rewrite decode_encode; [reflexivity | exact G | exact I | discriminate].
    + intros _. rewrite decode_encode; [reflexivity | exact G | exact I | discriminate].
  - split; [|split].
    + intros x H. discriminate H.
    + intros _. vm_compute. reflexivity.
    + intros H. exfalso. apply H. reflexivity.
  - pose proof (small_exponent _ _ _ _ _ f64 E) as L. rewrite normalize_round.
    destruct (round_nearest binary32 s m e Hf L) as (N & C & Nn & Ns). split; [|split].
    + intros x H. cbn [amount_of] in H. assert (x = signed s m * 2 ^ (e + 1074)) by congruence. subst x. exact N.
    + intros H. exfalso. apply (H (signed s m * 2 ^ (e + 1074))). reflexivity.
    + intros _. rewrite (decode_encode _ _ G C Nn). exact Ns.
Qed.

Lemma of_int_lemma z : nearest binary64 (z * 2 ^ 1074) (of_int ieee z).
Proof.
  pose proof (ieee_fits binary64 f64) as Hf. cbn [of_int ieee]. unfold from_int. destruct z as [|p|p].
  - rewrite Z.mul_0_l. apply (zero_nearest binary64 false Hf).
  - exact (proj1 (round_nearest binary64 false p 0 Hf ltac:(lia))).
  - exact (proj1 (round_nearest binary64 true p 0 Hf ltac:(lia))).
Qed.

(** Every [float] is a [double]. *)
Lemma embed f : canon binary32 f -> exists g, canon binary64 g /\ amount_of g = amount_of f /\ negative g = negative f.
Proof.
  intros C. destruct f as [s|s| |s m e]; try (eexists; split; [|split; reflexivity]; exact I).
  destruct C as (Hr & Hu & _). cbn in Hr, Hu.
  assert (Hd : Zpos (digits2_pos m) <= 24) by (apply digits_bounds; [lia | exact Hu]).
  destruct (canon_exists binary64 m e (ieee_good _ f64)) as (m' & e' & C' & Le & Em).
  - cbn. lia.
  - cbn. lia.
  - change (f_emax binary64) with 1024. lia.
  - exists (S754_finite s m' e'). split; [apply C'|]. split; [|reflexivity]. cbn [amount_of]. f_equal. apply scale_signed. rewrite Em, <- Z.mul_assoc, <- Z.pow_add_r.
    + f_equal. f_equal. lia.
    + lia.
    + destruct (C' false) as [[L _] _]. cbn in L. lia.
Qed.

Lemma widen_lemma b : bits_of_format binary32 b -> nan_free binary32 b ->
  amount_of (decode binary64 (widen ieee b)) = amount_of (decode binary32 b) /\
  negative (decode binary64 (widen ieee b)) = negative (decode binary32 b) /\
  narrow_fp ieee (widen ieee b) = b.
Proof.
  intros Hb Hn. unfold nan_free in Hn. pose proof (ieee_fits binary64 f64) as [G6 K6]. pose proof (ieee_fits binary32 f32) as [G3 K3].
  pose proof (decode_canon binary32 b G3) as C. destruct (embed _ C) as (g & Cg & Ag & Ng).
  assert (Ec : convert binary64 (decode binary32 b) = g).
  { apply convert_exact; [split; assumption | exact Cg | | congruence | congruence].
    destruct (decode binary32 b) eqn:E; try exact I. apply (small_exponent _ _ _ _ _ f32 E). }
  assert (Nn : g <> S754_nan) by (intros E; apply Hn; rewrite <- Ag, E; reflexivity).
  cbn [widen narrow_fp ieee]. rewrite Ec, (decode_encode _ _ G6 Cg Nn). split; [exact Ag|]. split; [exact Ng|].
  assert (Eb : convert binary32 g = decode binary32 b).
  { apply convert_exact; [split; assumption | exact C | | exact Ag | exact Ng].
    destruct g; try exact I. destruct Cg as [[L _] _]. lia. }
  rewrite Eb. apply encode_decode; [exact f32 | exact Hb | exact Hn].
Qed.

(** Integers up to 2^prec are numbers of the format. *)
Lemma int_exact F z : ieee_format F -> - 2 ^ f_prec F <= z <= 2 ^ f_prec F ->
  exists g, from_int F z = g /\ canon F g /\ g <> S754_nan /\ amount_of g = integer z /\ negative g = (z <? 0).
Proof.
  intros HF Hz. pose proof (ieee_fits F HF) as Hf. pose proof Hf as [G K]. pose proof G as (Hm & Hw & Hx).
  assert (Hb : emin (f_prec F) (f_emax F) <= 0 /\ 0 < f_prec F /\ f_prec F + f_prec F <= f_emax F).
  { destruct HF as [-> | ->]; cbn; lia. }
  assert (W : exists g, canon F g /\ g <> S754_nan /\ amount_of g = integer z /\ negative g = (z <? 0)).
  { destruct (Z.eq_dec z 0) as [-> | Nz].
    { exists (S754_zero false). repeat split; try discriminate. }
    assert (H : exists s m e, 0 <= e <= f_prec F /\ Zpos (digits2_pos m) <= f_prec F /\ z = signed s m * 2 ^ e /\ s = (z <? 0)).
    { destruct (Z.eq_dec (Z.abs z) (2 ^ f_prec F)) as [Ea | Na].
      - destruct (Z.ltb_spec z 0).
        + exists true, 1%positive, (f_prec F). cbn [signed digits2_pos]. repeat split; lia.
        + exists false, 1%positive, (f_prec F). cbn [signed digits2_pos]. repeat split; lia.
      - destruct z as [|p|p]; [lia| |].
        + exists false, p, 0. cbn [signed]. repeat split; try lia. apply digits_bounds; lia.
        + exists true, p, 0. cbn [signed]. repeat split; try lia. apply digits_bounds; lia. }
    destruct H as (s & m & e & He & Hd & Ez & Es).
    destruct (canon_exists F m e G) as (m' & e' & C' & Le & Em); [lia | lia | lia |].
    exists (S754_finite s m' e'). destruct (C' s) as [[L _] _]. split; [apply C'|]. split; [discriminate|]. split.
    - cbn [amount_of]. unfold integer. f_equal. rewrite Ez. rewrite <- Z.mul_assoc, <- Z.pow_add_r by lia. apply scale_signed.
      rewrite Em, <- Z.mul_assoc, <- Z.pow_add_r by lia. f_equal. f_equal. lia.
    - exact Es. }
  destruct W as (g & Cg & Nn & Ag & Ng). exists g. split; [|auto].
  apply from_int_exact; [exact Hf | exact Cg | exact Ag|]. intros ->. exact Ng.
Qed.

Lemma of_int_exact_lemma z : - 2 ^ 53 <= z <= 2 ^ 53 -> amount_of (decode binary64 (of_int ieee z)) = integer z.
Proof.
  intros Hz. destruct (int_exact binary64 z f64 Hz) as (g & E & C & Nn & Ag & _). cbn [of_int ieee].
  rewrite E, (decode_encode _ _ (ieee_good _ f64) C Nn). exact Ag.
Qed.

Lemma float_survives_lemma b : bits_of_format binary32 b -> nan_free binary32 b -> flt_survives (Json ieee) b.
Proof. intros Hb Hn. exact (proj2 (proj2 (widen_lemma b Hb Hn))). Qed.

(* ------------------------------------------------------------------ *)
(** ** Comparison *)

Lemma scaled_lt F s m e s' n d : fits F -> canon F (S754_finite s m e) -> canon F (S754_finite s' n d) -> e < d ->
  Zpos m * 2 ^ (e + 1074) < Zpos n * 2 ^ (d + 1074).
Proof.
  intros [(Hm & Hw & Hx) K] (Hr & Hu & Hc) (Hr' & Hu' & Hc') L.
  assert (P2 : 2 ^ f_prec F = 2 * 2 ^ f_mw F) by (unfold f_prec; rewrite Z.pow_add_r by lia; lia).
  pose proof (pow_pos2 (e + 1074) ltac:(lia)) as Pe.
  replace (d + 1074) with (d - e - 1 + Z.succ (e + 1074)) by lia. rewrite (Z.pow_add_r 2 (d - e - 1)), Z.pow_succ_r by lia. set (U := 2 ^ (e + 1074)) in *.
  assert (1 <= 2 ^ (d - e - 1)) by (pose proof (pow_pos2 (d - e - 1) ltac:(lia)); lia).
  assert (Zpos m * U < 2 ^ f_prec F * U) by (apply Z.mul_lt_mono_pos_r; lia).
  assert (2 ^ f_mw F * (2 * U) <= Zpos n * (2 * U)) by (apply Z.mul_le_mono_nonneg_r; lia).
  assert (Zpos n * (2 * U) <= Zpos n * (2 ^ (d - e - 1) * (2 * U))).
  { apply Z.mul_le_mono_nonneg_l; [lia|]. assert (1 * (2 * U) <= 2 ^ (d - e - 1) * (2 * U)) by (apply Z.mul_le_mono_nonneg_r; lia). lia. }
  lia.
Qed.

Lemma pos_compare m n : Pos.compare_cont Eq m n = Z.compare (Zpos m) (Zpos n).
Proof. reflexivity. Qed.

Lemma ltb_lemma F f g : fits F -> canon F f -> canon F g -> SFltb f g = true <-> less (amount_of f) (amount_of g).
Proof.
  intros Hf C D. pose proof Hf as [_ K]. unfold SFltb.
  destruct f as [s|s| |s m e], g as [s'|s'| |s' n d]; cbn [SFcompare amount_of].
  all: try (destruct s; cbn; split; (discriminate || tauto || lia)).
  all: try (destruct s'; cbn; split; (discriminate || tauto || lia)).
  all: try (cbn; split; (discriminate || tauto || lia)).
  - destruct D as [[L _] _]. pose proof (pow_pos2 (d + 1074) ltac:(lia)) as P. destruct s'; cbn [less signed].
    + assert (Zneg n * 2 ^ (d + 1074) < 0) by (apply Z.mul_neg_pos; lia). split; [discriminate | lia].
    + assert (0 < Zpos n * 2 ^ (d + 1074)) by (apply Z.mul_pos_pos; lia). split; [lia | reflexivity].
  - destruct s, s'; cbn; split; (discriminate || tauto).
  - destruct C as [[L _] _]. pose proof (pow_pos2 (e + 1074) ltac:(lia)) as P. destruct s; cbn [less signed].
    + assert (Zneg m * 2 ^ (e + 1074) < 0) by (apply Z.mul_neg_pos; lia). split; [lia | reflexivity].
    + assert (0 < Zpos m * 2 ^ (e + 1074)) by (apply Z.mul_pos_pos; lia). split; [discriminate | lia].
  - pose proof (scaled_lt F s m e s' n d Hf C D) as H1. pose proof (scaled_lt F s' n d s m e Hf D C) as H2.
    destruct C as [[L _] _]. destruct D as [[L' _] _].
    pose proof (pow_pos2 (e + 1074) ltac:(lia)) as P. pose proof (pow_pos2 (d + 1074) ltac:(lia)) as P'.
    assert (Q : 0 < Zpos m * 2 ^ (e + 1074)) by (apply Z.mul_pos_pos; lia).
    assert (Q' : 0 < Zpos n * 2 ^ (d + 1074)) by (apply Z.mul_pos_pos; lia).
    destruct s, s'; cbn [less signed]; try (change (Zneg m) with (- Zpos m)); try (change (Zneg n) with (- Zpos n)); rewrite ?Z.mul_opp_l.
    + destruct (Z.compare_spec e d) as [-> | Lt | Gt].
      * change (Pcompare m n Eq) with (Z.compare (Zpos m) (Zpos n)). destruct (Z.compare_spec (Zpos m) (Zpos n)) as [-> | Lt | Gt]; cbn [CompOpp].
        -- split; [discriminate | lia].
        -- split; [discriminate|]. assert (Zpos m * 2 ^ (d + 1074) < Zpos n * 2 ^ (d + 1074)) by (apply Z.mul_lt_mono_pos_r; lia). lia.
        -- split; [|reflexivity]. assert (Zpos n * 2 ^ (d + 1074) < Zpos m * 2 ^ (d + 1074)) by (apply Z.mul_lt_mono_pos_r; lia). lia.
      * specialize (H1 Lt). split; [discriminate | lia].
      * specialize (H2 Gt). split; [lia | reflexivity].
    + split; [lia | reflexivity].
    + split; [discriminate | lia].
    + destruct (Z.compare_spec e d) as [-> | Lt | Gt].
      * change (Pcompare m n Eq) with (Z.compare (Zpos m) (Zpos n)). destruct (Z.compare_spec (Zpos m) (Zpos n)) as [-> | Lt | Gt]; cbn [CompOpp].
        -- split; [discriminate | lia].
        -- split; [|reflexivity]. assert (Zpos m * 2 ^ (d + 1074) < Zpos n * 2 ^ (d + 1074)) by (apply Z.mul_lt_mono_pos_r; lia). lia.
        -- split; [discriminate|]. assert (Zpos n * 2 ^ (d + 1074) < Zpos m * 2 ^ (d + 1074)) by (apply Z.mul_lt_mono_pos_r; lia). lia.
      * specialize (H1 Lt). split; [lia | reflexivity].
      * specialize (H2 Gt). split; [discriminate | lia].
Qed.

Lemma bits_mean_lemma F (s : bool) e m : ieee_format F -> 0 <= e < 2 ^ f_ew F -> 0 <= m < 2 ^ f_mw F ->
  decode F (Z.to_N ((if s then 2 ^ (f_mw F + f_ew F) else 0) + e * 2 ^ f_mw F + m)) = 
  decode F (Z.to_N (sign_bit F s + e * 2 ^ f_mw F + m)) /\
  negative (decode F (Z.to_N (sign_bit F s + e * 2 ^ f_mw F + m))) = (if (e =? 2 ^ f_ew F - 1) && negb (m =? 0) then false else s) /\
  amount_of (decode F (Z.to_N (sign_bit F s + e * 2 ^ f_mw F + m))) =
  if e =? 2 ^ f_ew F - 1 then if m =? 0 then if s then MinusInf else PlusInf else NotANumber
  else Finite ((if s then -1 else 1) * (if e =? 0 then m else (2 ^ f_mw F + m) * 2 ^ (e - 1)) *
               2 ^ (1074 - (2 ^ (f_ew F - 1) + f_mw F - 2))).
Proof.
  intros HF Be Bm. pose proof (ieee_fits F HF) as [G K]. pose proof G as (Hm & He & Hx). split; [reflexivity|].
  pose proof (pow_pos2 (f_mw F) ltac:(lia)) as PM.
  destruct (bit_parts F s e m G Be Bm) as (K1 & K2 & K3). unfold decode. rewrite K1, K2, K3. clear K1 K2 K3.
  assert (E2 : 4 <= 2 ^ f_ew F) by (destruct HF as [-> | ->]; vm_compute; discriminate).
  assert (Ee : emin (f_prec F) (f_emax F) + 1074 = 1074 - (2 ^ (f_ew F - 1) + f_mw F - 2)) by (unfold emin, f_prec, f_emax; lia).
  rewrite <- Ee. set (u := emin (f_prec F) (f_emax F)) in *. clearbody u. clear Ee.
  destruct (Z.eqb_spec e (2 ^ f_ew F - 1)) as [E1 | N1].
  - destruct (Z.eqb_spec e 0); [lia|]. destruct (m =? 0); destruct s; split; reflexivity.
  - destruct (Z.eqb_spec e 0) as [E0 | N0].
    + destruct m as [|p|p]; cbn [negative amount_of andb]; [split; [reflexivity | f_equal; lia] | | lia].
      split; [reflexivity|]. f_equal. unfold signed. destruct s; [change (Zneg p) with (- Zpos p)|]; ring.
    + destruct (m + 2 ^ f_mw F) as [|p|p] eqn:Ep; [lia | | lia]. cbn [negative amount_of andb]. split; [reflexivity|]. f_equal.
      replace (2 ^ f_mw F + m) with (Zpos p) by lia. replace (e + u - 1 + 1074) with (e - 1 + (u + 1074)) by lia.
      rewrite (Z.pow_add_r 2 (e - 1) (u + 1074)) by lia. unfold signed. destruct s; [change (Zneg p) with (- Zpos p)|]; ring.
Qed.
