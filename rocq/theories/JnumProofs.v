(** How numerals are read. *)
From Coq Require Import List ZArith NArith Bool SpecFloat Lia.
From Verif Require Import Base ScalarModel ScalarSpec SerialModel FloatModel FloatSpec FloatProofs FloatRoundProofs FloatMainProofs
  JtextModel JtextSpec JtextNumProofs JnumModel JnumSpec JnumRoundProofs JnumArithProofs.
Import ListNotations.
Local Open Scope list_scope.
Local Open Scope Z_scope.

Local Notation str := (list N) (only parsing).

(* ------------------------------------------------------------------ every numeral *)

Lemma dint_unsigned_N i : unsigned_dbl (dint (Z.of_N i)).
Proof. apply dint_unsigned. lia. Qed.

Lemma int_more_unsigned s : forall d, unsigned_dbl d -> unsigned_dbl (fst (int_more d s)).
Proof.
  induction s as [|c s IH]; intros d Hd; cbn [int_more fst]; [exact Hd|]. destruct (is_digit c); [|exact Hd].
  apply IH, dadd_unsigned; [apply dmul_unsigned; [exact Hd|apply ten_positive]|]. apply dint_unsigned. unfold digit_of. lia.
Qed.

Lemma frac_more_unsigned s : forall d sd ef, unsigned_dbl d -> unsigned_dbl (fst (fst (frac_more d sd ef s))) /\ snd (fst (frac_more d sd ef s)) <= ef.
Proof.
  induction s as [|c s IH]; intros d sd ef Hd; cbn [frac_more fst snd]; [split; [exact Hd|lia]|].
  destruct (is_digit c); [|cbn [fst snd]; split; [exact Hd|lia]]. destruct (sd <? 17); [|apply IH; exact Hd].
  match goal with |- context [frac_more ?d' ?sd' ?ef' s] => pose proof (IH d' sd' ef') as [I1 I2] end.
  - apply dadd_unsigned; [apply dmul_unsigned; [exact Hd|apply ten_positive]|]. apply dint_unsigned. unfold digit_of. lia.
  - split; [exact I1|lia].
Qed.

Lemma frac_exact_le s : forall i sd ef, snd (fst (frac_exact i sd ef s)) <= ef.
Proof.
  induction s as [|c s IH]; intros i sd ef; cbn [frac_exact fst snd]; [lia|].
  destruct (is_digit c); [|cbn; lia]. destruct (N.ltb (2 ^ 53 - 1) i); [cbn; lia|].
  match goal with |- context [frac_exact ?a ?b ?c s] => specialize (IH a b c) end. lia.
Qed.

Lemma significand_unsigned minus s : unsigned_dbl (fst (fst (significand minus s))) /\ snd (fst (significand minus s)) <= 0.
Proof.
  unfold significand. destruct (int_start minus s) as [[i sd] s1]. destruct (at_digit s1).
  - pose proof (int_more_unsigned s1 (dint (Z.of_N i)) (dint_unsigned_N _)) as H1. destruct (int_more (dint (Z.of_N i)) s1) as [d s2].
    cbn [fst] in H1. destruct (N.eqb (peek s2) 46); [apply frac_more_unsigned; exact H1|]. split; [exact H1|cbn; lia].
  - destruct (N.eqb (peek s1) 46); [|split; [apply dint_unsigned; lia|cbn; lia]].
    pose proof (frac_exact_le (tl s1) i sd 0) as H2. destruct (frac_exact i sd 0 (tl s1)) as [[[i' sd'] ef] s2]. cbn [fst snd] in H2.
    pose proof (frac_more_unsigned s2 (dint (Z.of_N i')) sd' ef (dint_unsigned_N _)) as [I1 I2]. split; [exact I1|lia].
Qed.

Lemma exp_pos_le s : forall max e x, exp_pos max e s = Some x -> x <= Z.max max e.
Proof.
  induction s as [|c s IH]; intros max e x; cbn [exp_pos]; [intros [= <-]; lia|].
  destruct (is_digit c); [|intros [= <-]; lia]. destruct (Z.ltb_spec max (e * 10 + digit_of c)); [discriminate|].
  intros H1. apply IH in H1. lia.
Qed.

Lemma exp_neg_ge s : forall max e, 0 <= e -> 0 <= exp_neg max e s.
Proof.
  induction s as [|c s IH]; intros max e He; cbn [exp_neg]; [lia|]. assert (0 <= digit_of c) by (unfold digit_of; lia).
  destruct (is_digit c); [|lia]. destruct (max <? e * 10 + digit_of c); [lia|]. apply IH. lia.
Qed.

(** The character after the [e] and the sign is a digit. *)
Lemma exp_part_le ef s x : ef <= 0 ->
  (N.eqb (peek s) 101 || N.eqb (peek s) 69 = true -> exists e sign ds, s = e :: sign ++ ds /\ (sign = [] \/ sign = [43%N] \/ sign = [45%N]) /\ digits ds) ->
  exp_part ef s = Some x -> x + ef <= 308.
Proof.
  intros Hef Hs. unfold exp_part. destruct (N.eqb (peek s) 101 || N.eqb (peek s) 69); [|intros [= <-]; lia].
  destruct (Hs eq_refl) as (e & sign & ds & -> & Hsign & Hn & Hd). cbn [tl].
  destruct ds as [|c ds]; [contradiction|]. inversion Hd as [|? ? Hc Hd']; subst.
  assert (Hc9 : 0 <= digit_of c <= 9) by (unfold digit_of; lia).
  destruct Hsign as [-> | [-> | ->]]; cbn [app peek tl].
  - destruct (N.eqb_spec c 45) as [->|_]; [lia|]. cbn [orb]. destruct (N.eqb_spec c 43) as [->|_]; [lia|]. cbn [peek tl].
    intros H. apply exp_pos_le in H. lia.
  - cbn [N.eqb Pos.eqb orb peek tl]. intros H. apply exp_pos_le in H. lia.
  - cbn [N.eqb Pos.eqb orb peek tl]. intros [= <-]. pose proof (exp_neg_ge ds (Z.quot (ef + 2147483639) 10) (digit_of c) ltac:(lia)). lia.
Qed.

(* ------------------------------------------------------------------ the sign *)

Lemma opp_with_sign g : negative g = false -> SFopp g = with_sign true g.
Proof. destruct g as [[]|[]| |[] m e]; cbn; congruence. Qed.

Lemma near_nearest A B g (neg : bool) : 0 <= A -> 0 < B -> near_ratio binary64 A B g ->
  nearest_ratio binary64 (if neg then - A else A) B (encode binary64 (if neg then SFopp g else g)) /\
  negative (decode binary64 (encode binary64 (if neg then SFopp g else g))) = neg.
Proof.
  intros HA HB (C & Hn & H). pose proof good64 as G. pose proof fits64 as Hf.
  assert (Nn : g <> S754_nan) by (intros E; rewrite E in H; exact H).
  assert (Nn' : forall s, with_sign s g <> S754_nan) by (intros s; destruct g; cbn; congruence).
  assert (E1 : (if neg then SFopp g else g) = with_sign neg g).
  { destruct neg; [apply opp_with_sign; exact Hn|]. rewrite <- Hn. symmetry. apply with_sign_same. }
  rewrite E1. unfold nearest_ratio. rewrite (decode_encode binary64 _ G (canon_sign binary64 neg g C) (Nn' neg)).
  split; [|apply negative_sign; exact Nn].
  assert (PO : 0 < overflow binary64). { destruct (zero_nearest binary64 false Hf) as [P _]; lia. }
  destruct neg.
  - rewrite (amount_sign g Hn). destruct (amount_of g) as [y| | |] eqn:Ea; cbn [opp]; try contradiction.
    + destruct H as [Ho Hd]. split; [lia|]. intros h z _ Hz.
      assert (Ch : canon binary64 (decode binary64 h)) by (apply decode_canon; exact G).
      set (h' := with_sign (negb (negative (decode binary64 h))) (decode binary64 h)).
      assert (Az : amount_of h' = Finite (- z)).
      { unfold h'. destruct (decode binary64 h) as [[]|[]| |[] m e]; cbn [amount_of with_sign negb negative signed] in Hz |- *; try discriminate; f_equal.
        all: match type of Hz with Finite ?a = Finite ?b => assert (Hz' : a = b) by congruence end; try change (Zneg m) with (- Zpos m) in *; lia. }
      destruct (Hd h' (- z) (canon_sign binary64 _ _ Ch) Az) as [D1 D2].
      replace (- A - - y * B) with (- (A - y * B)) by ring. replace (- A - z * B) with (- (A - - z * B)) by ring. rewrite !Z.abs_opp.
      split; [exact D1|]. intros E. destruct (D2 E) as [D|D]; [left; lia|]. right.
      rewrite (encode_even_sign binary64 true g G C). rewrite <- Hn, with_sign_same. exact D.
    + lia.
  - replace (with_sign false g) with g by (rewrite <- Hn; symmetry; apply with_sign_same).
    destruct (amount_of g) as [y| | |] eqn:Ea; try contradiction.
    + destruct H as [Ho Hd]. split; [lia|]. intros h z _ Hz. apply (Hd (decode binary64 h) z); [apply decode_canon; exact G | exact Hz].
    + exact H.
Qed.

(* ------------------------------------------------------------------ few digits, small exponents *)

Lemma dint_exact z : 0 < z <= 2 ^ 53 -> exists m e, dint z = S754_finite false m e /\ canon binary64 (dint z) /\ Zpos m * 2 ^ (e + 1074) = z * 2 ^ 1074.
Proof.
  intros Hz. destruct (int_exact binary64 z f64) as (g & E & C & Nn & Ag & Ng); [change (f_prec binary64) with 53; lia|].
  unfold dint. rewrite E in *. destruct (Z.ltb_spec z 0) in Ng; [lia|]. unfold integer in Ag.
  assert (Pz : 0 < z * 2 ^ 1074) by (apply Z.mul_pos_pos; [lia|apply pow_pos2; lia]).
  destruct g as [[]|[]| |[] m e]; cbn [amount_of signed] in Ag; try discriminate; try contradiction; try (assert (0 = z * 2 ^ 1074) by congruence; lia).
  exists m, e. split; [reflexivity|]. split; [exact C|]. congruence.
Qed.

Definition same_amount (f : spec_float) (z : Z) : bool :=
  match f with S754_finite false m e => (Zpos m * 2 ^ (e + 1074) =? z * 2 ^ 1074) | _ => false end.
Lemma checked_exact : forallb (fun n => same_amount (dint (10 ^ Z.of_nat n)) (10 ^ Z.of_nat n)) (seq 0 23) = true.
Proof. vm_compute. reflexivity. Qed.
Lemma pow10_exact n : 0 <= n <= 22 -> exists m e, dint (10 ^ n) = S754_finite false m e /\ canon binary64 (dint (10 ^ n)) /\ Zpos m * 2 ^ (e + 1074) = 10 ^ n * 2 ^ 1074.
Proof.
  intros H. pose proof checked_exact as Hc. rewrite forallb_forall in Hc.
  specialize (Hc (Z.to_nat n) (in_seq_Z n 23 ltac:(lia))). cbv beta in Hc. rewrite Z2Nat.id in Hc by lia.
  destruct (dint_unsigned (10 ^ n)) as (C & _); [apply Z.pow_nonneg; lia|].
  destruct (dint (10 ^ n)) as [[]|[]| |[] m e]; try discriminate. exists m, e. split; [reflexivity|]. split; [exact C|]. apply Z.eqb_eq. exact Hc.
Qed.

Lemma zero_near B : 0 < B -> near_ratio binary64 0 B (S754_zero false).
Proof.
  intros HB. split; [exact I|]. split; [reflexivity|]. cbn [amount_of]. split.
  - destruct (zero_nearest binary64 false fits64) as [P _]. rewrite Z.abs_0 in P. apply Z.mul_pos_pos; lia.
  - intros h z _ _. split; [lia|]. intros E. left. apply (Z.mul_reg_r _ _ B); lia.
Qed.

Lemma strtod_near z p : 0 <= z <= 2 ^ 53 -> -22 <= p <= 22 -> exists d, strtod_normal (dint z) p = Ok d /\
  near_ratio binary64 (z * 10 ^ Z.max p 0 * 2 ^ 1074) (10 ^ Z.max (- p) 0) d.
Proof.
  intros Hz Hp. unfold strtod_normal, fast_path. destruct (Z.ltb_spec p (-308)); [lia|].
  destruct (Z.leb_spec 0 p); rewrite pow10_ok by lia; cbn [obind]; eexists; (split; [reflexivity|]).
  - rewrite (Z.max_l p 0), (Z.max_r (- p) 0) by lia. change (10 ^ 0) with 1. destruct (pow10_exact p ltac:(lia)) as (my & ey & Ey & Cy & Ay).
    destruct (Z.eq_dec z 0) as [-> | Nz].
    + rewrite !Z.mul_0_l. rewrite Ey. apply zero_near. lia.
    + destruct (dint_exact z ltac:(lia)) as (mx & ex & Ex & Cx & Ax). rewrite Ex, Ey in *. apply mul_near; [apply fits64|exact Cx|exact Cy|lia|].
      rewrite Ax, Ay. ring.
  - rewrite (Z.max_r p 0), (Z.max_l (- p) 0) by lia. change (10 ^ 0) with 1. destruct (pow10_exact (- p) ltac:(lia)) as (my & ey & Ey & Cy & Ay).
    assert (PB : 0 < 10 ^ (- p)) by (apply Z.pow_pos_nonneg; lia).
    destruct (Z.eq_dec z 0) as [-> | Nz].
    + rewrite !Z.mul_0_l. rewrite Ey. apply zero_near. exact PB.
    + destruct (dint_exact z ltac:(lia)) as (mx & ex & Ex & Cx & Ax). rewrite Ex, Ey in *. apply div_near; [apply fits64|exact Cx|exact Cy|exact PB|].
      rewrite Ax, Ay. ring.
Qed.

(** The parts of a numeral. *)
Lemma no_digit_nil : no_digit [].
Proof. reflexivity. Qed.

Lemma int_start_fits minus body r : dig body -> body <> [] -> (forall s', body = 48%N :: s' -> s' = []) -> no_digit r -> (dec body 0 < 2 ^ 53)%N ->
  exists sd, int_start minus (body ++ r) = (dec body 0, sd, r).
Proof.
  intros Hd Hne Hl Hr Hb. destruct body as [|c body]; [contradiction|]. inversion Hd as [|? ? Hc Hd']; subst. unfold int_start. cbn [app peek tl].
  destruct (N.eqb_spec c 48) as [->|Nc].
  - rewrite (Hl body eq_refl). cbn. eauto.
  - cbn [dec fold_left] in Hb. fold (dec body (0 * 10 + (c - 48))) in Hb. replace (0 * 10 + (c - 48))%N with (c - 48)%N in Hb by lia.
    cbn [dec fold_left]. fold (dec body (0 * 10 + (c - 48))). replace (0 * 10 + (c - 48))%N with (c - 48)%N by lia.
    assert (B53 : (2 ^ 53 = 9007199254740992)%N) by reflexivity.
    assert (Loop : forall lim last, (48 <= last <= 57)%N -> (c - 48 <= lim * 10 + (last - 48))%N ->
      exists p1 p2, body = p1 ++ p2 /\ int_loop lim last (c - 48) (body ++ r) = (dec p1 (c - 48), p2 ++ r) /\ (p2 = [] -> dec p1 (c - 48) = dec body (c - 48))).
    { intros lim last Hla Hi. destruct (N.le_gt_cases (dec body (c - 48)) (lim * 10 + (last - 48))) as [L|L].
      - exists body, []. rewrite app_nil_r. split; [reflexivity|]. split; [apply int_loop_fits; auto|reflexivity].
      - destruct (int_loop_stops lim last body Hla Hd' (c - 48)%N r Hr Hi L) as (p1 & p2 & -> & Hn2 & _ & El). exists p1, p2. split; [reflexivity|]. split; [exact El|]. intros ->. contradiction. }
    assert (Finish : forall p1 p2 lim last, body = p1 ++ p2 -> (48 <= last <= 57)%N -> (9007199254740992 <= lim * 10)%N ->
      int_loop lim last (dec p1 (c - 48)) (p2 ++ r) = (dec body (c - 48), r)).
    { intros p1 p2 lim last -> Hla Hlim. rewrite dec_app in *. apply int_loop_fits; auto; [|lia]. unfold dig in Hd'. apply Forall_app in Hd'. tauto. }
    destruct minus.
    + destruct (Loop 214748364%N 56%N ltac:(lia) ltac:(lia)) as (p1 & p2 & Eb & -> & _).
      assert (E2 : (if at_digit (p2 ++ r) then int_loop 922337203685477580 56 (dec p1 (c - 48)) (p2 ++ r) else (dec p1 (c - 48), p2 ++ r)) = (dec body (c - 48), r)).
      { destruct (at_digit (p2 ++ r)) eqn:Ea; [apply Finish; [exact Eb|lia|lia]|]. destruct p2 as [|c2 p2].
        - rewrite app_nil_r in Eb. subst. reflexivity.
        - exfalso. subst body. apply Forall_app in Hd'. destruct Hd' as [_ Hd']. rewrite at_digit_app in Ea; [discriminate|exact Hd'|discriminate]. }
      rewrite E2. eauto.
    + destruct (Loop 429496729%N 53%N ltac:(lia) ltac:(lia)) as (p1 & p2 & Eb & -> & _).
      assert (E2 : (if at_digit (p2 ++ r) then int_loop 1844674407370955161 53 (dec p1 (c - 48)) (p2 ++ r) else (dec p1 (c - 48), p2 ++ r)) = (dec body (c - 48), r)).
      { destruct (at_digit (p2 ++ r)) eqn:Ea; [apply Finish; [exact Eb|lia|lia]|]. destruct p2 as [|c2 p2].
        - rewrite app_nil_r in Eb. subst. reflexivity.
        - exfalso. subst body. apply Forall_app in Hd'. destruct Hd' as [_ Hd']. rewrite at_digit_app in Ea; [discriminate|exact Hd'|discriminate]. }
      rewrite E2. eauto.
Qed.

Lemma frac_exact_fits fd : dig fd -> forall i sd ef r, no_digit r -> (dec fd i < 2 ^ 53)%N ->
  exists sd', frac_exact i sd ef (fd ++ r) = (dec fd i, sd', ef - Z.of_nat (length fd), r).
Proof.
  induction 1 as [|c fd Hc Hd IH]; intros i sd ef r Hr Hb; cbn [app frac_exact length].
  - exists sd. rewrite Z.sub_0_r. destruct r as [|c r]; [reflexivity|]. cbn [dec fold_left frac_exact]. unfold no_digit, at_digit in Hr. cbn in Hr. now rewrite Hr.
  - rewrite (proj2 (is_digit_iff c) Hc). cbn [dec fold_left] in *. fold (dec fd (i * 10 + (c - 48))) in *.
    pose proof (dec_ge fd (i * 10 + (c - 48))). destruct (N.ltb_spec (2 ^ 53 - 1) i) as [L|L]; [lia|].
    match goal with |- context [frac_exact _ ?b ?e (fd ++ r)] => destruct (IH (i * 10 + (c - 48))%N b e r Hr Hb) as (sd' & E) end.
    exists sd'. rewrite E. replace (ef - Z.of_nat (S (length fd))) with (ef - 1 - Z.of_nat (length fd)) by lia. reflexivity.
Qed.

Lemma frac_more_none d sd ef r : no_digit r -> frac_more d sd ef r = (d, ef, r).
Proof. intros Hr. destruct r as [|c r]; [reflexivity|]. cbn. unfold no_digit, at_digit in Hr. cbn in Hr. now rewrite Hr. Qed.

Lemma exp_pos_fits ds : dig ds -> forall max e, 0 <= e -> Z.of_N (dec ds (Z.to_N e)) <= max -> exp_pos max e ds = Some (Z.of_N (dec ds (Z.to_N e))).
Proof.
  induction 1 as [|c ds Hc Hd IH]; intros max e He Hm; cbn [exp_pos]; [cbn [dec fold_left]; f_equal; lia|].
  rewrite (proj2 (is_digit_iff c) Hc). cbn [dec fold_left] in *. fold (dec ds (Z.to_N e * 10 + (c - 48))) in *.
  assert (D : (Z.to_N e * 10 + (c - 48) = Z.to_N (e * 10 + digit_of c))%N) by (unfold digit_of; lia). rewrite D in *.
  pose proof (dec_ge ds (Z.to_N (e * 10 + digit_of c))). assert (0 <= digit_of c) by (unfold digit_of; lia).
  destruct (Z.ltb_spec max (e * 10 + digit_of c)); [lia|]. apply IH; lia.
Qed.
Lemma exp_neg_fits ds : dig ds -> forall max e, 0 <= e -> Z.of_N (dec ds (Z.to_N e)) <= max -> exp_neg max e ds = Z.of_N (dec ds (Z.to_N e)).
Proof.
  induction 1 as [|c ds Hc Hd IH]; intros max e He Hm; cbn [exp_neg]; [cbn [dec fold_left]; lia|].
  rewrite (proj2 (is_digit_iff c) Hc). cbn [dec fold_left] in *. fold (dec ds (Z.to_N e * 10 + (c - 48))) in *.
  assert (D : (Z.to_N e * 10 + (c - 48) = Z.to_N (e * 10 + digit_of c))%N) by (unfold digit_of; lia). rewrite D in *.
  pose proof (dec_ge ds (Z.to_N (e * 10 + digit_of c))). assert (0 <= digit_of c) by (unfold digit_of; lia).
  destruct (Z.ltb_spec max (e * 10 + digit_of c)); [lia|]. apply IH; lia.
Qed.
