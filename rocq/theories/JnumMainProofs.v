(** The theorems about reading numerals. *)
From Coq Require Import String List ZArith NArith Bool SpecFloat Lia.
From Verif Require Import Base EnumModel ScalarModel ScalarSpec SerialModel SerialSpec FloatModel FloatSpec FloatProofs FloatRoundProofs FloatMainProofs
  JtextModel JtextSpec JtextNumProofs JnumModel JnumSpec JnumRoundProofs JnumArithProofs JnumProofs.
Import ListNotations.
Local Open Scope list_scope.
Local Open Scope Z_scope.

Local Notation str := (list N) (only parsing).

Lemma exponent_no_digit e : exponent_text e -> no_digit e /\ N.eqb (peek e) 46 = false.
Proof. intros [-> | (c & sign & ds & -> & Hc & _)]; [split; reflexivity|]. destruct Hc as [-> | ->]; split; reflexivity. Qed.

Lemma exponent_shape e : exponent_text e -> N.eqb (peek e) 101 || N.eqb (peek e) 69 = true ->
  exists c sign ds, e = c :: sign ++ ds /\ (sign = [] \/ sign = [43%N] \/ sign = [45%N]) /\ digits ds.
Proof. intros [-> | (c & sign & ds & -> & _ & Hs & Hd)]; [discriminate|]. intros _. exists c, sign, ds. auto. Qed.

Lemma fraction_no_digit f fd e : f = [] /\ fd = [] \/ f = 46%N :: fd /\ digits fd -> exponent_text e -> no_digit (f ++ e).
Proof. intros [[-> _] | [-> _]] He; [exact (proj1 (exponent_no_digit e He))|reflexivity]. Qed.

(** Rests of the loops. *)
Lemma int_loop_rest lim last p : dig p -> forall i r, no_digit r -> exists p1 p2, p = p1 ++ p2 /\ snd (int_loop lim last i (p ++ r)) = p2 ++ r.
Proof.
  induction 1 as [|c p Hc Hp IH]; intros i r Hr; cbn [app int_loop].
  - exists [], []. split; [reflexivity|]. destruct r as [|c r]; [reflexivity|]. cbn. unfold no_digit, at_digit in Hr. cbn in Hr. now rewrite Hr.
  - rewrite (proj2 (is_digit_iff c) Hc). destruct (_ && _).
    + exists [], (c :: p). split; reflexivity.
    + destruct (IH (i * 10 + (c - 48))%N r Hr) as (p1 & p2 & -> & E). exists (c :: p1), p2. split; [reflexivity|exact E].
Qed.

Lemma dig_tail p1 p2 : dig (p1 ++ p2) -> dig p2.
Proof. unfold dig. rewrite Forall_app. tauto. Qed.

Lemma int_start_rest minus body r : dig body -> body <> [] -> (forall s', body = 48%N :: s' -> s' = []) -> no_digit r ->
  exists p2, dig p2 /\ snd (int_start minus (body ++ r)) = p2 ++ r.
Proof.
  intros Hd Hne Hl Hr. destruct body as [|c body]; [contradiction|]. inversion Hd as [|? ? Hc Hd']; subst. unfold int_start. cbn [app peek tl].
  destruct (N.eqb_spec c 48) as [->|Nc].
  - rewrite (Hl body eq_refl). exists []. split; [constructor|reflexivity].
  - assert (H1 : exists p2, dig p2 /\ snd (if minus then int_loop 214748364 56 (c - 48) (body ++ r) else int_loop 429496729 53 (c - 48) (body ++ r)) = p2 ++ r).
    { destruct minus; [destruct (int_loop_rest 214748364 56 body Hd' (c - 48)%N r Hr) as (p1 & p2 & E & H)|destruct (int_loop_rest 429496729 53 body Hd' (c - 48)%N r Hr) as (p1 & p2 & E & H)];
        exists p2; (split; [rewrite E in Hd'; exact (dig_tail p1 p2 Hd')|exact H]). }
    destruct H1 as (p2 & D2 & E2). destruct (if minus then _ else _) as [i s1]. cbn [snd] in E2. subst s1.
    assert (H2 : exists p3, dig p3 /\ snd (if at_digit (p2 ++ r) then if minus then int_loop 922337203685477580 56 i (p2 ++ r) else int_loop 1844674407370955161 53 i (p2 ++ r) else (i, p2 ++ r)) = p3 ++ r).
    { destruct (at_digit (p2 ++ r)); [|exists p2; split; [exact D2|reflexivity]].
      destruct minus; [destruct (int_loop_rest 922337203685477580 56 p2 D2 i r Hr) as (p1 & p3 & E & H)|destruct (int_loop_rest 1844674407370955161 53 p2 D2 i r Hr) as (p1 & p3 & E & H)];
        exists p3; (split; [rewrite E in D2; exact (dig_tail p1 p3 D2)|exact H]). }
    destruct H2 as (p3 & D3 & E3). destruct (if at_digit (p2 ++ r) then _ else _) as [i' s2]. cbn [snd] in E3. subst s2. exists p3. split; [exact D3|reflexivity].
Qed.

Lemma int_more_rest p : dig p -> forall d r, no_digit r -> snd (int_more d (p ++ r)) = r.
Proof.
  induction 1 as [|c p Hc Hp IH]; intros d r Hr; cbn [app int_more].
  - destruct r as [|c r]; [reflexivity|]. cbn. unfold no_digit, at_digit in Hr. cbn in Hr. now rewrite Hr.
  - rewrite (proj2 (is_digit_iff c) Hc). apply IH, Hr.
Qed.

Lemma frac_exact_rest p : dig p -> forall i sd ef r, no_digit r -> exists p2, dig p2 /\ snd (frac_exact i sd ef (p ++ r)) = p2 ++ r.
Proof.
  induction 1 as [|c p Hc Hp IH]; intros i sd ef r Hr; cbn [app frac_exact].
  - exists []. split; [constructor|]. destruct r as [|c r]; [reflexivity|]. cbn. unfold no_digit, at_digit in Hr. cbn in Hr. now rewrite Hr.
  - rewrite (proj2 (is_digit_iff c) Hc). destruct (N.ltb (2 ^ 53 - 1) i).
    + exists (c :: p). split; [constructor; assumption|reflexivity].
    + apply IH, Hr.
Qed.

Lemma frac_more_rest p : dig p -> forall d sd ef r, no_digit r -> snd (frac_more d sd ef (p ++ r)) = r.
Proof.
  induction 1 as [|c p Hc Hp IH]; intros d sd ef r Hr; cbn [app].
  - now rewrite frac_more_none.
  - cbn [frac_more]. rewrite (proj2 (is_digit_iff c) Hc). destruct (sd <? 17); apply IH, Hr.
Qed.

Lemma significand_rest minus body f fd e : digits body -> (forall t, body = 48%N :: t -> t = []) ->
  (f = [] /\ fd = [] \/ f = 46%N :: fd /\ digits fd) -> exponent_text e -> snd (significand minus (body ++ f ++ e)) = e.
Proof.
  intros [Bn Bd] Hl Hf He. pose proof (fraction_no_digit f fd e Hf He) as Hr. destruct (exponent_no_digit e He) as [Ne E46].
  destruct (int_start_rest minus body (f ++ e) Bd Bn Hl Hr) as (p2 & D2 & E2). unfold significand.
  destruct (int_start minus (body ++ f ++ e)) as [[i sd] s1]. cbn [snd] in E2. subst s1.
  destruct (at_digit (p2 ++ f ++ e)) eqn:Ea.
  - pose proof (int_more_rest p2 D2 (dint (Z.of_N i)) (f ++ e) Hr) as E3. destruct (int_more (dint (Z.of_N i)) (p2 ++ f ++ e)) as [d s2]. cbn [snd] in E3. subst s2.
    destruct Hf as [[-> ->] | [-> [_ Hd]]]; cbn [app peek tl].
    + rewrite E46. reflexivity.
    + apply frac_more_rest; [exact Hd|exact Ne].
  - assert (p2 = []) as ->. { destruct p2 as [|c p2]; [reflexivity|]. rewrite at_digit_app in Ea; [discriminate|exact D2|discriminate]. }
    cbn [app]. destruct Hf as [[-> ->] | [-> [_ Hd]]]; cbn [app peek tl].
    + rewrite E46. reflexivity.
    + destruct (frac_exact_rest fd Hd i sd 0 e Ne) as (p3 & D3 & E3). change (N.eqb 46 46) with true. cbv iota.
      destruct (frac_exact i sd 0 (fd ++ e)) as [[[i' sd'] ef] s2]. cbn [snd] in E3. subst s2. apply frac_more_rest; [exact D3|exact Ne].
Qed.

(** The parts of a numeral. *)
Lemma stands_parts s neg m p : stands_for s neg m p -> exists body f fd e, 
  s = (if neg then [45%N] else []) ++ body ++ f ++ e /\ digits body /\ (forall t, body = 48%N :: t -> t = []) /\
  (f = [] /\ fd = [] \/ f = 46%N :: fd /\ digits fd) /\ exponent_text e.
Proof.
  intros (body & f & fd & e & x & Es & Hb & Hl & Hf & He & _). exists body, f, fd, e. repeat (split; [assumption|]).
  destruct He as [[-> _] | (c & sign & ds & n & -> & Hc & (Hne & dd & S2 & Sd & _) & Hs)]; [left; reflexivity|]. right. exists c, sign, ds.
  split; [reflexivity|]. split; [exact Hc|]. split; [tauto|]. split; [exact Hne|]. exact (spells_dig ds dd S2 Sd).
Qed.

Lemma sign_found (neg : bool) body t : digits body ->
  N.eqb (peek ((if neg then [45%N] else []) ++ body ++ t)) 45 = neg /\
  (if N.eqb (peek ((if neg then [45%N] else []) ++ body ++ t)) 45 then tl ((if neg then [45%N] else []) ++ body ++ t) else (if neg then [45%N] else []) ++ body ++ t) = body ++ t.
Proof.
  intros [Hn Hd]. destruct neg; [split; reflexivity|]. destruct body as [|c body]; [contradiction|]. inversion Hd; subst. cbn [app peek].
  destruct (N.eqb_spec c 45) as [->|]; [lia|]. split; reflexivity.
Qed.

Lemma amount_finite b : bits_of_format binary64 b -> (exists y, amount_of (decode binary64 b) = Finite y) -> finite b.
Proof.
  intros _ [y H]. unfold finite. intros E. unfold decode in H. cbn [f_mw f_ew binary64] in H.
  assert (E1 : (Z.of_N b / 2 ^ 52) mod 2 ^ 11 = 2047).
  { change (2 ^ 52) with (Z.of_N (2 ^ 52)). change (2 ^ 11) with (Z.of_N (2 ^ 11)). rewrite <- N2Z.inj_div, <- N2Z.inj_mod, E. reflexivity. }
  rewrite E1 in H. change (2047 =? 0) with false in H. change (2047 =? 2 ^ 11 - 1) with true in H. cbv iota in H.
  destruct (Z.of_N b mod 2 ^ 52 =? 0); [destruct (Z.odd _)|]; discriminate H.
Qed.

Lemma encode_in_format f : canon binary64 f -> f <> S754_nan -> bits_of_format binary64 (encode binary64 f).
Proof.
  intros C N. pose proof good64 as G. unfold bits_of_format, encode. rewrite Z2N.id.
  - destruct f as [s|s| |s m e]; [| |contradiction|].
    + destruct s; vm_compute; reflexivity.
    + destruct s; vm_compute; reflexivity.
    + destruct C as ([L1 L2] & U & _). change (f_prec binary64) with 53 in *. change (f_emax binary64) with 1024 in *. change (emin 53 1024) with (-1074) in *.
      cbn [f_mw f_ew binary64] in *. assert (0 <= sign_bit binary64 s <= 2 ^ 63) by (destruct s; unfold sign_bit; cbn; lia).
      change (2 ^ 52) with 4503599627370496 in *. change (2 ^ 53) with 9007199254740992 in *. change (2 ^ 63) with 9223372036854775808 in *. change (2 ^ (52 + 11 + 1)) with 18446744073709551616.
      destruct (Z.ltb_spec (Zpos m) 4503599627370496); lia.
  - destruct f as [s|s| |s m e]; [| |contradiction|].
    + destruct s; vm_compute; discriminate.
    + destruct s; vm_compute; discriminate.
    + destruct C as ([L1 L2] & U & _). change (f_prec binary64) with 53 in *. change (f_emax binary64) with 1024 in *. change (emin 53 1024) with (-1074) in *.
      cbn [f_mw f_ew binary64] in *. assert (0 <= sign_bit binary64 s <= 2 ^ 63) by (destruct s; unfold sign_bit; cbn; lia).
      change (2 ^ 52) with 4503599627370496 in *. change (2 ^ 53) with 9007199254740992 in *. change (2 ^ 63) with 9223372036854775808 in *.
      destruct (Z.ltb_spec (Zpos m) 4503599627370496); lia.
Qed.

Lemma signed_result d (neg : bool) : unsigned_dbl d -> SFltb dbl_max d = false ->
  let b := encode binary64 (if neg then SFopp d else d) in
  bits_of_format binary64 b /\ finite b /\ negative (decode binary64 b) = neg.
Proof.
  intros (C & N & X) H b. destruct (beyond_max d (conj C (conj N X)) H) as (y & Ea & Py).
  assert (E1 : (if neg then SFopp d else d) = with_sign neg d).
  { destruct neg; [apply opp_with_sign; exact N|]. rewrite <- N. symmetry. apply with_sign_same. }
  assert (X' : with_sign neg d <> S754_nan) by (destruct d; cbn; congruence).
  assert (C' : canon binary64 (with_sign neg d)) by (apply canon_sign; exact C).
  assert (B : bits_of_format binary64 b) by (unfold b; rewrite E1; apply encode_in_format; assumption).
  split; [exact B|]. assert (D : decode binary64 b = with_sign neg d) by (unfold b; rewrite E1; apply decode_encode; [exact good64|exact C'|exact X']).
  split; [|rewrite D; apply negative_sign; exact X]. apply amount_finite; [exact B|]. rewrite D. destruct neg.
  - rewrite (amount_sign d N), Ea. eexists. reflexivity.
  - exists y. rewrite <- N, with_sign_same. exact Ea.
Qed.

Lemma number_total s neg m p : stands_for s neg m p -> exists r, read_number s = Ok r /\
  forall b, r = Some b -> bits_of_format binary64 b /\ finite b /\ negative (decode binary64 b) = neg.
Proof.
  intros H. destruct (stands_parts s neg m p H) as (body & f & fd & e & -> & Hb & Hl & Hf & He).
  unfold read_number. destruct (sign_found neg body (f ++ e) Hb) as [E1 E2]. rewrite E2, E1.
  pose proof (significand_rest neg body f fd e Hb Hl Hf He) as E3. destruct (significand_unsigned neg (body ++ f ++ e)) as [U Lef].
  destruct (significand neg (body ++ f ++ e)) as [[d ef] s1]. cbn [fst snd] in *. subst s1.
  destruct (exp_part ef e) as [x|] eqn:Ex; [|exists None; split; [reflexivity|discriminate]].
  assert (Lp : x + ef <= 308).
  { exact (exp_part_le ef e x Lef (exponent_shape e He) Ex). }
  destruct (strtod_unsigned d (x + ef) U Lp) as (d' & -> & U'). cbn [obind].
  destruct (SFltb dbl_max d') eqn:Em; [exists None; split; [reflexivity|discriminate]|].
  eexists. split; [reflexivity|]. intros b [= <-]. apply signed_result; assumption.
Qed.

(** Few digits and a small exponent. *)
Lemma number_near s neg m p : stands_for s neg m p -> (m < 2 ^ 53)%N -> -22 <= p <= 22 ->
  exists b, read_number s = Ok (Some b) /\ nearest_decimal neg m p b /\ bits_of_format binary64 b /\ finite b /\ negative (decode binary64 b) = neg.
Proof.
  intros H Hm Hp. pose proof (number_total s neg m p H) as T.
  destruct H as (body & f & fd & e & x & -> & Hb & Hl & Hf & He & Hnum & Ep).
  assert (Dfd : dig fd) by (destruct Hf as [[_ ->] | [_ [_ Hd]]]; [constructor|exact Hd]).
  apply numeral_dec in Hnum. destruct Hnum as (_ & _ & Em).
  assert (Bb : (dec body 0 < 2 ^ 53)%N) by (rewrite Em, dec_app in Hm; pose proof (dec_ge fd (dec body 0)); lia).
  assert (Het : exponent_text e).
  { destruct He as [[-> _] | (c & sign & ds & n & -> & Hc & (Hne & dd & S2 & Sd & _) & Hs)]; [left; reflexivity|]. right. exists c, sign, ds.
    split; [reflexivity|]. split; [exact Hc|]. split; [tauto|]. split; [exact Hne|]. exact (spells_dig ds dd S2 Sd). }
  destruct (exponent_no_digit e Het) as [Ne E46].
  (* the significand *)
  assert (Sig : significand neg (body ++ f ++ e) = (dint (Z.of_N m), - Z.of_nat (length fd), e)).
  { unfold significand. destruct Hb as [Bn Bd].
    destruct (int_start_fits neg body (f ++ e) Bd Bn Hl (fraction_no_digit f fd e Hf Het) Bb) as (sd & ->).
    pose proof (fraction_no_digit f fd e Hf Het) as Nf. unfold no_digit in Nf. rewrite Nf.
    destruct Hf as [[-> ->] | [-> _]]; cbn [app peek tl].
    - rewrite E46. rewrite app_nil_r in Em. rewrite <- Em. reflexivity.
    - change (N.eqb 46 46) with true. cbv iota. rewrite dec_app in Em.
      destruct (frac_exact_fits fd Dfd (dec body 0) sd 0 e Ne) as (sd' & ->); [rewrite <- Em; exact Hm|].
      rewrite <- Em, Z.sub_0_l. rewrite frac_more_none by exact Ne. reflexivity. }
  (* the exponent *)
  assert (Exp : exp_part (- Z.of_nat (length fd)) e = Some x).
  { unfold exp_part. destruct He as [[-> ->] | (c & sign & ds & n & -> & Hc & Hn & Hs)]; [reflexivity|].
    assert (Ec : N.eqb c 101 || N.eqb c 69 = true) by (destruct Hc as [-> | ->]; reflexivity). cbn [peek tl]. rewrite Ec.
    apply numeral_dec in Hn. destruct Hn as (Dn & Dd & En). destruct ds as [|d0 ds]; [contradiction|]. inversion Dd as [|? ? Hd0 Dd']; subst n.
    assert (Ev : (dec (d0 :: ds) 0 = dec ds (Z.to_N (digit_of d0)))%N).
    { cbn [dec fold_left]. unfold dec. f_equal. unfold digit_of. lia. }
    rewrite Ev in Hs. assert (P0 : 0 <= digit_of d0) by (unfold digit_of; lia).
    destruct Hs as [[[-> | ->] Ex] | [-> Ex]]; cbn [app peek tl].
    - destruct (N.eqb_spec d0 45) as [->|_]; [lia|]. cbn [orb]. destruct (N.eqb_spec d0 43) as [->|_]; [lia|]. cbn [peek tl].
      rewrite Ex. apply exp_pos_fits; [exact Dd'|exact P0|lia].
    - cbn [N.eqb Pos.eqb orb peek tl]. rewrite Ex. apply exp_pos_fits; [exact Dd'|exact P0|lia].
    - cbn [N.eqb Pos.eqb orb peek tl]. rewrite Ex. f_equal. f_equal. apply exp_neg_fits; [exact Dd'|exact P0|].
      apply Z.quot_le_lower_bound; lia. }
  unfold read_number in T |- *. destruct (sign_found neg body (f ++ e) Hb) as [E1 E2]. rewrite E2, E1 in *. rewrite Sig in *. rewrite Exp in *.
  replace (x + - Z.of_nat (length fd)) with p in * by lia.
  destruct (strtod_near (Z.of_N m) p) as (d & Es & Hn); [change (2 ^ 53)%N with 9007199254740992%N in Hm; change (2 ^ 53) with 9007199254740992; lia|exact Hp|].
  rewrite Es in *. cbn [obind] in *.
  assert (PB : 0 < 10 ^ Z.max (- p) 0) by (apply Z.pow_pos_nonneg; lia).
  assert (PA : 0 < 10 ^ Z.max p 0) by (apply Z.pow_pos_nonneg; lia).
  assert (PA0 : 0 <= Z.of_N m * 10 ^ Z.max p 0 * 2 ^ 1074) by (apply Z.mul_nonneg_nonneg; [apply Z.mul_nonneg_nonneg; lia|apply Z.lt_le_incl, pow_pos2; lia]).
  destruct (near_nearest _ _ d neg PA0 PB Hn) as [N1 N2].
  assert (Fin : SFltb dbl_max d = false).
  { destruct Hn as (C & Ng & Hn). destruct (amount_of d) as [y| | |] eqn:Ea; try contradiction.
    - exact (within_max d y C Ng Ea).
    - exfalso. assert (Z.of_N m * 10 ^ Z.max p 0 * 2 ^ 1074 < overflow binary64 * 10 ^ Z.max (- p) 0); [|lia].
      apply (Z.lt_le_trans _ (overflow binary64 * 1)); [|apply Z.mul_le_mono_nonneg_l; [vm_compute; discriminate|lia]].
      rewrite Z.mul_1_r. unfold overflow. apply Z.mul_lt_mono_pos_r; [apply pow_pos2; lia|].
      apply (Z.le_lt_trans _ (2 ^ 53 * 10 ^ 22)); [|vm_compute; reflexivity].
      apply Z.mul_le_mono_nonneg; [lia|change (2 ^ 53)%N with 9007199254740992%N in Hm; change (2 ^ 53) with 9007199254740992; lia|lia|apply Z.pow_le_mono_r; lia]. }
  rewrite Fin in *. destruct T as (r & Er & T). injection Er as <-.
  eexists. split; [reflexivity|]. split; [|apply T; reflexivity].
  unfold nearest_decimal, above, below. destruct neg; [|exact N1].
  replace (- Z.of_N m * 10 ^ Z.max p 0 * 2 ^ 1074) with (- (Z.of_N m * 10 ^ Z.max p 0 * 2 ^ 1074)) by ring. exact N1.
Qed.
