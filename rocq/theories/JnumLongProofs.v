(** Numerals with more digits than are read. *)
From Coq Require Import String List ZArith NArith Bool SpecFloat Lia.
From Verif Require Import Base EnumModel ScalarModel ScalarSpec SerialModel SerialSpec FloatModel FloatSpec FloatProofs FloatRoundProofs FloatMainProofs
  JtextModel JtextSpec JtextNumProofs JnumModel JnumSpec JnumRoundProofs JnumArithProofs JnumProofs JnumMainProofs.
Import ListNotations.
Local Open Scope list_scope.
Local Open Scope Z_scope.

Local Notation str := (list N) (only parsing).

(* ------------------------------------------------------------------ numbers above zero stay above zero *)

Definition above_zero (g : spec_float) : Prop := unsigned_dbl g /\ SFltb (S754_zero false) g = true.

Lemma smallest_canon : canon binary64 (S754_finite false 1 (-1074)).
Proof. vm_compute. repeat split; try discriminate; auto. Qed.

Lemma near_above A B g : 0 < B -> B <= A -> near_ratio binary64 A B g -> above_zero g.
Proof.
  intros HB HA H. split; [exact (near_unsigned _ _ _ H)|]. destruct H as (C & Ng & H).
  destruct g as [[]|[]| |[] m e]; try discriminate; try reflexivity; cbn [amount_of] in H; [|contradiction].
  destruct H as [_ H]. destruct (H _ 1 smallest_canon ltac:(vm_compute; reflexivity)) as [H1 _]. lia.
Qed.

Lemma dmul_above d : above_zero d -> above_zero (dmul d (dint 10)).
Proof.
  intros ((Cd & Nd & Xd) & P). destruct d as [[]|[]| |[] mx ex]; try discriminate; try contradiction.
  - split; [split; [exact I|split; [reflexivity|discriminate]]|reflexivity].
  - destruct ten_positive as (Cc & m & e & E). assert (Av : Zpos m * 2 ^ (e + 1074) = 10 * 2 ^ 1074) by (vm_compute in E; injection E as <- <-; vm_compute; reflexivity).
    rewrite E in *. pose proof (finite_exp _ _ _ Cd eq_refl). pose proof (finite_exp _ _ _ Cc eq_refl).
    pose proof (pow_pos2 (ex + 1074) ltac:(lia)). pose proof (pow_pos2 1074 ltac:(lia)).
    apply (near_above (Zpos mx * 2 ^ (ex + 1074) * 10) 1); [lia|nia|].
    unfold dmul. apply mul_near; [apply fits64|exact Cd|exact Cc|lia|]. rewrite Av. ring.
Qed.

Lemma round_above m e : -1074 <= e -> above_zero (binary_round (f_prec binary64) (f_emax binary64) false m e).
Proof.
  intros H. pose proof (round_near binary64 m e fits64 H) as R. pose proof (pow_pos2 (e + 1074) ltac:(lia)).
  apply (near_above (Zpos m * 2 ^ (e + 1074)) 1); [lia|nia|]. destruct R as (C & Ng & R). split; [exact C|]. split; [exact Ng|].
  destruct (amount_of _) as [y| | |]; try contradiction.
  - destruct R as [R1 R2]. split; [lia|]. intros h z Hh Hz. rewrite !Z.mul_1_r. apply (R2 h z Hh Hz).
  - lia.
Qed.

Lemma dadd_above x y : above_zero x -> unsigned_dbl y -> above_zero (dadd x y).
Proof.
  intros ((Cx & Nx & Xx) & P) (Cy & Ny & Xy).
  destruct x as [[]|[]| |[] mx ex]; try discriminate; try contradiction;
  destruct y as [[]|[]| |[] my ey]; try discriminate; try contradiction;
    try (split; [split; [exact I|split; [reflexivity|discriminate]]|reflexivity]); try (split; [split; [assumption|split; [reflexivity|discriminate]]|reflexivity]).
  pose proof (finite_exp _ _ _ Cx eq_refl). pose proof (finite_exp _ _ _ Cy eq_refl). unfold dadd. cbn [SFadd cond_Zopp].
  destruct (fst (shl_align mx ex (Z.min ex ey))) as [p|p|] eqn:E1; destruct (fst (shl_align my ey (Z.min ex ey))) as [q|q|] eqn:E2;
    cbn [Z.add]; unfold binary_normalize; apply round_above; lia.
Qed.

Lemma dint_above z : 0 < z -> above_zero (dint z).
Proof. intros H. unfold dint, from_int. destruct z as [|p|p]; [lia|apply round_above; lia|lia]. Qed.

Lemma step_above d c : above_zero d -> above_zero (dadd (dmul d (dint 10)) (dint (digit_of c))).
Proof. intros H. apply dadd_above; [apply dmul_above, H|]. apply dint_unsigned. unfold digit_of. lia. Qed.

(* ------------------------------------------------------------------ the integer part *)

Lemma int_loop_cut lim last p : dig p -> forall i,
  exists p1 p2, p = p1 ++ p2 /\ (forall r, no_digit r -> int_loop lim last i (p ++ r) = (dec p1 i, p2 ++ r)) /\ (p2 <> [] -> (lim <= dec p1 i)%N).
Proof.
  induction 1 as [|c p Hc Hp IH]; intros i.
  - exists [], []. split; [reflexivity|]. split; [|congruence]. intros r Hr. destruct r as [|c r]; [reflexivity|]. cbn. unfold no_digit, at_digit in Hr. cbn in Hr. now rewrite Hr.
  - destruct ((lim <=? i)%N && (negb (N.eqb i lim) || N.ltb last c)) eqn:Ec.
    + exists [], (c :: p). split; [reflexivity|]. split.
      * intros r Hr. cbn [app int_loop]. rewrite (proj2 (is_digit_iff c) Hc), Ec. reflexivity.
      * intros _. cbn. apply andb_prop in Ec. apply N.leb_le. tauto.
    + destruct (IH (i * 10 + (c - 48))%N) as (p1 & p2 & -> & E & K). exists (c :: p1), p2. split; [reflexivity|]. split; [|exact K].
      intros r Hr. cbn [app int_loop]. rewrite (proj2 (is_digit_iff c) Hc), Ec. apply E, Hr.
Qed.

Lemma dec_bound p : dig p -> forall i, (dec p i < (i + 1) * 10 ^ N.of_nat (length p))%N.
Proof.
  induction 1 as [|c p Hc Hp IH]; intros i; cbn [dec fold_left length]; [cbn; lia|].
  fold (dec p (i * 10 + (c - 48))). rewrite Nat2N.inj_succ, N.pow_succ_r'. specialize (IH (i * 10 + (c - 48))%N).
  assert (0 < 10 ^ N.of_nat (length p))%N by (apply N.neq_0_lt_0, N.pow_nonzero; lia). nia.
Qed.

(** What is read of the integer part, and how many digits are counted. *)
Lemma int_start_cut minus body : dig body -> body <> [] -> (forall s', body = 48%N :: s' -> s' = []) ->
  exists p1 p2, body = p1 ++ p2 /\ p1 <> [] /\ (p2 <> [] -> (10 ^ 17 <= dec p1 0)%N) /\
    forall r, no_digit r -> int_start minus (body ++ r) = (dec p1 0, Z.of_nat (length p1) - 1, p2 ++ r).
Proof.
  intros Hd Hne Hl. destruct body as [|c body]; [contradiction|]. inversion Hd as [|? ? Hc Hd']; subst.
  destruct (N.eqb_spec c 48) as [->|Nc].
  - rewrite (Hl body eq_refl). exists [48%N], []. split; [reflexivity|]. split; [discriminate|]. split; [congruence|]. intros r Hr. reflexivity.
  - set (lim1 := if minus then 214748364%N else 429496729%N). set (last := if minus then 56%N else 53%N).
    set (lim2 := if minus then 922337203685477580%N else 1844674407370955161%N).
    assert (L2 : (10 ^ 17 <= lim2)%N) by (unfold lim2; destruct minus; vm_compute; discriminate).
    destruct (int_loop_cut lim1 last body Hd' (c - 48)%N) as (p1 & p2 & Eb & El & _).
    assert (D2 : dig p2) by (rewrite Eb in Hd'; exact (dig_tail p1 p2 Hd')).
    destruct (int_loop_cut lim2 last p2 D2 (dec p1 (c - 48))) as (p3 & p4 & E2 & El2 & K).
    assert (Dc : forall q, dec (c :: q) 0 = dec q (c - 48)) by (intros q; cbn [dec fold_left]; unfold dec; f_equal; lia).
    exists (c :: p1 ++ p3), p4. split; [cbn [app]; rewrite Eb, E2, app_assoc; reflexivity|]. split; [discriminate|].
    rewrite Dc, dec_app. split; [intros Hp; specialize (K Hp); lia|]. intros r Hr. unfold int_start. cbn [app peek tl].
    destruct (N.eqb_spec c 48) as [E|_]; [contradiction|].
    assert (F1 : (if minus then int_loop 214748364 56 (c - 48) (body ++ r) else int_loop 429496729 53 (c - 48) (body ++ r)) =
      int_loop lim1 last (c - 48) (body ++ r)) by (unfold lim1, last; destruct minus; reflexivity). rewrite F1, El by exact Hr.
    assert (F2 : (if minus then int_loop 922337203685477580 56 (dec p1 (c - 48)) (p2 ++ r) else int_loop 1844674407370955161 53 (dec p1 (c - 48)) (p2 ++ r)) =
      int_loop lim2 last (dec p1 (c - 48)) (p2 ++ r)) by (unfold lim2, last; destruct minus; reflexivity). rewrite F2.
    assert (F3 : (if at_digit (p2 ++ r) then int_loop lim2 last (dec p1 (c - 48)) (p2 ++ r) else (dec p1 (c - 48), p2 ++ r)) = (dec p3 (dec p1 (c - 48)), p4 ++ r)).
    { destruct (at_digit (p2 ++ r)) eqn:Ea; [apply El2, Hr|]. destruct p2 as [|c2 p2]; [|rewrite at_digit_app in Ea; [discriminate|exact D2|discriminate]].
      destruct p3; [|discriminate]. cbn [app] in E2. subst p4. reflexivity. }
    rewrite F3. rewrite Eb, E2. f_equal. f_equal. cbn [length]. rewrite !app_length. lia.
Qed.

(* ------------------------------------------------------------------ the fraction *)

Lemma frac_exact_cut p : dig p -> forall i sd ef b, 0 <= sd -> 0 <= b -> Z.of_N i < 10 ^ (sd + b) ->
  exists p1 p2 sd', p = p1 ++ p2 /\ (forall r, frac_exact i sd ef (p ++ r) = (if match p2 with [] => true | _ => false end then frac_exact (dec p1 i) sd' (ef - Z.of_nat (length p1)) r else (dec p1 i, sd', ef - Z.of_nat (length p1), p2 ++ r))) /\
    sd <= sd' /\ Z.of_N (dec p1 i) < 10 ^ (sd' + b) /\ (p2 <> [] -> (2 ^ 53 - 1 < dec p1 i)%N).
Proof.
  induction 1 as [|c p Hc Hp IH]; intros i sd ef b Hsd Hb Hi.
  - exists [], [], sd. cbn [app length dec fold_left]. split; [reflexivity|]. split; [intros r; f_equal; lia|]. split; [lia|]. split; [exact Hi|congruence].
  - destruct (N.ltb_spec (2 ^ 53 - 1) i) as [L|L].
    + exists [], (c :: p), sd. cbn [app length dec fold_left]. split; [reflexivity|]. split; [intros r; cbn [app frac_exact]; rewrite (proj2 (is_digit_iff c) Hc), (proj2 (N.ltb_lt _ _) L); repeat f_equal; lia|]. split; [lia|]. split; [exact Hi|]. intros _. exact L.
    + set (i' := (i * 10 + (c - 48))%N). set (sd1 := if N.eqb i' 0 then sd else sd + 1).
      assert (S1 : sd <= sd1) by (unfold sd1; destruct (N.eqb i' 0); lia).
      assert (B1 : Z.of_N i' < 10 ^ (sd1 + b)).
      { unfold sd1. destruct (N.eqb_spec i' 0) as [E|E]; [rewrite E; apply Z.pow_pos_nonneg; lia|].
        replace (sd + 1 + b) with (Z.succ (sd + b)) by lia. rewrite Z.pow_succ_r by lia. unfold i'. lia. }
      destruct (IH i' sd1 (ef - 1) b ltac:(lia) Hb B1) as (p1 & p2 & sd' & -> & E & L1 & L2 & L3). exists (c :: p1), p2, sd'.
      split; [reflexivity|]. cbn [dec fold_left]. fold (dec p1 i'). split.
      { intros r. cbn [app frac_exact]. rewrite (proj2 (is_digit_iff c) Hc), (proj2 (N.ltb_ge _ _) L). fold i'. fold sd1. rewrite E. cbn [length].
        replace (ef - Z.of_nat (S (length p1))) with (ef - 1 - Z.of_nat (length p1)) by lia. reflexivity. } split; [lia|]. split; assumption.
Qed.

Lemma frac_more_full p : dig p -> forall d sd ef r, 17 <= sd -> no_digit r -> frac_more d sd ef (p ++ r) = (d, ef, r).
Proof.
  induction 1 as [|c p Hc Hp IH]; intros d sd ef r Hs Hr; cbn [app]; [apply frac_more_none, Hr|].
  cbn [frac_more]. rewrite (proj2 (is_digit_iff c) Hc). destruct (Z.ltb_spec sd 17); [lia|]. apply IH; assumption.
Qed.

(** Two texts that begin with digits enough are not told apart. *)
Lemma frac_more_same p : dig p -> forall d sd ef q e, above_zero d -> 17 <= sd + Z.of_nat (length p) -> dig q -> no_digit e ->
  frac_more d sd ef (p ++ q ++ e) = frac_more d sd ef (p ++ e).
Proof.
  induction 1 as [|c p Hc Hp IH]; intros d sd ef q e Hd Hs Hq He.
  - cbn [app length] in *. rewrite frac_more_full by (try assumption; lia). symmetry. apply frac_more_none, He.
  - destruct (Z_lt_le_dec sd 17) as [L|L].
    + cbn [app frac_more]. rewrite (proj2 (is_digit_iff c) Hc). destruct (Z.ltb_spec sd 17); [|lia]. pose proof (step_above d c Hd) as P.
      rewrite (proj2 P). apply IH; try assumption. cbn [length] in Hs. lia.
    + assert (D1 : dig (c :: p)) by (constructor; assumption). assert (D2 : dig ((c :: p) ++ q)) by (apply Forall_app; split; assumption).
      rewrite app_assoc. rewrite (frac_more_full _ D2) by assumption. rewrite (frac_more_full _ D1) by assumption. reflexivity.
Qed.

Lemma frac_exact_big i sd ef r : (2 ^ 53 - 1 < i)%N -> frac_exact i sd ef r = (i, sd, ef, r).
Proof. intros H. destruct r as [|c r]; [reflexivity|]. cbn [frac_exact]. destruct (is_digit c); [|reflexivity]. destruct (N.ltb_spec (2 ^ 53 - 1) i); [reflexivity|lia]. Qed.

(** The fraction after [i], of which [sd] digits are counted. *)
Definition fraction (i : N) (sd : Z) (s : str) : spec_float * Z * str :=
  let '(i, sd, ef, s2) := frac_exact i sd 0 s in frac_more (dint (Z.of_N i)) sd ef s2.

Lemma fraction_same i sd b fd more e : 0 <= sd -> 0 <= b -> Z.of_N i < 10 ^ (sd + b) -> dig fd -> dig more -> no_digit e ->
  10 ^ (16 + b) <= Z.of_N (dec fd i) -> fraction i sd (fd ++ more ++ e) = fraction i sd (fd ++ e).
Proof.
  intros Hs Hb Hi Df Dm Ne Hm. unfold fraction.
  assert (P16 : 2 ^ 53 - 1 < 10 ^ 16) by (vm_compute; reflexivity).
  assert (Pb : 10 ^ 16 <= 10 ^ (16 + b)) by (apply Z.pow_le_mono_r; lia).
  destruct (frac_exact_cut fd Df i sd 0 b Hs Hb Hi) as (p1 & p2 & sd1 & E1 & F1 & L1 & B1 & G1). rewrite !F1. clear F1.
  assert (Enough : 17 <= sd1 + Z.of_nat (length p2)).
  { assert (10 ^ (16 + b) < 10 ^ (sd1 + b + Z.of_nat (length p2))).
    { apply (Z.le_lt_trans _ _ _ Hm). rewrite (Z.pow_add_r 10 (sd1 + b)) by lia. rewrite E1, dec_app.
      assert (D2 : dig p2) by (rewrite E1 in Df; exact (dig_tail p1 p2 Df)). pose proof (dec_bound p2 D2 (dec p1 i)) as K.
      apply N2Z.inj_lt in K. rewrite N2Z.inj_mul, N2Z.inj_pow, nat_N_Z in K. change (Z.of_N 10) with 10 in K.
      assert (0 < 10 ^ Z.of_nat (length p2)) by (apply Z.pow_pos_nonneg; lia). nia. }
    apply Z.pow_lt_mono_r_iff in H; lia. }
  assert (Big : (2 ^ 53 - 1 < dec p1 i)%N).
  { destruct p2 as [|c p2]; [|apply G1; discriminate]. rewrite app_nil_r in E1. subst p1. lia. }
  assert (Pos : above_zero (dint (Z.of_N (dec p1 i)))) by (apply dint_above; lia).
  assert (D2 : dig p2) by (rewrite E1 in Df; exact (dig_tail p1 p2 Df)).
  destruct p2 as [|c p2].
  - rewrite !frac_exact_big by exact Big. apply (frac_more_same []); try assumption.
  - apply frac_more_same; assumption.
Qed.

(* ------------------------------------------------------------------ the numeral *)

Lemma significand_same minus body fd more e m : digits body -> (forall t, body = 48%N :: t -> t = []) -> digits fd -> digits more -> exponent_text e ->
  m = dec fd (dec body 0) -> (10 ^ 17 <= m)%N \/ body = [48%N] /\ (10 ^ 16 <= m)%N ->
  significand minus (body ++ 46%N :: fd ++ more ++ e) = significand minus (body ++ 46%N :: fd ++ e).
Proof.
  intros [Bn Bd] Hl [_ Df] [_ Dm] He Em Hm. destruct (exponent_no_digit e He) as [Ne _].
  destruct (int_start_cut minus body Bd Bn Hl) as (p1 & p2 & Eb & Np1 & Big & Es). unfold significand. rewrite !Es by reflexivity.
  assert (D1 : dig p1) by (rewrite Eb in Bd; apply Forall_app in Bd; tauto).
  assert (D2 : dig p2) by (rewrite Eb in Bd; exact (dig_tail p1 p2 Bd)).
  assert (B1 : Z.of_N (dec p1 0) < 10 ^ (Z.of_nat (length p1) - 1 + 1)).
  { pose proof (dec_bound p1 D1 0) as K. apply N2Z.inj_lt in K. rewrite N2Z.inj_mul, N2Z.inj_pow, nat_N_Z in K. change (Z.of_N 10) with 10 in K.
    replace (Z.of_nat (length p1) - 1 + 1) with (Z.of_nat (length p1)) by lia. lia. }
  assert (L1 : 0 <= Z.of_nat (length p1) - 1) by (destruct p1; [contradiction|cbn [length]; lia]).
  destruct p2 as [|c p2].
  - cbn [app]. change (at_digit (46%N :: fd ++ more ++ e)) with false. change (at_digit (46%N :: fd ++ e)) with false. cbv iota. cbn [peek tl].
    change (N.eqb 46 46) with true. cbv iota. rewrite app_nil_r in Eb. subst p1.
    change (fraction (dec body 0) (Z.of_nat (length body) - 1) (fd ++ more ++ e) = fraction (dec body 0) (Z.of_nat (length body) - 1) (fd ++ e)).
    destruct Hm as [Hm|[-> Hm]].
    + assert (K : 10 ^ (16 + 1) <= Z.of_N (dec fd (dec body 0))) by (rewrite <- Em; change (10 ^ (16 + 1)) with (Z.of_N (10 ^ 17)); lia).
      apply (fraction_same _ _ 1); try assumption; lia.
    + assert (K : 10 ^ (16 + 0) <= Z.of_N (dec fd (dec [48%N] 0))) by (rewrite <- Em; change (10 ^ (16 + 0)) with (Z.of_N (10 ^ 16)); lia).
      apply (fraction_same _ _ 0); try assumption; try lia; reflexivity.
  - rewrite !at_digit_app by (try exact D2; discriminate). cbv iota.
    assert (Sd : 17 <= Z.of_nat (length p1) - 1).
    { specialize (Big ltac:(discriminate)). assert (10 ^ 17 < 10 ^ (Z.of_nat (length p1) - 1 + 1)) as K.
      { apply (Z.le_lt_trans _ (Z.of_N (dec p1 0))); [|exact B1]. change (10 ^ 17) with (Z.of_N (10 ^ 17)). lia. }
      apply Z.pow_lt_mono_r_iff in K; lia. }
    assert (M : forall q d r, dig q -> no_digit r -> int_more d (q ++ r) = (fst (int_more d (q ++ [])), r)).
    { induction q as [|c0 q IH]; intros d r Hq Hr; inversion Hq as [|? ? Hc0 Hq']; subst; cbn [app int_more].
      - destruct r as [|c0 r]; [reflexivity|]. cbn [int_more]. unfold no_digit, at_digit in Hr. cbn in Hr. now rewrite Hr.
      - rewrite (proj2 (is_digit_iff c0) Hc0). apply IH; assumption. }
    rewrite (M _ _ (46%N :: fd ++ more ++ e) D2) by reflexivity. rewrite (M _ _ (46%N :: fd ++ e) D2) by reflexivity. cbn [peek tl].
    change (N.eqb 46 46) with true. cbv iota. rewrite app_assoc.
    assert (Dd : dig (fd ++ more)) by (apply Forall_app; split; assumption).
    rewrite (frac_more_full _ Dd) by assumption. rewrite (frac_more_full _ Df) by assumption. reflexivity.
Qed.

Lemma digits_dropped neg body fd more e m : digits body -> (forall t, body = 48%N :: t -> t = []) -> digits fd -> digits more -> exponent_text e ->
  numeral 10 (body ++ fd) m -> (10 ^ 17 <= m)%N \/ body = [48%N] /\ (10 ^ 16 <= m)%N ->
  read_number ((if neg : bool then [45%N] else []) ++ body ++ 46%N :: fd ++ more ++ e) = read_number ((if neg then [45%N] else []) ++ body ++ 46%N :: fd ++ e).
Proof.
  intros Hb Hl Hf Hm He Hn Hbig. unfold read_number.
  destruct (sign_found neg body (46%N :: fd ++ more ++ e) Hb) as [E1 E2]. destruct (sign_found neg body (46%N :: fd ++ e) Hb) as [E3 E4].
  rewrite E2, E1, E4, E3. apply numeral_dec in Hn. destruct Hn as (_ & _ & En). rewrite dec_app in En.
  rewrite (significand_same neg body fd more e m) by assumption. reflexivity.
Qed.
