(** Proofs about floating point numbers. *)
From Coq Require Import ZArith NArith Bool SpecFloat Lia.
From Verif Require Import SerialModel SerialSpec FloatModel FloatSpec.
Local Open Scope Z_scope.

(* ------------------------------------------------------------------ *)
(** ** Digits *)

Lemma digits_log m : Zpos (digits2_pos m) = Z.log2 (Zpos m) + 1.
Proof.
  induction m as [m IH|m IH|]; cbn [digits2_pos].
  - rewrite Pos2Z.inj_succ, IH. change (Zpos m~1) with (2 * Zpos m + 1). rewrite Z.log2_succ_double by lia. lia.
  - rewrite Pos2Z.inj_succ, IH. change (Zpos m~0) with (2 * Zpos m). rewrite Z.log2_double by lia. lia.
  - reflexivity.
Qed.

Lemma digits_shift m n k : 0 <= k -> Zpos m = Zpos n * 2 ^ k -> Zpos (digits2_pos m) = Zpos (digits2_pos n) + k.
Proof. intros Hk E. rewrite !digits_log, E, Z.log2_mul_pow2 by lia. lia. Qed.

Lemma digits_bounds m d : 0 < d -> (Zpos m < 2 ^ d <-> Zpos (digits2_pos m) <= d).
Proof.
  intros Hd. rewrite digits_log. split; intros H.
  - apply Z.log2_lt_pow2 in H; lia.
  - apply Z.log2_lt_pow2; lia.
Qed.

Lemma digits_lower m d : 0 <= d -> (2 ^ d <= Zpos m <-> d < Zpos (digits2_pos m)).
Proof.
  intros Hd. rewrite digits_log. split; intros H.
  - apply Z.log2_le_pow2 in H; lia.
  - apply Z.log2_le_pow2; lia.
Qed.

(* ------------------------------------------------------------------ *)
(** ** Rounding that changes nothing *)

Lemma shr_1_double m : shr_1 (Build_shr_record (2 * Zpos m) false false) = Build_shr_record (Zpos m) false false.
Proof. reflexivity. Qed.

Lemma shr_exact p : forall m,
  iter_pos shr_1 p (Build_shr_record (Zpos m * 2 ^ Zpos p) false false) = Build_shr_record (Zpos m) false false.
Proof.
  induction p as [p IH|p IH|]; intros m; cbn [iter_pos].
  - replace (Zpos m * 2 ^ Zpos p~1) with (2 * (Zpos m * 2 ^ Zpos p * 2 ^ Zpos p)).
    + assert (H : exists q, Zpos q = Zpos m * 2 ^ Zpos p).
      { exists (Z.to_pos (Zpos m * 2 ^ Zpos p)). rewrite Z2Pos.id; [reflexivity|]. apply Z.mul_pos_pos; [lia | apply Z.pow_pos_nonneg; lia]. }
      destruct H as [q Hq]. assert (H : exists r, Zpos r = Zpos q * 2 ^ Zpos p).
      { exists (Z.to_pos (Zpos q * 2 ^ Zpos p)). rewrite Z2Pos.id; [reflexivity|]. apply Z.mul_pos_pos; [lia | apply Z.pow_pos_nonneg; lia]. }
      destruct H as [r Hr]. rewrite <- Hq, <- Hr, shr_1_double, Hr, IH, Hq, IH. reflexivity.
    + change (Zpos p~1) with (2 * Zpos p + 1). rewrite Z.pow_add_r, Z.mul_comm with (n := 2) by lia.
      replace (2 * Zpos p) with (Zpos p + Zpos p) by lia. rewrite Z.pow_add_r by lia. change (2 ^ 1) with 2. ring.
  - replace (Zpos m * 2 ^ Zpos p~0) with (Zpos m * 2 ^ Zpos p * 2 ^ Zpos p).
    + assert (H : exists q, Zpos q = Zpos m * 2 ^ Zpos p).
      { exists (Z.to_pos (Zpos m * 2 ^ Zpos p)). rewrite Z2Pos.id; [reflexivity|]. apply Z.mul_pos_pos; [lia | apply Z.pow_pos_nonneg; lia]. }
      destruct H as [q Hq]. rewrite <- Hq, IH, Hq, IH. reflexivity.
    + change (Zpos p~0) with (2 * Zpos p). replace (2 * Zpos p) with (Zpos p + Zpos p) by lia.
      rewrite Z.pow_add_r by lia. ring.
  - change (2 ^ 1) with 2. rewrite Z.mul_comm. reflexivity.
Qed.

(** The numbers of a format. *)
Definition canon (F : format) (f : spec_float) : Prop :=
  match f with
  | S754_finite _ m e =>
      emin (f_prec F) (f_emax F) <= e <= f_emax F - f_prec F /\ Zpos m < 2 ^ f_prec F /\
      (e = emin (f_prec F) (f_emax F) \/ 2 ^ f_mw F <= Zpos m)
  | _ => True
  end.

Definition good (F : format) : Prop := 0 < f_mw F /\ 1 < f_ew F /\ f_prec F < f_emax F.

Lemma ieee_good F : ieee_format F -> good F.
Proof. intros [-> | ->]; unfold good, f_prec, f_emax; cbn; lia. Qed.

Lemma canon_fexp F s m e : good F -> canon F (S754_finite s m e) ->
  fexp (f_prec F) (f_emax F) (Zpos (digits2_pos m) + e) = e.
Proof.
  intros (Hm & He & _) (Hr & Hu & Hc). unfold fexp. unfold f_prec in *.
  apply digits_bounds in Hu; [|lia]. destruct Hc as [-> | Hc].
  - lia.
  - apply digits_lower in Hc; lia.
Qed.

Lemma shr_fexp_same F s m e : good F -> canon F (S754_finite s m e) ->
  shr_fexp (f_prec F) (f_emax F) (Zpos m) e loc_Exact = (Build_shr_record (Zpos m) false false, e).
Proof.
  intros G C. unfold shr_fexp. cbn [Zdigits2]. rewrite (canon_fexp F s m e G C). rewrite Z.sub_diag. reflexivity.
Qed.

Lemma round_aux_exact F s m e mx ex : good F -> canon F (S754_finite s m e) -> ex <= e ->
  Zpos mx = Zpos m * 2 ^ (e - ex) ->
  binary_round_aux (f_prec F) (f_emax F) s (Zpos mx) ex loc_Exact = S754_finite s m e.
Proof.
  intros G C Hle E. unfold binary_round_aux.
  assert (H1 : shr_fexp (f_prec F) (f_emax F) (Zpos mx) ex loc_Exact = (Build_shr_record (Zpos m) false false, e)).
  { unfold shr_fexp. cbn [Zdigits2 shr_record_of_loc].
    rewrite (digits_shift mx m (e - ex)) by (lia || exact E).
    replace (Zpos (digits2_pos m) + (e - ex) + ex) with (Zpos (digits2_pos m) + e) by lia.
    rewrite (canon_fexp F s m e G C). unfold shr. destruct (e - ex) as [|p|p] eqn:Ep; [| |lia].
    - change (2 ^ 0) with 1 in E. rewrite Z.mul_1_r in E. rewrite E. f_equal. lia.
    - rewrite E, shr_exact. f_equal. lia. }
  rewrite H1. cbn [shr_m loc_of_shr_record round_nearest_even].
  rewrite (shr_fexp_same F s m e G C). cbn [shr_m].
  destruct C as (Hr & _). destruct (Z.leb_spec e (f_emax F - f_prec F)); [reflexivity | lia].
Qed.

Lemma shift_pos_mul n p : Zpos (shift_pos n p) = Zpos p * 2 ^ Zpos n.
Proof. rewrite shift_pos_correct. rewrite Zpower_pos_nat. rewrite Zpower_nat_Z. rewrite positive_nat_Z. ring. Qed.

(** A number of the format stays the same. *)
Lemma round_exact F s m e mx ex : good F -> canon F (S754_finite s m e) ->
  (ex <= e -> Zpos mx = Zpos m * 2 ^ (e - ex)) -> (e <= ex -> Zpos m = Zpos mx * 2 ^ (ex - e)) ->
  binary_round (f_prec F) (f_emax F) s mx ex = S754_finite s m e.
Proof.
  intros G C H1 H2. unfold binary_round, shl_align.
  assert (D : Zpos (digits2_pos mx) + ex = Zpos (digits2_pos m) + e).
  { destruct (Z.le_ge_cases ex e) as [L | L].
    - rewrite (digits_shift mx m (e - ex)) by (lia || auto). lia.
    - rewrite (digits_shift m mx (ex - e)) by (lia || auto). lia. }
  rewrite D, (canon_fexp F s m e G C). destruct (e - ex) as [|p|p] eqn:Ep.
  - apply round_aux_exact; auto; try lia. rewrite H1 by lia. f_equal. f_equal. lia.
  - apply round_aux_exact; auto; try lia. rewrite H1 by lia. f_equal. f_equal. lia.
  - assert (Em : shift_pos p mx = m).
    { apply Pos2Z.inj_iff. rewrite shift_pos_mul. rewrite (H2 ltac:(lia)). f_equal. f_equal. lia. }
    rewrite Em. apply round_aux_exact; auto; try lia. rewrite Z.sub_diag. lia.
Qed.

Lemma normalize_round F s m e z : binary_normalize (f_prec F) (f_emax F) (signed s m) e z = binary_round (f_prec F) (f_emax F) s m e.
Proof. destruct s; reflexivity. Qed.

(** In units: multiples of 2^k for a small enough k. *)
Lemma scale_eq m e n d k : k <= e -> k <= d -> Zpos m * 2 ^ (e - k) = Zpos n * 2 ^ (d - k) ->
  (d <= e -> Zpos n = Zpos m * 2 ^ (e - d)) /\ (e <= d -> Zpos m = Zpos n * 2 ^ (d - e)).
Proof.
  intros He Hd E. split; intros L.
  - replace (e - k) with ((e - d) + (d - k)) in E by lia. rewrite Z.pow_add_r in E by lia. rewrite Z.mul_assoc in E.
    apply Z.mul_cancel_r in E; [symmetry; exact E|]. apply Z.pow_nonzero; lia.
  - replace (d - k) with ((d - e) + (e - k)) in E by lia. rewrite Z.pow_add_r in E by lia. rewrite Z.mul_assoc in E.
    apply Z.mul_cancel_r in E; [exact E|]. apply Z.pow_nonzero; lia.
Qed.

Lemma fexp_le_emin F x : emin (f_prec F) (f_emax F) <= fexp (f_prec F) (f_emax F) x.
Proof. unfold fexp. lia. Qed.

Lemma pow_pos2 k : 0 <= k -> 0 < 2 ^ k.
Proof. intros. apply Z.pow_pos_nonneg; lia. Qed.

(** There is a number of the format with the same amount. *)
Lemma canon_exists F m e : good F -> emin (f_prec F) (f_emax F) <= e -> Zpos (digits2_pos m) <= f_prec F ->
  Zpos (digits2_pos m) + e <= f_emax F ->
  exists m' e', (forall s, canon F (S754_finite s m' e')) /\ e' <= e /\ Zpos m' = Zpos m * 2 ^ (e - e').
Proof.
  intros (Hm & He & Hx) H1 H2 H3. set (e' := fexp (f_prec F) (f_emax F) (Zpos (digits2_pos m) + e)).
  assert (L : e' <= e) by (unfold e', fexp; unfold emin in *; lia).
  assert (P : 0 < Zpos m * 2 ^ (e - e')) by (apply Z.mul_pos_pos; [lia | apply pow_pos2; lia]).
  assert (N : exists n, Zpos n = Zpos m * 2 ^ (e - e')) by (exists (Z.to_pos (Zpos m * 2 ^ (e - e'))); apply Z2Pos.id; exact P).
  destruct N as [n E]. exists n, e'. split; [|split; [exact L | exact E]]. intros s. cbn [canon].
  pose proof (digits_shift _ _ (e - e') ltac:(lia) E) as D. unfold f_prec in *.
  repeat split.
  - unfold e'. apply (fexp_le_emin F).
  - unfold e', fexp, emin, f_prec in *. lia.
  - apply digits_bounds; [lia|]. rewrite D. unfold e', fexp. lia.
  - destruct (Z.eq_dec e' (emin (f_mw F + 1) (f_emax F))) as [Eq | Ne]; [left; exact Eq|]. right.
    apply digits_lower; [lia|]. rewrite D. unfold e', fexp in *. lia.
Qed.

Definition fits (F : format) : Prop := good F /\ -1074 <= emin (f_prec F) (f_emax F).

Lemma ieee_fits F : ieee_format F -> fits F.
Proof. intros H. split; [exact (ieee_good F H)|]. destruct H as [-> | ->]; unfold emin, f_prec, f_emax; cbn; lia. Qed.

Lemma signed_scale s m n k l : 0 <= k -> 0 <= l -> signed s m * 2 ^ k = signed s n * 2 ^ l -> Zpos m * 2 ^ k = Zpos n * 2 ^ l.
Proof.
  intros Hk Hl. destruct s; cbn [signed]; [|auto]. change (Zneg m) with (- Zpos m). change (Zneg n) with (- Zpos n). lia.
Qed.

Lemma scale_signed s m n k l : Zpos m * 2 ^ k = Zpos n * 2 ^ l -> signed s m * 2 ^ k = signed s n * 2 ^ l.
Proof. destruct s; cbn [signed]; [|auto]. change (Zneg m) with (- Zpos m). change (Zneg n) with (- Zpos n). lia. Qed.

(** Conversion of a number that the format has. *)
Lemma convert_exact F f g : fits F -> canon F g -> match f with S754_finite _ _ e => -1074 <= e | _ => True end ->
  amount_of f = amount_of g -> negative f = negative g -> convert F f = g.
Proof.
  intros [G K] C Hf Ha Hn. destruct f as [s|[]| |s m e], g as [s'|[]| |s' m' e']; cbn in *; try congruence.
  - exfalso. injection Ha as E. symmetry in E. apply Z.mul_eq_0 in E. destruct E as [E | E]; [destruct s'; discriminate|].
    apply Z.pow_nonzero in E; lia.
  - exfalso. injection Ha as E. apply Z.mul_eq_0 in E. destruct E as [E | E]; [destruct s; discriminate|].
    apply Z.pow_nonzero in E; lia.
  - injection Ha as E. subst s'. rewrite normalize_round. apply round_exact; try assumption.
    all: pose proof (proj1 (proj1 C)) as L.
    all: apply signed_scale in E; try lia.
    all: replace (e + 1074) with (e - -1074) in E by lia; replace (e' + 1074) with (e' - -1074) in E by lia.
    all: apply scale_eq in E; try lia; intros; apply E; lia.
Qed.

Lemma sign_of_amount F g x : fits F -> canon F g -> amount_of g = Finite x ->
  (x < 0 -> negative g = true) /\ (0 < x -> negative g = false).
Proof.
  intros [_ K] C Ha. destruct g as [s|[]| |s m e]; cbn [amount_of] in Ha; try discriminate.
  - assert (E : 0 = x) by congruence. lia.
  - assert (E : signed s m * 2 ^ (e + 1074) = x) by congruence. destruct C as [[L _] _]. pose proof (pow_pos2 (e + 1074) ltac:(lia)) as Hp.
    destruct s; cbn [signed negative] in *; split; intros; try reflexivity.
    + assert (Zneg m * 2 ^ (e + 1074) < 0) by (apply Z.mul_neg_pos; lia). lia.
    + assert (0 < Zpos m * 2 ^ (e + 1074)) by (apply Z.mul_pos_pos; lia). lia.
Qed.

Lemma from_int_exact F z g : fits F -> canon F g -> amount_of g = integer z -> (z = 0 -> negative g = false) -> from_int F z = g.
Proof.
  intros Hf C Ha Hz. pose proof (sign_of_amount F g _ Hf C Ha) as [S1 S2]. pose proof (pow_pos2 1074 ltac:(lia)) as HU.
  unfold from_int, integer in *. destruct z as [|p|p].
  - specialize (Hz eq_refl). rewrite Z.mul_0_l in Ha. destruct g as [s|[]| |s m e]; cbn [amount_of negative] in *; try discriminate.
    + subst s. reflexivity.
    + exfalso. assert (E : signed s m * 2 ^ (e + 1074) = 0) by congruence.
      apply Z.mul_eq_0 in E. destruct E as [E | E]; [destruct s; discriminate|].
      destruct C as [[L _] _]. destruct Hf as [_ K]. apply Z.pow_nonzero in E; lia.
  - apply (convert_exact F (S754_finite false p 0) g Hf C); cbn [amount_of negative signed]; try lia.
    + symmetry. exact Ha.
    + symmetry. apply S2. apply Z.mul_pos_pos; lia.
  - apply (convert_exact F (S754_finite true p 0) g Hf C); cbn [amount_of negative signed]; try lia.
    + symmetry. exact Ha.
    + symmetry. apply S1. apply Z.mul_neg_pos; lia.
Qed.

(* ------------------------------------------------------------------ *)
(** ** Bits *)

Lemma split_bits F b : good F -> 0 <= b < 2 ^ (f_mw F + f_ew F + 1) ->
  exists S e m, (S = 0 \/ S = 1) /\ 0 <= e < 2 ^ f_ew F /\ 0 <= m < 2 ^ f_mw F /\
    b = S * 2 ^ (f_mw F + f_ew F) + e * 2 ^ f_mw F + m /\
    b mod 2 ^ f_mw F = m /\ (b / 2 ^ f_mw F) mod 2 ^ f_ew F = e /\ b / 2 ^ (f_mw F + f_ew F) = S.
Proof.
  intros (Hm & He & _) Hb. pose proof (pow_pos2 (f_mw F) ltac:(lia)) as PM. pose proof (pow_pos2 (f_ew F) ltac:(lia)) as PE.
  rewrite !Z.pow_add_r in Hb by lia. change (2 ^ 1) with 2 in Hb.
  exists (b / 2 ^ (f_mw F + f_ew F)), ((b / 2 ^ f_mw F) mod 2 ^ f_ew F), (b mod 2 ^ f_mw F).
  rewrite Z.pow_add_r by lia. rewrite <- Z.div_div by lia.
  set (M := 2 ^ f_mw F) in *. set (E := 2 ^ f_ew F) in *.
  pose proof (Z.div_mod b M ltac:(lia)) as D1. pose proof (Z.div_mod (b / M) E ltac:(lia)) as D2.
  pose proof (Z.mod_pos_bound b M PM) as B1. pose proof (Z.mod_pos_bound (b / M) E PE) as B2.
  assert (H0 : 0 <= b / M / E) by (apply Z.div_pos; [apply Z.div_pos|]; lia).
  assert (H1 : b / M / E < 2).
  { rewrite Z.div_div by lia. apply Z.div_lt_upper_bound; [apply Z.mul_pos_pos; lia|]. lia. }
  repeat split; try lia. 
Qed.

Lemma odd_small S : S = 0 \/ S = 1 -> Z.odd S = (S =? 1).
Proof. intros [-> | ->]; reflexivity. Qed.

Lemma sign_bit_odd F S : S = 0 \/ S = 1 -> sign_bit F (Z.odd S) = S * 2 ^ (f_mw F + f_ew F).
Proof. unfold sign_bit. intros [-> | ->]; cbn [Z.odd]; lia. Qed.

Lemma emin_range F : good F -> emin (f_prec F) (f_emax F) + 2 ^ f_ew F - 3 = f_emax F - f_prec F.
Proof.
  intros (Hm & He & _). unfold emin, f_emax, f_prec.
  replace (2 ^ f_ew F) with (2 * 2 ^ (f_ew F - 1)); [lia|]. rewrite <- Z.pow_succ_r by lia. f_equal. lia.
Qed.

Lemma decode_canon F b : good F -> canon F (decode F b).
Proof.
  intros G. pose proof G as (Hm & He & Hx). unfold decode.
  pose proof (pow_pos2 (f_mw F) ltac:(lia)) as PM. pose proof (pow_pos2 (f_ew F) ltac:(lia)) as PE. pose proof (emin_range F G) as R.
  set (m := Z.of_N b mod 2 ^ f_mw F). set (e := (Z.of_N b / 2 ^ f_mw F) mod 2 ^ f_ew F).
  assert (Bm : 0 <= m < 2 ^ f_mw F) by (apply Z.mod_pos_bound; exact PM).
  assert (Be : 0 <= e < 2 ^ f_ew F) by (apply Z.mod_pos_bound; exact PE).
  assert (P2 : 2 ^ f_prec F = 2 * 2 ^ f_mw F) by (unfold f_prec; rewrite Z.pow_add_r by lia; lia).
  clearbody m e. destruct (Z.eqb_spec e 0) as [E0 | N0].
  - destruct m as [|p|p] eqn:Em; cbn [canon]; try exact I. unfold emin. unfold f_prec in *. repeat split; try lia.
  - destruct (Z.eqb_spec e (2 ^ f_ew F - 1)) as [E1 | N1]; [destruct (m =? 0); exact I|].
    destruct (m + 2 ^ f_mw F) as [|p|p] eqn:Em; cbn [canon]; try exact I. repeat split; lia.
Qed.

Lemma encode_decode F b : ieee_format F -> bits_of_format F b -> nan_free F b -> encode F (decode F b) = b.
Proof.
  intros HF Hb Hn. pose proof (ieee_good F HF) as G. pose proof G as (Hm & He & Hx). unfold bits_of_format in Hb.
  destruct (split_bits F (Z.of_N b) G) as (S & e & m & HS & Be & Bm & E & Em & Ee & Es); [lia|].
  unfold nan_free in Hn. unfold decode in *. rewrite Em, Ee, Es in *. unfold encode. rewrite <- (N2Z.id b). f_equal. rewrite E.
  clear E Em Ee Es Hb b.
  destruct (Z.eqb_spec e 0) as [-> | N0].
  - destruct m as [|p|p]; cbn [amount_of] in Hn |- *; try lia.
    + rewrite sign_bit_odd by exact HS. lia.
    + rewrite sign_bit_odd by exact HS. destruct (Z.ltb_spec (Zpos p) (2 ^ f_mw F)); lia.
  - destruct (Z.eqb_spec e (2 ^ f_ew F - 1)) as [E1 | N1].
    + destruct (Z.eqb_spec m 0) as [-> | Nm].
      * rewrite sign_bit_odd by exact HS. rewrite E1. lia.
      * exfalso. apply Hn. reflexivity.
    + pose proof (pow_pos2 (f_mw F) ltac:(lia)) as PM.
      destruct (m + 2 ^ f_mw F) as [|p|p] eqn:Ep; try lia. rewrite sign_bit_odd by exact HS.
      destruct (Z.ltb_spec (Zpos p) (2 ^ f_mw F)); [lia|]. rewrite <- Ep.
      replace (e + emin (f_prec F) (f_emax F) - 1 - emin (f_prec F) (f_emax F) + 1) with e by lia. lia.
Qed.

(** The three parts of the bits. *)
Lemma bit_parts F s e m : good F -> 0 <= e < 2 ^ f_ew F -> 0 <= m < 2 ^ f_mw F ->
    Z.of_N (Z.to_N (sign_bit F s + e * 2 ^ f_mw F + m)) mod 2 ^ f_mw F = m /\
    (Z.of_N (Z.to_N (sign_bit F s + e * 2 ^ f_mw F + m)) / 2 ^ f_mw F) mod 2 ^ f_ew F = e /\
    Z.odd (Z.of_N (Z.to_N (sign_bit F s + e * 2 ^ f_mw F + m)) / 2 ^ (f_mw F + f_ew F)) = s.
Proof.
    intros G Be Bm. pose proof G as (Hm & He & Hx).
    pose proof (pow_pos2 (f_mw F) ltac:(lia)) as PM. pose proof (pow_pos2 (f_ew F) ltac:(lia)) as PE.
    assert (0 <= e * 2 ^ f_mw F) by (apply Z.mul_nonneg_nonneg; lia).
    assert (0 <= sign_bit F s) by (unfold sign_bit; destruct s; [apply Z.pow_nonneg; lia | lia]).
    rewrite Z2N.id by lia. unfold sign_bit. rewrite Z.pow_add_r by lia. 
    assert (Hd : (if s then 2 ^ f_mw F * 2 ^ f_ew F else 0) + e * 2 ^ f_mw F + m = m + ((if s then 2 ^ f_ew F else 0) + e) * 2 ^ f_mw F) by (destruct s; ring).
    rewrite Hd. rewrite <- Z.div_div by lia. rewrite Z.mod_add, Z.div_add by lia. rewrite (Z.div_small m), (Z.mod_small m) by lia.
    split; [reflexivity|]. rewrite Z.add_0_l. split.
    - destruct s; rewrite Z.add_comm; [replace (e + 2 ^ f_ew F) with (e + 1 * 2 ^ f_ew F) by lia; rewrite Z.mod_add by lia|rewrite Z.add_0_r]; apply Z.mod_small; lia.
    - destruct s; rewrite Z.add_comm; [replace (e + 2 ^ f_ew F) with (e + 1 * 2 ^ f_ew F) by lia; rewrite Z.div_add by lia|rewrite Z.add_0_r]; rewrite Z.div_small by lia; reflexivity. 
Qed.

Lemma decode_encode F f : good F -> canon F f -> f <> S754_nan -> decode F (encode F f) = f.
Proof.
  intros G C Hn. pose proof G as (Hm & He & Hx).
  pose proof (pow_pos2 (f_mw F) ltac:(lia)) as PM. pose proof (pow_pos2 (f_ew F) ltac:(lia)) as PE. pose proof (emin_range F G) as R.
  assert (Key := fun s e m => bit_parts F s e m G).
  assert (E2 : 2 <= 2 ^ f_ew F) by (change 2 with (2 ^ 1) at 1; apply Z.pow_le_mono_r; lia).
  assert (P2 : 2 ^ f_prec F = 2 * 2 ^ f_mw F) by (unfold f_prec; rewrite Z.pow_add_r by lia; lia).
  unfold decode, encode. destruct f as [s|s| |s m e].
  - destruct (Key s 0 0 ltac:(lia) ltac:(lia)) as (K1 & K2 & K3). replace (sign_bit F s) with (sign_bit F s + 0 * 2 ^ f_mw F + 0) by lia.
    rewrite K1, K2, K3. reflexivity.
  - destruct (Key s (2 ^ f_ew F - 1) 0 ltac:(lia) ltac:(lia)) as (K1 & K2 & K3).
    replace (sign_bit F s + (2 ^ f_ew F - 1) * 2 ^ f_mw F) with (sign_bit F s + (2 ^ f_ew F - 1) * 2 ^ f_mw F + 0) by lia.
    rewrite K1, K2, K3. destruct (Z.eqb_spec (2 ^ f_ew F - 1) 0); [lia|]. rewrite Z.eqb_refl. reflexivity.
  - congruence.
  - destruct C as (Hr & Hu & Hc). destruct (Z.ltb_spec (Zpos m) (2 ^ f_mw F)) as [L | L].
    + destruct (Key s 0 (Zpos m) ltac:(lia) ltac:(lia)) as (K1 & K2 & K3).
      replace (sign_bit F s + Zpos m) with (sign_bit F s + 0 * 2 ^ f_mw F + Zpos m) by lia.
      rewrite K1, K2, K3. cbn [Z.eqb]. f_equal. lia.
    + destruct (Key s (e - emin (f_prec F) (f_emax F) + 1) (Zpos m - 2 ^ f_mw F) ltac:(lia) ltac:(lia)) as (K1 & K2 & K3).
      rewrite Z.add_assoc. rewrite K1, K2, K3.
      destruct (Z.eqb_spec (e - emin (f_prec F) (f_emax F) + 1) 0); [lia|].
      destruct (Z.eqb_spec (e - emin (f_prec F) (f_emax F) + 1) (2 ^ f_ew F - 1)); [lia|].
      replace (Zpos m - 2 ^ f_mw F + 2 ^ f_mw F) with (Zpos m) by lia. f_equal. lia.
Qed.
