(** Doubles that are kept, and those that are not. *)
From Coq Require Import String List ZArith NArith Bool SpecFloat Lia.
From Verif Require Import Base EnumModel ScalarModel ScalarSpec SerialModel SerialSpec FloatModel FloatSpec FloatProofs FloatRoundProofs FloatMainProofs
  JtextModel JtextSpec JtextNumProofs JnumModel JnumSpec JnumRoundProofs JnumArithProofs JnumProofs JnumMainProofs JnumSamples JtextProofs JtextMoreProofs.
Import ListNotations.
Local Open Scope list_scope.
Local Open Scope Z_scope.

Local Notation str := (list N) (only parsing).

(** The amount and the sign determine a double. *)
Lemma same_double b b' y : bits_of_format binary64 b -> bits_of_format binary64 b' ->
  amount_of (decode binary64 b) = Finite y -> amount_of (decode binary64 b') = Finite y ->
  negative (decode binary64 b) = negative (decode binary64 b') -> b = b'.
Proof.
  intros Hb Hb' Ha Ha' Hn.
  assert (NF : nan_free binary64 b) by (unfold nan_free; rewrite Ha; discriminate).
  assert (NF' : nan_free binary64 b') by (unfold nan_free; rewrite Ha'; discriminate).
  pose proof (decode_canon binary64 b good64) as C. pose proof (decode_canon binary64 b' good64) as C'.
  assert (Small : match decode binary64 b with S754_finite _ _ e => -1074 <= e | _ => True end).
  { destruct (decode binary64 b) as [|[]| |s m e] eqn:E; try exact I. exact (small_exponent _ _ _ _ _ f64 E). }
  pose proof (convert_exact binary64 _ _ fits64 C Small eq_refl eq_refl) as E1.
  pose proof (convert_exact binary64 _ _ fits64 C' Small ltac:(rewrite Ha, Ha'; reflexivity) Hn) as E2.
  rewrite <- (encode_decode binary64 b f64 Hb NF), <- (encode_decode binary64 b' f64 Hb' NF'). congruence.
Qed.

Lemma closest_kept write b neg m p : bits_of_format binary64 b -> finite b -> real (write b) -> stands_for (write b) neg m p ->
  (m < 2 ^ 53)%N -> -22 <= p <= 22 -> closest_decimal neg m p b -> negative (decode binary64 b) = neg ->
  kept_by (normal_precision write) b.
Proof.
  intros Hb Hf Hr Hs Hm Hp (y & Ha & Hc) Hn. split; [exact Hf|]. cbn [dtoa strtod normal_precision]. split; [exact Hr|].
  destruct (number_near _ _ _ _ Hs Hm Hp) as (b' & -> & N' & B' & F' & S'). f_equal. symmetry.
  unfold nearest_decimal, nearest_ratio in N'. destruct (amount_of (decode binary64 b')) as [y'| | |] eqn:Ea'.
  - destruct N' as [_ N']. destruct (N' b y Hb Ha) as [D _]. destruct (Z.eq_dec y' y) as [-> | Ne].
    + apply (same_double b b' y); [exact Hb|exact B'|exact Ha|exact Ea'|congruence].
    + specialize (Hc b' y' B' Ea' Ne). lia.
  - exfalso. apply F'. clear - Ea' B'. unfold decode in Ea'. revert Ea'. cbn [f_mw f_ew binary64].
    set (e := (Z.of_N b' / 2 ^ 52) mod 2 ^ 11). destruct (Z.eqb_spec e 0); [destruct (Z.of_N b' mod 2 ^ 52); discriminate|].
    destruct (Z.eqb_spec e (2 ^ 11 - 1)) as [E|E]; [|destruct (Z.of_N b' mod 2 ^ 52 + 2 ^ 52); discriminate]. intros _.
    apply N2Z.inj. rewrite N2Z.inj_mod, N2Z.inj_div. exact E.
  - exfalso. apply F'. clear - Ea' B'. unfold decode in Ea'. revert Ea'. cbn [f_mw f_ew binary64].
    set (e := (Z.of_N b' / 2 ^ 52) mod 2 ^ 11). destruct (Z.eqb_spec e 0); [destruct (Z.of_N b' mod 2 ^ 52); discriminate|].
    destruct (Z.eqb_spec e (2 ^ 11 - 1)) as [E|E]; [|destruct (Z.of_N b' mod 2 ^ 52 + 2 ^ 52); discriminate]. intros _.
    apply N2Z.inj. rewrite N2Z.inj_mod, N2Z.inj_div. exact E.
  - contradiction.
Qed.

(** Checking that a double is closest. *)
Lemma closest_check neg m p b s x e : decode binary64 b = S754_finite s x e ->
  2 ^ 52 <= Zpos x -> signed s x = Zpos x ->
  2 * Z.abs (above neg m p - Zpos x * (2 ^ (e + 1074) * below p)) < 2 ^ (e + 1074) * below p ->
  2 ^ 52 * (2 ^ (e + 1074) * below p) <= above neg m p -> closest_decimal neg m p b.
Proof.
  intros Ed Hx Hs Hn Hl. pose proof (small_exponent _ _ _ _ _ f64 Ed) as He.
  exists (Zpos x * 2 ^ (e + 1074)). rewrite Ed. split; [cbn [amount_of]; rewrite Hs; reflexivity|]. intros h z _ Hz Nz.
  assert (PB : 0 < below p) by (apply Z.pow_pos_nonneg; lia). pose proof (pow_pos2 (e + 1074) ltac:(lia)) as PU.
  set (U := 2 ^ (e + 1074)) in *. set (B := below p) in *. set (A := above neg m p) in *.
  assert (PUB : 0 < U * B) by (apply Z.mul_pos_pos; lia). replace (Zpos x * U * B) with (Zpos x * (U * B)) by ring.
  destruct (grid binary64 (decode binary64 h) z e fits64 (decode_canon _ _ good64) Hz He) as [[j Ej] | [L Lz]].
  - fold U in Ej. subst z. assert (Nj : j <> Zpos x) by (intros ->; apply Nz; reflexivity). replace (j * U * B) with (j * (U * B)) by ring.
    pose proof (grid_distance (U * B) (Zpos x) j A PUB ltac:(lia) Nj). lia.
  - fold U in Lz. change (f_mw binary64) with 52 in Lz.
    assert (Hz' : z * B < 2 ^ 52 * (U * B)) by (rewrite Z.mul_assoc; apply Z.mul_lt_mono_pos_r; lia).
    assert (Z.abs (A - Zpos x * (U * B)) <= Z.abs (A - 2 ^ 52 * (U * B))); [|lia].
    destruct (Z.eq_dec (2 ^ 52) (Zpos x)) as [-> | Nj]; [lia|]. pose proof (grid_distance (U * B) (Zpos x) (2 ^ 52) A PUB ltac:(lia) Nj). lia.
Qed.

Lemma digits_text s : forallb is_digit s = true -> s <> [] -> digits s.
Proof. intros H Hn. split; [exact Hn|]. rewrite Forall_forall. rewrite forallb_forall in H. intros c Hc. apply is_digit_iff, H, Hc. Qed.
Lemma numeral_text s : forallb is_digit s = true -> s <> [] -> numeral 10 s (dec s 0).
Proof. intros H Hn. apply numeral_dec. split; [exact Hn|]. split; [apply digits_text; assumption|reflexivity]. Qed.

Lemma eleventh_stands : stands_for eleventh_text false 9090909090909091 (-17).
Proof.
  exists (codes "0"%string), (codes ".09090909090909091"%string), (codes "09090909090909091"%string), [], 0.
  split; [reflexivity|]. split; [apply digits_text; [reflexivity|discriminate]|]. split; [intros t [= <-]; reflexivity|].
  split; [right; split; [reflexivity|apply digits_text; [reflexivity|discriminate]]|]. split; [left; split; reflexivity|].
  split; [|reflexivity]. exact (numeral_text (codes "009090909090909091"%string) eq_refl ltac:(discriminate)).
Qed.
Lemma eleventh_real : real eleventh_text.
Proof.
  exists (codes "0"%string), 0, (codes ".09090909090909091"%string), []. split; [reflexivity|]. split.
  { exists (codes "0"%string), 0%N. split; [exact (numeral_text (codes "0"%string) eq_refl ltac:(discriminate))|]. split; [intros s' [= <-]; reflexivity|]. left. split; reflexivity. }
  split; [right; exists (codes "09090909090909091"%string); split; [reflexivity|apply digits_text; [reflexivity|discriminate]]|].
  split; [left; reflexivity|left; discriminate].
Qed.
Lemma eleventh_closest : closest_decimal false 9090909090909091 (-17) eleventh.
Proof.
  destruct (decode binary64 eleventh) as [s|s| |s x e] eqn:E; try discriminate (E).
  apply (closest_check false 9090909090909091 (-17) eleventh s x e E); vm_compute in E; injection E as <- <- <-.
  - vm_compute. discriminate.
  - reflexivity.
  - vm_compute. reflexivity.
  - vm_compute. discriminate.
Qed.
Lemma tiny_stands : stands_for tiny_text false 1 (-23).
Proof.
  exists (codes "1"%string), [], [], (codes "e-23"%string), (-23).
  split; [reflexivity|]. split; [apply digits_text; [reflexivity|discriminate]|]. split; [intros t [=]|].
  split; [left; split; reflexivity|]. split.
  { right. exists 101%N, [45%N], (codes "23"%string), 23%N. split; [reflexivity|]. split; [left; reflexivity|].
    split; [exact (numeral_text (codes "23"%string) eq_refl ltac:(discriminate))|]. right. split; reflexivity. }
  split; [|reflexivity]. exact (numeral_text (codes "1"%string) eq_refl ltac:(discriminate)).
Qed.
Lemma tiny_closest : closest_decimal false 1 (-23) tiny.
Proof.
  destruct (decode binary64 tiny) as [s|s| |s x e] eqn:E; try discriminate (E).
  apply (closest_check false 1 (-23) tiny s x e E); vm_compute in E; injection E as <- <- <-.
  - vm_compute. discriminate.
  - reflexivity.
  - vm_compute. reflexivity.
  - vm_compute. discriminate.
Qed.

Lemma not_nearest neg m p b y b' y' : amount_of (decode binary64 b) = Finite y -> amount_of (decode binary64 b') = Finite y' ->
  bits_of_format binary64 b' -> Z.abs (above neg m p - y' * below p) <? Z.abs (above neg m p - y * below p) = true -> ~ nearest_decimal neg m p b.
Proof. intros Ha Ha' Hb H N. apply Z.ltb_lt in H. unfold nearest_decimal, nearest_ratio in N. rewrite Ha in N. destruct N as [_ N]. specialize (N b' y' Hb Ha'). lia. Qed.

Lemma eleventh_misread : read_number eleventh_text = Ok (Some (eleventh + 1)%N).
Proof. vm_compute. reflexivity. Qed.
Lemma tiny_misread : read_number tiny_text = Ok (Some (tiny + 1)%N).
Proof. vm_compute. reflexivity. Qed.

Lemma eleventh_not_nearest : ~ nearest_decimal false 9090909090909091 (-17) (eleventh + 1).
Proof. eapply not_nearest with (b' := eleventh); [vm_compute; reflexivity|vm_compute; reflexivity|vm_compute; reflexivity|vm_compute; reflexivity]. Qed.
Lemma tiny_not_nearest : ~ nearest_decimal false 1 (-23) (tiny + 1).
Proof. eapply not_nearest with (b' := tiny); [vm_compute; reflexivity|vm_compute; reflexivity|vm_compute; reflexivity|vm_compute; reflexivity]. Qed.

Lemma zero_stands : stands_for zero_text false 0 309.
Proof.
  exists (codes "0"%string), [], [], (codes "e309"%string), 309.
  split; [reflexivity|]. split; [apply digits_text; [reflexivity|discriminate]|]. split; [intros t [= <-]; reflexivity|].
  split; [left; split; reflexivity|]. split.
  { right. exists 101%N, [], (codes "309"%string), 309%N. split; [reflexivity|]. split; [left; reflexivity|].
    split; [exact (numeral_text (codes "309"%string) eq_refl ltac:(discriminate))|]. left. split; [left|]; reflexivity. }
  split; [|reflexivity]. exact (numeral_text (codes "0"%string) eq_refl ltac:(discriminate)).
Qed.
Lemma long_one_stands : stands_for long_one_text false (10 ^ 400) (-400).
Proof.
  exists (49%N :: repeat 48%N 400), [], [], (codes "e-400"%string), (-400).
  split; [reflexivity|]. split; [apply digits_text; [reflexivity|discriminate]|]. split; [intros t [=]|].
  split; [left; split; reflexivity|]. split.
  { right. exists 101%N, [45%N], (codes "400"%string), 400%N. split; [reflexivity|]. split; [left; reflexivity|].
    split; [exact (numeral_text (codes "400"%string) eq_refl ltac:(discriminate))|]. right. split; reflexivity. }
  split; [|reflexivity].
  replace (10 ^ 400)%N with (dec (49%N :: repeat 48%N 400) 0) by (vm_compute; reflexivity).
  rewrite app_nil_r. exact (numeral_text (49%N :: repeat 48%N 400) eq_refl ltac:(discriminate)).
Qed.

(** Dumped and parsed. *)
Lemma eleventh_lost write fp pretty : write eleventh = eleventh_text ->
  dump_text (normal_precision write) fp pretty TDouble (VDbl eleventh) = Ok eleventh_text /\
  parse (normal_precision write) eleventh_text = Ok (JDbl (eleventh + 1)).
Proof.
  intros E. split.
  - destruct pretty; vm_compute in E |- *; rewrite E; reflexivity.
  - vm_compute. reflexivity.
Qed.

Lemma few_kept write b : few_digits write b -> kept_by (normal_precision write) b.
Proof. intros (Hb & Hf & Hr & neg & m & p & Hs & Hm & Hp & Hc & Hn). exact (closest_kept write b neg m p Hb Hf Hr Hs Hm Hp Hc Hn). Qed.

Lemma few_round write pretty fp t v w j s : wf t -> typed t v -> rt (Json fp) true t v w -> serialize (Json fp) true t v = Ok j ->
  throughout (fun _ => True) (few_digits write) short j -> dump_text (normal_precision write) fp pretty t v = Ok s ->
  exists j', parse (normal_precision write) s = Ok j' /\ deser (Json fp) t j' w = (v, None).
Proof.
  intros H1 H2 H3 H4 H5 H6. apply (text_round (normal_precision write) pretty fp t v w j s H1 H2 H3 H4); [|exact H6].
  revert H5. apply throughout_mono; auto. apply few_kept.
Qed.

Lemma one_half_few : few_digits demo_write 4609434218613702656.
Proof.
  split; [vm_compute; reflexivity|]. split; [vm_compute; discriminate|]. split.
  { exists (codes "1"%string), 1, (codes ".5"%string), []. split; [reflexivity|]. split.
    { exists (codes "1"%string), 1%N. split; [exact (numeral_text (codes "1"%string) eq_refl ltac:(discriminate))|]. split; [intros s' [=]|]. left. split; reflexivity. }
    split; [right; exists (codes "5"%string); split; [reflexivity|apply digits_text; [reflexivity|discriminate]]|].
    split; [left; reflexivity|left; discriminate]. }
  exists false, 15%N, (-1). split.
  { exists (codes "1"%string), (codes ".5"%string), (codes "5"%string), [], 0.
    split; [reflexivity|]. split; [apply digits_text; [reflexivity|discriminate]|]. split; [intros t [=]|].
    split; [right; split; [reflexivity|apply digits_text; [reflexivity|discriminate]]|]. split; [left; split; reflexivity|].
    split; [|reflexivity]. exact (numeral_text (codes "15"%string) eq_refl ltac:(discriminate)). }
  split; [reflexivity|]. split; [lia|]. split; [|vm_compute; reflexivity].
  destruct (decode binary64 4609434218613702656) as [s|s| |s x e] eqn:E; try discriminate (E).
  apply (closest_check false 15 (-1) 4609434218613702656 s x e E); vm_compute in E; injection E as <- <- <-.
  - vm_compute. discriminate.
  - reflexivity.
  - vm_compute. reflexivity.
  - vm_compute. discriminate.
Qed.
