(** Proofs about enums. *)
From Coq Require Import List NArith ZArith Arith Bool Lia ZifyBool ZifyNat ZifyN FinFun.
From Verif Require Import Base PathModel EnumModel EnumSpec.
Import ListNotations.
Local Open Scope outcome_scope.
Arguments Z.modulo : simpl never.
Arguments Z.pow : simpl never.
Arguments Z.sub : simpl never.
Arguments Z.add : simpl never.
Arguments Z.mul : simpl never.

(* ---------- integer types ---------- *)

Lemma bits_pos t : int_type t -> 1 <= ibits t.
Proof. unfold int_type. cbn. intuition lia. Qed.

Lemma ity_span t : 1 <= ibits t -> (ity_max t - ity_min t = 2 ^ Z.of_nat (ibits t) - 1)%Z.
Proof.
  intros H. unfold ity_max, ity_min. destruct (isigned t); [|lia].
  replace (2 ^ Z.of_nat (ibits t))%Z with (2 * 2 ^ (Z.of_nat (ibits t) - 1))%Z; [lia|].
  rewrite <- Z.pow_succ_r by lia. f_equal. lia.
Qed.

Lemma wrap_range t z : 1 <= ibits t -> of_type t (wrap t z).
Proof.
  intros H. unfold of_type, wrap. pose proof (ity_span t H).
  pose proof (Z.mod_pos_bound (z - ity_min t) (2 ^ Z.of_nat (ibits t))). lia.
Qed.

Lemma wrap_id t z : 1 <= ibits t -> of_type t z -> wrap t z = z.
Proof.
  intros H [H1 H2]. unfold wrap. pose proof (ity_span t H). rewrite Z.mod_small; lia.
Qed.

Lemma arith_id t z : 1 <= ibits t -> of_type t z -> arith t z = Ok z.
Proof.
  intros H [H1 H2]. unfold arith. destruct (isigned t).
  - destruct (Z.ltb_spec z (ity_min t)); [lia|]. destruct (Z.ltb_spec (ity_max t) z); [lia|]. reflexivity.
  - now rewrite wrap_id by (auto; split; assumption).
Qed.

Lemma int_type_cases (P : ity -> Prop) :
  P (mkity true 8) -> P (mkity true 16) -> P (mkity true 32) -> P (mkity true 64) ->
  P (mkity false 8) -> P (mkity false 16) -> P (mkity false 32) -> P (mkity false 64) ->
  forall t, int_type t -> P t.
Proof.
  intros H1 H2 H3 H4 H5 H6 H7 H8 [s b] Ht. unfold int_type in Ht. cbn in Ht.
  destruct Ht as [<- |[<- |[<- |[<- |[]]]]]; destruct s; assumption.
Qed.

Ltac each_type t Ht :=
  let s := fresh "s" in let b := fresh "b" in
  destruct t as [s b]; unfold int_type in Ht; cbn [In ibits] in Ht;
  destruct Ht as [<- |[<- |[<- |[<- |[]]]]]; destruct s;
  unfold of_type, ity_min, ity_max, promote in *; cbn in *.

Lemma promote_bits t : int_type t -> 1 <= ibits (promote t).
Proof. revert t. apply int_type_cases; cbn; lia. Qed.

Lemma promote_of_type t z : int_type t -> of_type t z -> of_type (promote t) z.
Proof.
  intros Ht. revert t Ht z. apply (int_type_cases (fun t => forall z, of_type t z -> of_type (promote t) z));
    intros z; unfold of_type, ity_min, ity_max, promote; cbn; lia.
Qed.

(* ---------- reflector ---------- *)

Lemma str_eqb_true a b : str_eqb a b = true <-> a = b.
Proof. unfold str_eqb. destruct (list_eq_dec N.eq_dec a b); split; intros; congruence. Qed.

Lemma from_string_some tab s z :
  fold_left (fun (ret : option Z) (p : Z * list N) => match ret with
    | None => if str_eqb s (snd p) then Some (fst p) else None | Some _ => ret end) tab (Some z) = Some z.
Proof. induction tab as [|p tab IH]; [reflexivity|]. exact IH. Qed.

Lemma from_string_cons p tab s : from_string (p :: tab) s =
  if str_eqb s (snd p) then Some (fst p) else from_string tab s.
Proof.
  unfold from_string. cbn [fold_left]. destruct (str_eqb s (snd p)); [apply from_string_some|reflexivity].
Qed.

Lemma from_string_in tab n v : NoDup (map snd tab) -> In (v, n) tab -> from_string tab n = Some v.
Proof.
  induction tab as [|p tab IH]; [intros _ []|]. intros Hnd Hin. rewrite from_string_cons. cbn [map] in Hnd.
  inversion Hnd as [|? ? Hp Hnd']; subst. destruct Hin as [-> |Hin].
  - cbn [fst snd]. now rewrite (proj2 (str_eqb_true n n) eq_refl).
  - destruct (str_eqb n (snd p)) eqn:E; [|auto]. apply str_eqb_true in E. subst n. exfalso. apply Hp.
    now apply (in_map snd) in Hin.
Qed.

Lemma from_string_none tab n : from_string tab n = None <-> ~ In n (map snd tab).
Proof.
  induction tab as [|p tab IH]; [cbn; tauto|]. rewrite from_string_cons. cbn [map In].
  destruct (str_eqb n (snd p)) eqn:E.
  - apply str_eqb_true in E. split; [discriminate|]. intros H. exfalso. apply H. left. congruence.
  - rewrite IH. split; intros H; [intros [H'|H']|]; auto.
    subst n. rewrite (proj2 (str_eqb_true _ _) eq_refl) in E. discriminate.
Qed.

Lemma from_string_some_in tab n v : from_string tab n = Some v -> In (v, n) tab.
Proof.
  induction tab as [|p tab IH]; [discriminate|]. rewrite from_string_cons.
  destruct (str_eqb n (snd p)) eqn:E.
  - apply str_eqb_true in E. intros H. injection H as <-. left. subst n. now destruct p.
  - intros H. right. auto.
Qed.

Lemma sorted_from_spec : forall rest cur, sorted_from cur rest = true ->
  forall i p, nth_error rest i = Some p -> (cur + Z.of_nat i < fst p)%Z.
Proof.
  induction rest as [|q rest IH]; intros cur H i p Hi; [destruct i; discriminate|].
  cbn [sorted_from] in H. destruct (Z.leb_spec (fst q) cur); [discriminate|].
  destruct i as [|i]; cbn in Hi.
  - injection Hi as <-. lia.
  - specialize (IH _ H _ _ Hi). lia.
Qed.

Lemma last_nth {A} (l : list A) x : l <> [] -> nth_error l (length l - 1) = Some (List.last l x).
Proof.
  induction l as [|a l IH]; [congruence|]. intros _. destruct l as [|b l]; [reflexivity|].
  replace (length (a :: b :: l) - 1) with (S (length (b :: l) - 1)) by (cbn; lia).
  cbn [nth_error]. rewrite IH by discriminate. reflexivity.
Qed.

Lemma sorted_from_upper : forall rest cur, sorted_from cur rest = true ->
  forall i j p q, i <= j -> nth_error rest i = Some p -> nth_error rest j = Some q ->
    (fst p + Z.of_nat (j - i) <= fst q)%Z.
Proof.
  induction rest as [|x rest IH]; intros cur H i j p q Hij Hi Hj; [destruct i; discriminate|].
  cbn [sorted_from] in H. destruct (Z.leb_spec (fst x) cur); [discriminate|].
  destruct i as [|i]; destruct j as [|j]; cbn in Hi, Hj.
  - injection Hi as <-. injection Hj as <-. cbn. lia.
  - injection Hi as <-. pose proof (sorted_from_spec _ _ H _ _ Hj). lia.
  - lia.
  - replace (S j - S i) with (j - i) by lia. apply (IH _ H i j p q); auto. lia.
Qed.

Lemma ordinary_values t tab : int_type t -> Forall (of_type t) (map fst tab) -> is_ordinary t tab = true ->
  forall i p, nth_error tab i = Some p -> fst p = Z.of_nat i.
Proof.
  intros Ht Hv Ho. destruct tab as [|first rest]; [discriminate|]. unfold is_ordinary in Ho.
  destruct (fst first =? wrap t 0)%Z eqn:E0; [|discriminate].
  destruct (fst (List.last (first :: rest) first) =? wrap t (Z.of_nat (length (first :: rest)) - 1))%Z eqn:E1; [|discriminate].
  cbn [negb orb] in Ho. apply Z.eqb_eq in E0, E1.
  assert (W0 : wrap t 0 = 0%Z).
  { apply wrap_id; [now apply bits_pos|]. clear -Ht. each_type t Ht; lia. }
  rewrite W0 in E0.
  pose proof (last_nth (first :: rest) first ltac:(discriminate)) as HL.
  (* the last value is at least the number of elements minus one, so no wrap *)
  assert (Hlast : (Z.of_nat (length (first :: rest)) - 1 <= fst (List.last (first :: rest) first))%Z).
  { destruct rest as [|r rest].
    - cbn. lia.
    - cbn [length] in HL. replace (S (S (length rest)) - 1) with (S (length rest)) in HL by lia. cbn [nth_error] in HL.
      pose proof (sorted_from_spec _ _ Ho _ _ HL). cbn [length] in *. lia. }
  assert (Hrange : of_type t (fst (List.last (first :: rest) first))).
  { rewrite Forall_forall in Hv. apply Hv. apply in_map. eapply nth_error_In; eauto. }
  rewrite wrap_id in E1.
  2: now apply bits_pos.
  2: { unfold of_type in *. rewrite E0 in *. split; [|lia].
       apply Z.le_trans with 0%Z; [|cbn [length]; lia]. unfold ity_min. destruct (isigned t); [|lia].
       pose proof (Z.pow_nonneg 2 (Z.of_nat (ibits t) - 1)). lia. }
  intros i p Hi. destruct i as [|i]; cbn in Hi; [injection Hi as <-; lia|].
  pose proof (sorted_from_spec _ _ Ho _ _ Hi) as H1.
  assert (Hil : i < length rest) by (apply nth_error_Some; congruence).
  assert (HL' : nth_error rest (length rest - 1) = Some (List.last (first :: rest) first)).
  { replace (length (first :: rest) - 1) with (S (length rest - 1)) in HL by (cbn; lia). exact HL. }
  pose proof (sorted_from_upper _ _ Ho i (length rest - 1) _ _ ltac:(lia) Hi HL') as H2.
  cbn [length] in E1. lia.
Qed.

Lemma find_name_nth tab : (forall i p, nth_error tab i = Some p -> fst p = Z.of_nat i) ->
  forall v def, find_name tab v def =
    if (0 <=? v)%Z then match nth_error tab (Z.to_nat v) with Some p => snd p | None => def end else def.
Proof.
  intros H v def.
  assert (G : forall tab k, (forall i p, nth_error tab i = Some p -> fst p = Z.of_nat (k + i)) ->
    find_name tab v def = if (Z.of_nat k <=? v)%Z then
       match nth_error tab (Z.to_nat v - k) with Some p => snd p | None => def end else def).
  { clear. induction tab as [|q tab IH]; intros k H; cbn [find_name].
    - destruct (Z.to_nat v - k); destruct (Z.of_nat k <=? v)%Z; reflexivity.
    - pose proof (H 0 q eq_refl) as H0. rewrite Nat.add_0_r in H0. rewrite H0.
      destruct (Z.eqb_spec (Z.of_nat k) v) as [E|E].
      + destruct (Z.leb_spec (Z.of_nat k) v); [|lia]. replace (Z.to_nat v - k) with 0 by lia. reflexivity.
      + rewrite (IH (S k)) by (intros i p Hi; rewrite (H (S i) p Hi); f_equal; lia).
        destruct (Z.leb_spec (Z.of_nat (S k)) v); destruct (Z.leb_spec (Z.of_nat k) v); try lia; auto.
        replace (Z.to_nat v - k) with (S (Z.to_nat v - S k)) by lia. reflexivity. }
  rewrite (G tab 0 H). cbn [Z.of_nat]. now rewrite Nat.sub_0_r.
Qed.

Lemma to_string_search t tab v def : int_type t -> Forall (of_type t) (map fst tab) ->
  (N.of_nat (length tab) < 2 ^ 63)%N -> of_type t v ->
  to_string t tab v def = Ok (find_name tab v def).
Proof.
  intros Ht Hv Hlen Hov. change (2 ^ 63)%N with 9223372036854775808%N in Hlen.
  unfold to_string. destruct (is_ordinary t tab) eqn:Ho; [|reflexivity].
  pose proof (ordinary_values t tab Ht Hv Ho) as Hord. rewrite (find_name_nth tab Hord).
  assert (Hb : (-9223372036854775808 <= v < 18446744073709551616)%Z).
  { clear -Ht Hov. each_type t Ht; lia. }
  destruct (Z.leb_spec 0 v) as [Hp|Hn].
  - rewrite (wrap_id size_t v) by (cbn; unfold of_type, ity_min, ity_max; cbn; lia).
    destruct (Z.ltb_spec v (Z.of_nat (length tab))) as [Hlt|Hge].
    + destruct (nth_error tab (Z.to_nat v)) eqn:E; [reflexivity|]. apply nth_error_None in E. lia.
    + destruct (nth_error tab (Z.to_nat v)) eqn:E; [|reflexivity].
      assert (Z.to_nat v < length tab) by (apply nth_error_Some; congruence). lia.
  - assert (E : wrap size_t v = (v + 18446744073709551616)%Z).
    { unfold wrap, ity_min. cbn [isigned ibits size_t]. change (2 ^ Z.of_nat 64)%Z with 18446744073709551616%Z.
      rewrite Z.sub_0_r, Z.add_0_r. symmetry. rewrite <- (Z.mod_small (v + 18446744073709551616) 18446744073709551616) by lia.
      replace (v + 18446744073709551616)%Z with (v + 1 * 18446744073709551616)%Z by lia. apply Z.mod_add. lia. }
    rewrite E. destruct (Z.ltb_spec (v + 18446744073709551616) (Z.of_nat (length tab))); [lia|reflexivity].
Qed.

Lemma find_name_in tab v n def : NoDup (map fst tab) -> In (v, n) tab -> find_name tab v def = n.
Proof.
  induction tab as [|p tab IH]; [intros _ []|]. cbn [map find_name]. intros Hnd Hin.
  inversion Hnd as [|? ? Hp Hnd']; subst. destruct Hin as [-> |Hin].
  - cbn [fst snd]. now rewrite Z.eqb_refl.
  - destruct (Z.eqb_spec (fst p) v) as [E|E]; [|auto]. exfalso. apply Hp. rewrite E.
    now apply (in_map fst) in Hin.
Qed.

Lemma find_name_first tab v def : In v (map fst tab) -> In (v, find_name tab v def) tab.
Proof.
  induction tab as [|p tab IH]; [intros []|]. cbn [map find_name In]. intros H.
  destruct (Z.eqb_spec (fst p) v) as [E|E].
  - left. subst v. now destruct p.
  - right. apply IH. tauto.
Qed.

Lemma find_name_def tab v def : ~ In v (map fst tab) -> find_name tab v def = def.
Proof.
  induction tab as [|p tab IH]; [reflexivity|]. cbn [map find_name In]. intros H.
  destruct (Z.eqb_spec (fst p) v) as [E|E]; [exfalso; auto|]. apply IH. tauto.
Qed.

Lemma reflector_lemma t tab def : int_type t -> Forall (of_type t) (map fst tab) ->
  (N.of_nat (length tab) < 2 ^ 63)%N ->
  (forall v, of_type t v -> ~ In v (map fst tab) -> to_string t tab v def = Ok def) /\
  (forall v n, NoDup (map fst tab) -> In (v, n) tab -> to_string t tab v def = Ok n) /\
  (forall n, ~ In n (map snd tab) -> from_string tab n = None) /\
  (forall v n, NoDup (map snd tab) -> In (v, n) tab -> from_string tab n = Some v) /\
  (forall v, NoDup (map snd tab) -> In v (map fst tab) ->
     exists n, to_string t tab v def = Ok n /\ from_string tab n = Some v) /\
  (forall n v, NoDup (map fst tab) -> from_string tab n = Some v -> to_string t tab v def = Ok n).
Proof.
  intros Ht Hv Hlen.
  assert (S : forall v, of_type t v -> to_string t tab v def = Ok (find_name tab v def)).
  { intros v Ho. now apply to_string_search. }
  assert (Hin : forall v n, In (v, n) tab -> of_type t v).
  { intros v n H. rewrite Forall_forall in Hv. apply Hv. now apply (in_map fst) in H. }
  repeat split.
  - intros v Ho Hn. rewrite S by auto. f_equal. now apply find_name_def.
  - intros v n Hnd Hn. rewrite S by eauto. f_equal. now apply find_name_in.
  - intros n. apply from_string_none.
  - intros v n. apply from_string_in.
  - intros v Hnd Hn. rewrite Forall_forall in Hv. rewrite S by auto.
    eexists. split; [reflexivity|]. apply from_string_in; auto. now apply find_name_first.
  - intros n v Hnd Hf. apply from_string_some_in in Hf. rewrite S by eauto. f_equal. now apply find_name_in.
Qed.

(* ---------- enum_set ---------- *)

Lemma wrap_mod t z : exists k, wrap t z = (z + k * 2 ^ Z.of_nat (ibits t))%Z.
Proof.
  unfold wrap. pose proof (Z.div_mod (z - ity_min t) (2 ^ Z.of_nat (ibits t)) ltac:(lia)) as H.
  exists (- ((z - ity_min t) / 2 ^ Z.of_nat (ibits t)))%Z. lia.
Qed.

Lemma testbit_mod z n i : i < n -> Z.testbit (z mod 2 ^ Z.of_nat n) (Z.of_nat i) = Z.testbit z (Z.of_nat i).
Proof. intros H. apply Z.mod_pow2_bits_low. lia. Qed.

Lemma wrap_testbit t z i : i < ibits t -> Z.testbit (wrap t z) (Z.of_nat i) = Z.testbit z (Z.of_nat i).
Proof.
  intros H. destruct (wrap_mod t z) as [k E]. rewrite E.
  rewrite <- (testbit_mod (z + k * 2 ^ Z.of_nat (ibits t)) (ibits t) i H), <- (testbit_mod z (ibits t) i H).
  f_equal. apply Z.mod_add. lia.
Qed.

Lemma eq_by_bits t a b : 1 <= ibits t -> of_type t a -> of_type t b ->
  (forall i, i < ibits t -> Z.testbit a (Z.of_nat i) = Z.testbit b (Z.of_nat i)) -> a = b.
Proof.
  intros Hb Ha Hbb H.
  assert (E : (a mod 2 ^ Z.of_nat (ibits t) = b mod 2 ^ Z.of_nat (ibits t))%Z).
  { apply Z.bits_inj'. intros n Hn. destruct (Z_lt_le_dec n (Z.of_nat (ibits t))) as [L|L].
    - rewrite !Z.mod_pow2_bits_low by assumption. rewrite <- (Z2Nat.id n Hn). apply H. lia.
    - rewrite !Z.mod_pow2_bits_high by lia. reflexivity. }
  rewrite <- (wrap_id t a Hb Ha), <- (wrap_id t b Hb Hbb). unfold wrap. f_equal.
  rewrite <- (Zminus_mod_idemp_l a), <- (Zminus_mod_idemp_l b), E. reflexivity.
Qed.

Lemma zero_of_type t : 1 <= ibits t -> of_type t 0.
Proof.
  intros H. unfold of_type, ity_min, ity_max. destruct (isigned t); split; try lia;
  match goal with |- context [(2 ^ ?e)%Z] => pose proof (Z.pow_pos_nonneg 2 e) end; lia.
Qed.

Lemma bits_dec n (P : nat -> bool) : (exists i, i < n /\ P i = true) \/ (forall i, i < n -> P i = false).
Proof.
  induction n as [|n [(i & Hi & HP)|IH]].
  - right. lia.
  - left. exists i. split; [lia|assumption].
  - destruct (P n) eqn:E.
    + left. exists n. split; [lia|assumption].
    + right. intros i Hi. destruct (Nat.eq_dec i n) as [-> |]; [assumption|]. apply IH. lia.
Qed.

Lemma nonzero_bits t a : 1 <= ibits t -> of_type t a ->
  (negb (a =? 0)%Z = true <-> exists i, i < ibits t /\ flag a i).
Proof.
  intros Hb Ha. split.
  - intros H. destruct (bits_dec (ibits t) (fun i => Z.testbit a (Z.of_nat i))) as [(i & Hi & HP)|H0]; [eauto|].
    exfalso. assert (a = 0%Z); [|subst; discriminate].
    apply (eq_by_bits t); auto; [now apply zero_of_type|]. intros i Hi. rewrite H0 by assumption. now rewrite Z.testbit_0_l.
  - intros (i & Hi & H). destruct (Z.eqb_spec a 0) as [-> |]; [|reflexivity]. unfold flag in H. now rewrite Z.testbit_0_l in H.
Qed.

Lemma enum_set_lemma t a b : int_type t -> of_type t a -> of_type t b ->
  (of_type t (es_and t a b) /\ of_type t (es_or t a b) /\ of_type t (es_xor t a b) /\ of_type t (es_not t a)) /\
  (forall i, i < ibits t ->
     (flag (es_and t a b) i <-> flag a i /\ flag b i) /\
     (flag (es_or t a b) i <-> flag a i \/ flag b i) /\
     (flag (es_xor t a b) i <-> (flag a i <-> ~ flag b i)) /\
     (flag (es_not t a) i <-> ~ flag a i) /\
     ~ flag es_empty i) /\
  (es_eq a b = true <-> forall i, i < ibits t -> (flag a i <-> flag b i)) /\
  (es_bool a = true <-> exists i, i < ibits t /\ flag a i) /\
  (es_has_any t a b = true <-> exists i, i < ibits t /\ flag a i /\ flag b i) /\
  (es_has_all t a b = true <-> forall i, i < ibits t -> flag b i -> flag a i) /\
  es_test t a b = es_has_all t a b.
Proof.
  intros Ht Ha Hb. pose proof (bits_pos t Ht) as Hp.
  assert (Hand : forall i, i < ibits t -> (flag (es_and t a b) i <-> flag a i /\ flag b i)).
  { intros i Hi. unfold flag, es_and. rewrite wrap_testbit by assumption. rewrite Z.land_spec. apply andb_true_iff. }
  assert (Heq : forall a b, of_type t a -> of_type t b ->
    (es_eq a b = true <-> forall i, i < ibits t -> (flag a i <-> flag b i))).
  { clear. intros a b Ha Hb. unfold es_eq. rewrite Z.eqb_eq. split; [intros -> i _; reflexivity|].
    intros H. destruct (Nat.eq_dec (ibits t) 0) as [E0|E0].
    - unfold of_type, ity_min, ity_max in *. rewrite E0 in *. destruct (isigned t); cbn in *; lia.
    - apply (eq_by_bits t); auto; [lia|]. intros i Hi. specialize (H i Hi). unfold flag in H.
      destruct (Z.testbit a (Z.of_nat i)), (Z.testbit b (Z.of_nat i)); intuition congruence. }
  split; [repeat split; apply wrap_range; assumption|]. split; [|split; [|split; [|split; [|split]]]].
  - intros i Hi. split; [now apply Hand|]. unfold flag, es_or, es_xor, es_not, es_empty.
    rewrite !wrap_testbit by assumption. rewrite Z.lor_spec, Z.lxor_spec, Z.lnot_spec by lia. rewrite Z.testbit_0_l.
    destruct (Z.testbit a (Z.of_nat i)), (Z.testbit b (Z.of_nat i)); cbn; intuition congruence.
  - now apply Heq.
  - unfold es_bool. now apply nonzero_bits.
  - unfold es_has_any, es_eq, es_empty. rewrite (nonzero_bits t) by (auto; apply wrap_range; assumption).
    split; intros (i & Hi & H); exists i; (split; [assumption|]); now apply Hand.
  - unfold es_has_all. rewrite Heq by (auto; apply wrap_range; assumption). split.
    + intros H i Hi Hf. apply (Hand i Hi). now apply H.
    + intros H i Hi. rewrite Hand by assumption. split; [tauto|]. intros Hf. split; auto.
  - reflexivity.
Qed.

(* ---------- ranges ---------- *)

Lemma max_value_good r : good_range r -> max_value r = Some (past r).
Proof.
  intros (Ht & Hmin & Hmax & Hpast & Hlt). unfold max_value, past in *. destruct (half_open r); [reflexivity|].
  rewrite arith_id by (auto using promote_bits, promote_of_type).
  destruct (Z.ltb_spec (rmax r) (rmax r + 1)); [|lia]. now rewrite wrap_id by auto using bits_pos.
Qed.

Lemma elements_from a n : map (fun k => (a + Z.of_nat k)%Z) (seq 0 (S n)) =
  a :: map (fun k => (a + 1 + Z.of_nat k)%Z) (seq 0 n).
Proof.
  cbn [seq map]. f_equal; [lia|]. rewrite <- seq_shift, map_map. apply map_ext. intros k. lia.
Qed.

Lemma increment_ok t i last : int_type t -> of_type t i -> of_type t last -> (i < last)%Z ->
  it_increment t i = Ok (i + 1)%Z /\ of_type t (i + 1).
Proof.
  intros Ht Hi Hl Hlt. assert (Hi1 : of_type t (i + 1)) by (unfold of_type in *; lia). split; [|assumption].
  unfold it_increment. rewrite arith_id by (auto using promote_bits, promote_of_type). cbn [obind].
  now rewrite wrap_id by auto using bits_pos.
Qed.

Lemma walk_spec t last : int_type t -> of_type t last -> forall fuel n i,
  of_type t i -> (i + Z.of_nat n = last)%Z -> n <= fuel ->
  walk fuel t i last = Ok (Some (map (fun k => (i + Z.of_nat k)%Z) (seq 0 n))).
Proof.
  intros Ht Hl. induction fuel as [|fuel IH]; intros n i Hi Hn Hf; unfold walk; fold walk; unfold it_equal_to.
  - assert (n = 0) by lia. subst n. rewrite Z.add_0_r in Hn. subst i. rewrite Z.eqb_refl. reflexivity.
  - destruct n as [|n].
    + rewrite Z.add_0_r in Hn. subst i. rewrite Z.eqb_refl. reflexivity.
    + destruct (Z.eqb_spec last i); [lia|].
      destruct (increment_ok t i last Ht Hi Hl ltac:(lia)) as [E Hi1]. rewrite E. cbn [obind].
      rewrite (IH n (i + 1)%Z Hi1) by lia. cbn [obind option_map]. now rewrite elements_from.
Qed.

Lemma for_each_spec t last : int_type t -> of_type t last -> forall fuel n i,
  of_type t i -> (i + Z.of_nat n = last)%Z -> n <= fuel ->
  for_each_enum fuel t i last = Ok (Some (map (fun k => (i + Z.of_nat k)%Z) (seq 0 n))).
Proof.
  intros Ht Hl. induction fuel as [|fuel IH]; intros n i Hi Hn Hf; unfold for_each_enum; fold for_each_enum.
  - assert (n = 0) by lia. subst n. destruct (Z.ltb_spec i last); [lia|]. reflexivity.
  - destruct n as [|n].
    + destruct (Z.ltb_spec i last); [lia|]. reflexivity.
    + destruct (Z.ltb_spec i last); [|lia].
      assert (Hi1 : of_type t (i + 1)) by (unfold of_type in *; lia).
      rewrite arith_id by (auto using promote_bits, promote_of_type). cbn [obind]. rewrite wrap_id by auto using bits_pos.
      rewrite (IH n (i + 1)%Z Hi1) by lia. cbn [obind option_map]. now rewrite elements_from.
Qed.

Lemma count_good r n : good_range r -> count r = Some n -> n = (past r - rmin r)%Z.
Proof.
  intros Hg. pose proof Hg as (Ht & Hmin & Hmax & Hpast & Hlt). unfold count. rewrite (max_value_good r Hg).
  unfold min_value. intros H.
  assert (G : (0 <= past r - rmin r < 18446744073709551616)%Z).
  { revert Ht Hmin Hpast Hlt. clear. generalize (past r), (rmin r), (rty r). intros p m t Ht Hm Hp Hlt.
    each_type t Ht; lia. }
  destruct (arith (promote (rty r)) (past r - rmin r)) as [d| |] eqn:E; try discriminate. injection H as <-.
  assert (d = past r - rmin r)%Z as ->.
  { unfold arith in E. destruct (isigned (promote (rty r))) eqn:Es.
    - destruct ((_ <? _) || (_ <? _))%Z%bool; [discriminate|]. now injection E as <-.
    - injection E as <-. apply wrap_id; [now apply promote_bits|].
      revert Ht Hmin Hpast Hlt Es. clear. generalize (past r), (rmin r), (rty r). intros p m t Ht Hm Hp Hlt Es.
      each_type t Ht; try discriminate; lia. }
  apply wrap_id; [cbn; lia|]. unfold of_type, ity_min, ity_max. cbn. lia.
Qed.

Lemma in_elements r e : In e (elements r) <-> (rmin r <= e < past r)%Z.
Proof.
  unfold elements. rewrite in_map_iff. split.
  - intros (k & <- & Hk). apply in_seq in Hk. lia.
  - intros H. exists (Z.to_nat (e - rmin r)). rewrite in_seq. lia.
Qed.

Lemma range_lemma r n : good_range r -> count r = Some n ->
  compiles r = true /\ n = Z.of_nat (length (elements r)) /\ NoDup (elements r) /\
  (forall e, in_range_e r e = true <-> In e (elements r)) /\
  (exists last, range_end r = Some last /\
     forall fuel, length (elements r) <= fuel ->
       walk fuel (rty r) (range_begin r) last = Ok (Some (elements r)) /\
       for_each_enum fuel (rty r) (range_begin r) last = Ok (Some (elements r))).
Proof.
  intros Hg Hc. pose proof (count_good r n Hg Hc) as Hn. pose proof Hg as (Ht & Hmin & Hmax & Hpast & Hlt).
  assert (HL : length (elements r) = Z.to_nat (past r - rmin r)).
  { unfold elements. now rewrite map_length, seq_length. }
  split; [|split; [|split; [|split]]].
  - unfold compiles. rewrite Hc. destruct (Z.ltb_spec 0 n); [reflexivity|lia].
  - rewrite HL. lia.
  - unfold elements. apply Injective_map_NoDup; [|apply seq_NoDup]. intros a b H. lia.
  - intros e. unfold in_range_e. rewrite (max_value_good r Hg), in_elements. unfold min_value. lia.
  - exists (past r). unfold range_end. rewrite (max_value_good r Hg). split; [reflexivity|].
    intros fuel Hf. unfold elements. rewrite HL in Hf. split.
    + apply walk_spec; auto. unfold range_begin, min_value. lia.
    + apply for_each_spec; auto. unfold range_begin, min_value. lia.
Qed.

Lemma inverted_lemma t a b : int_type t -> isigned (promote t) = true -> of_type t a -> of_type t b ->
  of_type (promote t) (a - b) -> of_type (promote t) (b - a) ->
  fa_minus (it_distance_to t) a b = Ok (b - a)%Z /\
  fa_lt (it_distance_to t) a b = Ok (b <? a)%Z.
Proof.
  intros Ht Hs Ha Hb H1 H2. unfold fa_lt, fa_minus, it_distance_to.
  rewrite !arith_id by (auto using promote_bits). cbn [obind].
  assert (W : forall z, of_type (promote t) z -> wrap ptrdiff_t z = z).
  { intros z Hz. apply wrap_id; [cbn; lia|]. revert Hs z Hz. clear -Ht. revert t Ht.
    apply (int_type_cases (fun t => isigned (promote t) = true -> forall z, of_type (promote t) z -> of_type ptrdiff_t z));
      unfold of_type, ity_min, ity_max, promote; cbn; intros; try discriminate; lia. }
  rewrite !W by assumption. split; [reflexivity|]. f_equal. lia.
Qed.

Lemma facade_lemma {I} (d : I -> I -> outcome Z) (at_ : I -> Z) :
  (forall a b, d a b = Ok (at_ a - at_ b)%Z) ->
  forall a b, fa_minus d a b = Ok (at_ a - at_ b)%Z /\
    fa_lt d a b = Ok (at_ a <? at_ b)%Z /\ fa_gt d a b = Ok (at_ b <? at_ a)%Z /\
    fa_le d a b = Ok (at_ a <=? at_ b)%Z /\ fa_ge d a b = Ok (at_ b <=? at_ a)%Z.
Proof.
  intros H a b. unfold fa_le, fa_ge, fa_lt, fa_gt, fa_minus. rewrite !H. cbn [obind].
  repeat split; f_equal; lia.
Qed.
