(** Proofs of the exact versions: enums, splitting, joining, file views. *)
From Coq Require Import List NArith ZArith Arith Bool Lia ZifyBool ZifyNat ZifyN.
From Verif Require Import Base EnumModel EnumSpec EnumProofs TextModel TextSpec TextProofs SysModel SysSpec SysProofs EdgeSpec.
Import ListNotations.
Local Open Scope outcome_scope.

(* ---------- enums ---------- *)

Lemma small_promote t : ibits t < 32 -> promote t = mkity true 32.
Proof. intros H. unfold promote. destruct (Nat.ltb_spec (ibits t) 32); [reflexivity|lia]. Qed.

Lemma wide_promote t : 32 <= ibits t -> promote t = t.
Proof. intros H. unfold promote. destruct (Nat.ltb_spec (ibits t) 32); [lia|reflexivity]. Qed.

Lemma pow_small t : int_type t -> ibits t < 32 -> (1 <= 2 ^ (Z.of_nat (ibits t) - 1))%Z /\
  (2 ^ Z.of_nat (ibits t) = 2 * 2 ^ (Z.of_nat (ibits t) - 1))%Z /\ (2 ^ Z.of_nat (ibits t) <= 65536)%Z.
Proof.
  intros [H|[H|[H|[H|[]]]]] L; rewrite <- H in *; try lia; cbn; repeat split; discriminate.
Qed.

Lemma wrap_over t : int_type t -> wrap t (ity_max t + 1) = ity_min t.
Proof.
  intros Ht. unfold wrap. pose proof (ity_span t (bits_pos t Ht)).
  replace (ity_max t + 1 - ity_min t)%Z with (1 * 2 ^ Z.of_nat (ibits t))%Z by lia.
  rewrite Z.mod_mul; [lia|]. apply Z.pow_nonzero; lia.
Qed.

Lemma max_value_at_max r : int_type (rty r) -> rmax r = ity_max (rty r) -> half_open r = false ->
  max_value r = if ibits (rty r) <? 32 then Some (ity_min (rty r)) else None.
Proof.
  intros Ht Hm Ho. unfold max_value. rewrite Ho, Hm. destruct (Nat.ltb_spec (ibits (rty r)) 32) as [L|L].
  - rewrite (small_promote _ L). destruct (pow_small _ Ht L) as (A & B & C).
    assert (ity_max (rty r) <= 65535 /\ 0 <= ity_max (rty r))%Z by (unfold ity_max; destruct (isigned (rty r)); lia).
    rewrite arith_id; [|cbn; lia|unfold of_type; cbn; lia].
    destruct (Z.ltb_spec (ity_max (rty r)) (ity_max (rty r) + 1)); [|lia]. now rewrite wrap_over.
  - rewrite (wide_promote _ L). unfold arith. destruct (isigned (rty r)) eqn:Es.
    + destruct (Z.ltb_spec (ity_max (rty r)) (ity_max (rty r) + 1)); [|lia].
      rewrite orb_true_r. reflexivity.
    + rewrite wrap_over by assumption. unfold ity_max, ity_min. rewrite Es.
      assert (1 <= 2 ^ Z.of_nat (ibits (rty r)))%Z by (apply (Z.pow_le_mono_r 2 0); lia).
      destruct (Z.ltb_spec (2 ^ Z.of_nat (ibits (rty r)) - 1) 0); [lia|reflexivity].
Qed.

Lemma wrap_size_neg d : (- 2 ^ 64 < d < 0)%Z -> wrap size_t d = (2 ^ 64 + d)%Z.
Proof.
  intros H. unfold wrap, size_t, ity_min. cbn [isigned ibits]. rewrite Z.sub_0_r, Z.add_0_r.
  change (Z.of_nat 64) with 64%Z. symmetry. apply Z.mod_unique with (q := (-1)%Z); lia.
Qed.

Lemma wrap_size_pos d : (0 <= d < 2 ^ 64)%Z -> wrap size_t d = d.
Proof.
  intros H. unfold wrap, size_t, ity_min. cbn [isigned ibits]. rewrite Z.sub_0_r, Z.add_0_r.
  change (Z.of_nat 64) with 64%Z. apply Z.mod_small. assumption.
Qed.

Lemma closed_at_maximum r : int_type (rty r) -> of_type (rty r) (rmin r) -> rmax r = ity_max (rty r) ->
  half_open r = false ->
  (compiles r = true <-> ibits (rty r) < 32 /\ rmin r <> ity_min (rty r)) /\
  (compiles r = true -> count r = Some (2 ^ 64 - (rmin r - ity_min (rty r)))%Z) /\
  (forall e, of_type (rty r) e -> in_range_e r e = false).
Proof.
  intros Ht Hn Hm Ho. pose proof (max_value_at_max r Ht Hm Ho) as E.
  unfold compiles, count, in_range_e. rewrite E.
  destruct (Nat.ltb_spec (ibits (rty r)) 32) as [L|L].
  - unfold min_value. rewrite (small_promote _ L). destruct (pow_small _ Ht L) as (A & B & C).
    assert (Hd : (-65536 <= ity_min (rty r) - rmin r <= 0)%Z).
    { destruct Hn as [N1 N2]. pose proof (ity_span (rty r) (bits_pos _ Ht)). lia. }
    rewrite arith_id; [|cbn; lia|unfold of_type; cbn; lia].
    split; [|split].
    + destruct (Z.eq_dec (rmin r) (ity_min (rty r))) as [Eq|Ne].
      * rewrite Eq, Z.sub_diag, wrap_size_pos by lia. cbn. split; [discriminate|]. intros [_ H]. now contradiction H.
      * rewrite wrap_size_neg by lia. split; [auto|]. intros _. apply Z.ltb_lt. lia.
    + intros Hc. destruct (Z.eq_dec (rmin r) (ity_min (rty r))) as [Eq|Ne].
      * rewrite Eq, Z.sub_diag in Hc. discriminate Hc.
      * rewrite wrap_size_neg by lia. f_equal. lia.
    + intros e [E1 E2]. destruct (Z.ltb_spec e (ity_min (rty r))); [lia|]. apply andb_false_r.
  - split; [|split].
    + split; [discriminate|]. intros [H _]. lia.
    + discriminate.
    + reflexivity.
Qed.

(** C64 *)
Lemma half_open_compiles r : int_type (rty r) -> of_type (rty r) (rmin r) -> of_type (rty r) (rmax r) ->
  half_open r = true ->
  (compiles r = true <->
     rmin r <> rmax r /\ (isigned (promote (rty r)) = true -> of_type (promote (rty r)) (rmax r - rmin r))).
Proof.
  intros Ht Hn Hm Ho. unfold compiles, count, max_value, min_value. rewrite Ho. unfold arith.
  pose proof (promote_bits _ Ht) as Hb.
  assert (Hb' : ibits (promote (rty r)) <= 64).
  { unfold promote. destruct Ht as [H|[H|[H|[H|[]]]]]; rewrite <- H; cbn; lia. }
  assert (H64 : (2 ^ Z.of_nat (ibits (promote (rty r))) <= 2 ^ 64)%Z) by (apply Z.pow_le_mono_r; lia).
  destruct (promote_of_type _ _ Ht Hn) as [A1 A2]. destruct (promote_of_type _ _ Ht Hm) as [B1 B2].
  pose proof (ity_span _ Hb) as Sp.
  destruct (isigned (promote (rty r))) eqn:Es.
  - unfold of_type. destruct (Z.ltb_spec (rmax r - rmin r) (ity_min (promote (rty r)))) as [L|L]; cbn [orb].
    { split; [discriminate|]. intros [_ H]. specialize (H eq_refl). lia. }
    destruct (Z.ltb_spec (ity_max (promote (rty r))) (rmax r - rmin r)) as [L'|L'].
    { split; [discriminate|]. intros [_ H]. specialize (H eq_refl). lia. }
    destruct (Z.lt_trichotomy (rmax r - rmin r) 0) as [N|[Z0|P]].
    + rewrite wrap_size_neg by lia. split; [intros _; split; [lia|auto]|]. intros _. apply Z.ltb_lt. lia.
    + rewrite Z0. cbn. split; [discriminate|]. intros [H _]. lia.
    + rewrite wrap_size_pos by lia. split; [intros _; split; [lia|auto]|]. intros _. apply Z.ltb_lt. lia.
  - assert (M0 : ity_min (promote (rty r)) = 0%Z) by (unfold ity_min; now rewrite Es).
    unfold wrap at 2. rewrite M0, Z.sub_0_r, Z.add_0_r in *.
    assert (Hp : (0 < 2 ^ Z.of_nat (ibits (promote (rty r))))%Z) by (apply Z.pow_pos_nonneg; lia).
    destruct (Z.eq_dec (rmin r) (rmax r)) as [Eq|Ne].
    + rewrite Eq, Z.sub_diag, Z.mod_0_l by lia. cbn. split; [discriminate|]. intros [H _]. now contradiction H.
    + pose proof (Z.mod_pos_bound (rmax r - rmin r) _ Hp) as Bd.
      rewrite wrap_size_pos by lia. split; [intros _; split; [assumption|discriminate]|]. intros _. apply Z.ltb_lt.
      destruct (Z.eq_dec ((rmax r - rmin r) mod 2 ^ Z.of_nat (ibits (promote (rty r)))) 0) as [Z0|NZ]; [|lia].
      apply Z.mod_divide in Z0; [|lia]. destruct Z0 as [q Q]. exfalso.
      assert (q = 0)%Z by nia. subst q. lia.
Qed.

(** C51, unsigned *)
Lemma wrap_ptrdiff z : (- 2 ^ 63 <= z < 2 ^ 63)%Z -> wrap ptrdiff_t z = z.
Proof. intros H. apply wrap_id; [cbn; lia|]. unfold of_type. cbn. lia. Qed.

Lemma unsigned32_order a b : of_type (mkity false 32) a -> of_type (mkity false 32) b ->
  fa_minus (it_distance_to (mkity false 32)) a b = Ok (if (a <=? b)%Z then b - a else b - a + 2 ^ 32)%Z /\
  fa_lt (it_distance_to (mkity false 32)) a b = Ok (negb (a =? b)%Z).
Proof.
  intros [A1 A2] [B1 B2]. cbn in A1, A2, B1, B2.
  assert (D : forall x y, (0 <= x <= 4294967295)%Z -> (0 <= y <= 4294967295)%Z ->
    it_distance_to (mkity false 32) x y = Ok (if (x <=? y)%Z then y - x else y - x + 2 ^ 32)%Z).
  { intros x y X Y. unfold it_distance_to. change (promote (mkity false 32)) with (mkity false 32).
    unfold arith. cbn [isigned obind]. f_equal. unfold wrap at 2. cbn [ity_min isigned ibits].
    rewrite Z.sub_0_r, Z.add_0_r. change (2 ^ Z.of_nat 32)%Z with 4294967296%Z. change (2 ^ 32)%Z with 4294967296%Z.
    destruct (Z.leb_spec x y).
    - rewrite Z.mod_small by lia. apply wrap_ptrdiff. lia.
    - rewrite <- (Z.mod_unique (y - x) 4294967296 (-1) (y - x + 4294967296)) by lia. apply wrap_ptrdiff. lia. }
  unfold fa_lt, fa_minus. rewrite !D by lia. split; [reflexivity|]. cbn [obind]. f_equal.
  destruct (Z.leb_spec b a), (Z.eqb_spec a b); cbn [negb]; try lia; first [apply Z.ltb_lt | apply Z.ltb_ge]; lia.
Qed.

Lemma unsigned64_order a b : of_type (mkity false 64) a -> of_type (mkity false 64) b ->
  (- 2 ^ 63 < b - a < 2 ^ 63)%Z ->
  fa_minus (it_distance_to (mkity false 64)) a b = Ok (b - a)%Z /\
  fa_lt (it_distance_to (mkity false 64)) a b = Ok (b <? a)%Z.
Proof.
  intros [A1 A2] [B1 B2] Hd. cbn in A1, A2, B1, B2.
  assert (D : forall x y, (- 2 ^ 63 < y - x < 2 ^ 63)%Z ->
    it_distance_to (mkity false 64) x y = Ok (y - x)%Z).
  { intros x y X. unfold it_distance_to. change (promote (mkity false 64)) with (mkity false 64).
    unfold arith. cbn [isigned obind]. f_equal. unfold wrap. cbn [ity_min isigned ibits ptrdiff_t].
    change (Z.of_nat 64) with 64%Z. rewrite !Z.sub_0_r, !Z.add_0_r.
    change (- 2 ^ (64 - 1))%Z with (-9223372036854775808)%Z. change (2 ^ 64)%Z with 18446744073709551616%Z in *. change (2 ^ 63)%Z with 9223372036854775808%Z in *.
    rewrite <- Z.add_opp_r, Z.add_mod_idemp_l by lia. rewrite Z.mod_small by lia. lia. }
  unfold fa_lt, fa_minus. rewrite !D by lia. split; [reflexivity|]. cbn [obind]. f_equal.
  destruct (Z.ltb_spec b a); first [apply Z.ltb_lt | apply Z.ltb_ge]; lia.
Qed.

(* ---------- splitting ---------- *)

Lemma free_snoc ds t c : free ds t -> ~ In c ds -> free ds (t ++ [c]).
Proof. intros A B. apply free_app. split; [assumption|]. now repeat constructor. Qed.

Lemma cut_closed ds s ts : cut ds s ts -> closed_off ds s -> forall c, ~ In c ds -> cut ds (s ++ [c]) (ts ++ [[c]]).
Proof.
  intros C. induction C as [|t Ht Hf|t d s ts Hf Hd C IH]; intros Hc c Hn.
  - apply cut_last; [discriminate|]. now repeat constructor.
  - exfalso. destruct Hc as [->|(s' & d & -> & Hd)]; [now apply Ht|]. apply free_no in Hf. contradiction.
  - rewrite <- app_assoc. cbn [app]. apply cut_step; auto. apply IH; auto.
    destruct Hc as [E|(s' & d' & E & Hd')]; [destruct t; discriminate|].
    destruct s as [|x s]; [now left|]. right.
    destruct (exists_last (l := x :: s)) as (s2 & y & E2); [discriminate|]. rewrite E2 in E |- *.
    exists s2, y. split; [reflexivity|].
    change (t ++ d :: s2 ++ [y]) with (t ++ (d :: s2) ++ [y]) in E. rewrite app_assoc in E.
    apply app_inj_tail in E. destruct E as [_ ->]. assumption.
Qed.

Lemma cut_open ds s ts : cut ds s ts -> ~ closed_off ds s -> forall c, ~ In c ds ->
  exists us u, ts = us ++ [u] /\ cut ds (s ++ [c]) (us ++ [u ++ [c]]).
Proof.
  intros C. induction C as [|t Ht Hf|t d s ts Hf Hd C IH]; intros Hc c Hn.
  - exfalso. apply Hc. now left.
  - exists [], t. split; [reflexivity|]. apply cut_last; [destruct t; discriminate|]. now apply free_snoc.
  - destruct (IH) with (c := c) as (us & u & -> & C2); auto.
    { intros [->|(s' & d' & -> & Hd')]; apply Hc; right.
      - exists t, d. auto.
      - exists (t ++ d :: s'), d'. split; [now rewrite <- app_assoc|assumption]. }
    exists (t :: us), u. split; [reflexivity|]. rewrite <- app_assoc. cbn [app]. now apply cut_step.
Qed.

Lemma cut_delim ds s ts : cut ds s ts -> forall c, In c ds ->
  (closed_off ds s -> cut ds (s ++ [c]) (ts ++ [[]])) /\ (~ closed_off ds s -> cut ds (s ++ [c]) ts).
Proof.
  intros C. induction C as [|t Ht Hf|t d s ts Hf Hd C IH]; intros c Hn.
  - split; [|intros H; exfalso; apply H; now left]. intros _. apply (cut_step ds [] c [] []); [constructor|assumption|constructor].
  - split.
    + intros [->|(s' & d & -> & Hd)]; [now contradiction Ht|]. apply free_no in Hf. contradiction.
    + intros _. apply (cut_step ds t c [] []); auto. constructor.
  - destruct (IH c Hn) as [I1 I2]. split; intros Hc; rewrite <- app_assoc; cbn [app]; apply cut_step; auto.
    + apply I1. destruct Hc as [E|(s' & d' & E & Hd')]; [destruct t; discriminate|].
      destruct s as [|x s]; [now left|]. right.
      destruct (exists_last (l := x :: s)) as (s2 & y & E2); [discriminate|]. rewrite E2 in E |- *.
      exists s2, y. split; [reflexivity|].
      change (t ++ d :: s2 ++ [y]) with (t ++ (d :: s2) ++ [y]) in E. rewrite app_assoc in E.
      apply app_inj_tail in E. destruct E as [_ ->]. assumption.
    + apply I2. intros [->|(s' & d' & -> & Hd')]; apply Hc; right.
      * exists t, d. auto.
      * exists (t ++ d :: s'), d'. split; [now rewrite <- app_assoc|assumption].
Qed.

Lemma split_of_cut ds s ts : cut ds s ts -> split s ds false = Ok ts /\ split s ds true = Ok (filter nonempty ts).
Proof.
  intros C. destruct (split_lemma ds s) as (us & C2 & S1 & S2). now rewrite (cut_unique _ _ _ C _ C2).
Qed.

Lemma cut_of_split ds s ts : split s ds false = Ok ts -> cut ds s ts.
Proof. intros E. destruct (split_lemma ds s) as (us & C2 & S1 & S2). congruence. Qed.

Lemma closed_dec ds s : closed_off ds s \/ ~ closed_off ds s.
Proof.
  destruct s as [|x s] using rev_ind; [left; now left|].
  destruct (in_dec N.eq_dec x ds) as [H|H]; [left; right; eauto|].
  right. intros [E|(s' & d & E & Hd)]; [destruct s; discriminate|]. apply app_inj_tail in E. destruct E as [_ ->]. contradiction.
Qed.

Lemma cut_more_delims ds ds' s ts : cut ds s ts -> (forall c, In c s -> (In c ds <-> In c ds')) -> cut ds' s ts.
Proof.
  intros C. induction C as [|t Ht Hf|t d s ts Hf Hd C IH]; intros Hs.
  - constructor.
  - constructor; [assumption|]. apply Forall_forall. intros c Hc. rewrite <- (Hs c Hc). unfold free in Hf. rewrite Forall_forall in Hf. auto.
  - constructor.
    + apply Forall_forall. intros c Hc. rewrite <- (Hs c); [|apply in_or_app; auto]. unfold free in Hf. rewrite Forall_forall in Hf. auto.
    + apply (Hs d); [|assumption]. apply in_or_app. right. now left.
    + apply IH. intros c Hc. apply Hs. apply in_or_app. right. now right.
Qed.

Lemma split_literal_lemma s ds ts : split s ds false = Ok ts ->
  (~ In 0%N ds -> closed_off ds s -> split (literal s) ds false = Ok (ts ++ [[0%N]])) /\
  (~ In 0%N ds -> ~ closed_off ds s -> exists us u, ts = us ++ [u] /\ split (literal s) ds false = Ok (us ++ [u ++ [0%N]])) /\
  (In 0%N ds -> closed_off ds s -> split (literal s) ds false = Ok (ts ++ [[]])) /\
  (In 0%N ds -> ~ closed_off ds s -> split (literal s) ds false = Ok ts) /\
  (In 0%N ds -> split (literal s) ds true = split s ds true).
Proof.
  intros E. apply cut_of_split in E. unfold literal. split; [|split; [|split; [|split]]].
  - intros Hn Hc. exact (proj1 (split_of_cut _ _ _ (cut_closed _ _ _ E Hc _ Hn))).
  - intros Hn Hc. destruct (cut_open _ _ _ E Hc _ Hn) as (us & u & -> & C). exists us, u. split; [reflexivity|]. exact (proj1 (split_of_cut _ _ _ C)).
  - intros Hn Hc. exact (proj1 (split_of_cut _ _ _ (proj1 (cut_delim _ _ _ E _ Hn) Hc))).
  - intros Hn Hc. exact (proj1 (split_of_cut _ _ _ (proj2 (cut_delim _ _ _ E _ Hn) Hc))).
  - intros Hn. destruct (split_of_cut _ _ _ E) as [_ ->]. destruct (cut_delim _ _ _ E _ Hn) as [D1 D2].
    destruct (closed_dec ds s) as [Hc|Hc].
    + destruct (split_of_cut _ _ _ (D1 Hc)) as [_ ->]. rewrite filter_app. cbn. now rewrite app_nil_r.
    + destruct (split_of_cut _ _ _ (D2 Hc)) as [_ ->]. reflexivity.
Qed.

Lemma split_literal_delims s ds b : ~ In 0%N s -> split s (literal ds) b = split s ds b.
Proof.
  intros Hn. destruct (split_lemma ds s) as (us & C & S1 & S2).
  assert (C2 : cut (literal ds) s us).
  { apply (cut_more_delims ds); [assumption|]. intros c Hc. unfold literal. rewrite in_app_iff. split; [auto|].
    intros [H|[<-|[]]]; [assumption|contradiction]. }
  destruct (split_of_cut _ _ _ C2) as [T1 T2]. destruct b; congruence.
Qed.

(* ---------- joining ---------- *)

Lemma joiner_each {A} (fmt : A -> text) delim : forall (xss : list (list A)) os,
  fold_left (fun os xs => fst (copy_to fmt os (make_joiner delim) xs)) xss os =
  os ++ concat (map (fun xs => intercalate delim (map fmt xs)) xss).
Proof.
  induction xss as [|xs xss IH]; intros os; cbn [fold_left map concat]; [now rewrite app_nil_r|].
  rewrite IH. destruct (joiner_lemma fmt os delim xs []) as [-> _]. now rewrite app_assoc.
Qed.

(* ---------- file views ---------- *)

Lemma copies_unmap p v n fd size : fst (file_view p) = Some v -> In (Mmap fd size) (snd (file_view p)) ->
  concat (map destroy (repeat (copy_view v) n)) = repeat (Munmap (mmap_answer p) size) n.
Proof.
  intros H1 H2. pose proof (unmap_lemma p v fd size H1 H2) as E. unfold copy_view.
  induction n as [|n IH]; cbn [repeat map concat]; [reflexivity|]. now rewrite E, IH.
Qed.

Lemma copies_empty p v n : fst (file_view p) = Some v -> (forall fd size, ~ In (Mmap fd size) (snd (file_view p))) ->
  concat (map destroy (repeat (copy_view v) n)) = [].
Proof.
  intros H1 H2. pose proof (unmap_none_lemma p v H1 H2) as E. unfold copy_view.
  induction n as [|n IH]; cbn [repeat map concat]; [reflexivity|]. now rewrite E, IH.
Qed.

Lemma posix_throws p : fst (file_view p) = None <->
  open_answer p = None \/ fstat_answer p = None \/
  (exists n, fstat_answer p = Some n /\ n <> 0%N) /\ mmap_answer p = 0%N.
Proof.
  unfold file_view. destruct (open_answer p) as [fd|]; [|cbn; tauto].
  destruct (fstat_answer p) as [n|]; [|cbn; intuition congruence].
  destruct (N.eqb_spec n 0) as [E|E].
  - cbn. split; [discriminate|]. intros [H|[H|((m & H & H2) & _)]]; congruence.
  - destruct (N.eqb_spec (mmap_answer p) 0) as [M|M]; cbn.
    + split; [|reflexivity]. intros _. right. right. split; [eauto|assumption].
    + split; [discriminate|]. intros [H|[H|(_ & H)]]; congruence.
Qed.

Lemma windows_throws p : fst (file_view_win p) = None <->
  (create_answer p = None /\ create2_answer p = None) \/
  ((create_answer p <> None \/ create2_answer p <> None) /\ (exists n, size_answer p = Some n /\ n <> 0%N) /\
   (mapping_answer p = None \/ view_answer p = 0%N)).
Proof.
  unfold file_view_win. destruct (create_answer p) as [h|], (create2_answer p) as [h2|]; cbv beta iota zeta.
  4: { split; [intros _; left; auto|reflexivity]. }
  all: destruct (size_answer p) as [n|]; [destruct (N.eqb_spec n 0) as [E|E]|].
  all: try (destruct (mapping_answer p) as [m|]; [destruct (N.eqb_spec (view_answer p) 0) as [V|V]|]).
  all: cbn [fst N.eqb].
  all: split; intros H; try discriminate H; try reflexivity;
    try (destruct H as [[A B]|(_ & (k & K1 & K2) & D)]; try discriminate; try congruence; destruct D; congruence).
  all: right; split; [first [left; discriminate|right; discriminate]|split; eauto].
Qed.
