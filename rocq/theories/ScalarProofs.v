(** Scalars are written and read as specified. *)
From Coq Require Import String List NArith ZArith Arith Bool Lia.
From Verif Require Import Base PathModel PathProofs EnumModel EnumSpec EnumProofs ScalarModel ScalarSpec.
Import ListNotations.
Local Open Scope list_scope.
Local Open Scope N_scope.

Local Notation str := (list N) (only parsing).

(* ------------------------------------------------------------------ *)
(** ** Digits *)

Lemma xdigit_spells c d : xdigit c = Some d <-> spells c d.
Proof.
  unfold xdigit, spells.
  destruct (N.leb_spec 48 c), (N.leb_spec c 57); cbn [andb];
    try (split; [intros [= <-]; left; lia|intros [[-> Hd]|[[-> | ->] Hd]]; f_equal; lia]);
  destruct (N.leb_spec 97 c), (N.leb_spec c 102); cbn [andb];
    try (split; [intros [= <-]; right; lia|intros [[-> Hd]|[[-> | ->] Hd]]; f_equal; lia]);
  destruct (N.leb_spec 65 c), (N.leb_spec c 70); cbn [andb];
    try (split; [intros [= <-]; right; lia|intros [[-> Hd]|[[-> | ->] Hd]]; f_equal; lia]);
  (split; [discriminate|intros [[-> Hd]|[[-> | ->] Hd]]; lia]).
Qed.

Lemma digit_spells base c d : digit base c = Some d <-> spells c d /\ d < base.
Proof.
  unfold digit. rewrite <- xdigit_spells. destruct (xdigit c) as [d'|].
  - destruct (N.ltb_spec d' base); split.
    + intros [= <-]. auto.
    + intros [[= <-] _]. reflexivity.
    + discriminate.
    + intros [[= <-] Hd]. lia.
  - split; [discriminate|intros [[=] _]].
Qed.

Lemma spells_fun c d d' : spells c d -> spells c d' -> d = d'.
Proof. rewrite <- !xdigit_spells. congruence. Qed.

(** Reading digits: the longest run of them. *)
Lemma get_digits_spec base : forall s acc n r, get_digits base s acc = (n, r) <->
  exists p ds, s = p ++ r /\ Forall2 spells p ds /\ Forall (fun d => d < base) ds /\
    n = acc * base ^ N.of_nat (length ds) + weighs base ds /\
    (forall c r', r = c :: r' -> forall d, spells c d -> base <= d).
Proof.
  induction s as [|c s IH]; intros acc n r; cbn [get_digits].
  - split.
    + intros [= <- <-]. exists [], []. cbn. repeat split; auto; [lia|discriminate].
    + intros (p & ds & E & H2 & _ & Hn & _). destruct p; [|discriminate]. cbn in E. subst r.
      inversion H2; subst. cbn. f_equal. lia.
  - destruct (digit base c) as [d|] eqn:Ed.
    + apply digit_spells in Ed as [Hs Hd]. rewrite IH. split.
      * intros (p & ds & -> & H2 & Hf & -> & Hr). exists (c :: p), (d :: ds).
        repeat split; auto. cbn [length weighs]. rewrite Nnat.Nat2N.inj_succ, N.pow_succ_r'. lia.
      * intros (p & ds & E & H2 & Hf & Hn & Hr). destruct p as [|c' p].
        { cbn in E. specialize (Hr c s (eq_sym E) d Hs). lia. }
        cbn in E. injection E as <- ->. inversion H2 as [|? d' ? ds' Hs' H2']; subst.
        rewrite (spells_fun _ _ _ Hs' Hs) in *. inversion Hf; subst.
        exists p, ds'. repeat split; auto. cbn [length weighs]. rewrite Nnat.Nat2N.inj_succ, N.pow_succ_r'. lia.
    + assert (Hno : forall d, spells c d -> base <= d).
      { intros d Hd. destruct (N.le_gt_cases base d); [assumption|].
        assert (digit base c = Some d) by now apply digit_spells. congruence. }
      split.
      * intros [= <- <-]. exists [], []. cbn. repeat split; auto; [lia|]. intros c' r' [= <- <-]. exact Hno.
      * intros (p & ds & E & H2 & Hf & Hn & _). destruct p as [|c' p].
        { cbn in E. subst r. inversion H2; subst. cbn. f_equal. lia. }
        cbn in E. injection E as <- ->. inversion H2; subst. inversion Hf; subst.
        specialize (Hno _ ltac:(eassumption)). lia.
Qed.

Definition stops (base : N) (r : str) : Prop := forall c r', r = c :: r' -> forall d, spells c d -> base <= d.

Lemma get_number_spec base s n r : get_number base s = Some (n, r) <->
  exists p, s = p ++ r /\ numeral base p n /\ stops base r.
Proof.
  unfold get_number, numeral, stops. destruct s as [|c s].
  - split; [discriminate|]. intros (p & E & [Hne _] & _). destruct p; [contradiction|discriminate].
  - destruct (digit base c) as [d|] eqn:Ed.
    + pose proof (get_digits_spec base (c :: s) 0 n r) as G. split.
      * intros [= E]. apply G in E as (p & ds & E & H2 & Hf & Hn & Hr). exists p. split; [exact E|]. split; [|exact Hr].
        split. { intros ->. cbn in E. apply digit_spells in Ed as [Hs Hd]. specialize (Hr c s (eq_sym E) d Hs). lia. }
        exists ds. split; [exact H2|]. split; [exact Hf|lia].
      * intros (p & E & [_ (ds & H2 & Hf & Hn)] & Hr). f_equal. apply G. exists p, ds. repeat split; auto.
    + split; [discriminate|]. intros (p & E & [Hne (ds & H2 & Hf & Hn)] & Hr). destruct p as [|c' p]; [contradiction|].
      cbn in E. injection E as <- ->. inversion H2; subst. inversion Hf; subst.
      assert (digit base c = Some y) by (apply digit_spells; auto). congruence.
Qed.

Lemma stops_white base r : Forall white r -> stops base r.
Proof.
  intros H c r' -> d Hd. inversion H as [|? ? Hw _]; subst. unfold white, spells in *. lia.
Qed.

(* ------------------------------------------------------------------ *)
(** ** Magnitudes *)

Lemma magnitude_head s n : magnitude s n -> exists c s', s = c :: s' /\ 48 <= c.
Proof.
  intros [(x & s' & -> & _)|[(s' & -> & _)|[_ [Hne (ds & H2 & _)]]]]; [eexists _, _; split; [reflexivity|lia]..|].
  inversion H2; subst; [contradiction|]. eexists _, _. split; [reflexivity|]. unfold spells in *. lia.
Qed.

Lemma get_unsigned_spec s n r : Forall white r ->
  get_unsigned s = Some (n, r) <-> exists p, s = p ++ r /\ magnitude p n.
Proof.
  intros Hw. pose proof (fun b => stops_white b r Hw) as Hst.
  assert (H0 : forall b, 0 < b -> forall s', numeral b (48 :: s') n -> numeral b (48 :: s') n) by auto.
  destruct s as [|c s].
  { cbn. split; [discriminate|]. intros (p & E & Hm). apply magnitude_head in Hm as (c & s' & -> & _). discriminate. }
  destruct (N.eq_dec c 48) as [->|Hc].
  - destruct s as [|x s].
    + cbn [get_unsigned N.eqb Pos.eqb]. split.
      * intros [= <- <-]. exists [48]. split; [reflexivity|]. right; left. exists []. split; [reflexivity|].
        split; [discriminate|]. exists [0]. split; [constructor; [left; lia|constructor]|]. split; [constructor; [lia|constructor]|reflexivity].
      * intros (p & E & Hm). destruct p as [|c p].
        { apply magnitude_head in Hm as (? & ? & ? & _). discriminate. }
        cbn in E. injection E as <- E. symmetry in E. apply app_eq_nil in E as [-> ->].
        destruct Hm as [(y & s' & [=] & _)|[(s' & _ & Hn)|[Hn _]]].
        -- destruct Hn as [_ (ds & H2 & _ & ->)]. inversion H2 as [|? d ? ds' Hs H2']; subst. inversion H2'; subst.
           assert (d = 0) by (apply (spells_fun 48); [exact Hs|left; lia]). subst d. reflexivity.
        -- now destruct (Hn []).
    + cbn [get_unsigned N.eqb]. rewrite Pos.eqb_refl. destruct ((x =? 120) || (x =? 88)) eqn:Ex.
      * assert (Hx : x = 120 \/ x = 88) by (rewrite orb_true_iff, !N.eqb_eq in Ex; exact Ex).
        rewrite get_number_spec. split.
        -- intros (p & -> & Hn & _). exists (48 :: x :: p). split; [reflexivity|]. left. exists x, p. auto.
        -- intros (p & E & Hm). destruct p as [|c p].
           { apply magnitude_head in Hm as (? & ? & ? & _). discriminate. }
           cbn in E. injection E as <- E. destruct Hm as [(y & s' & [= ->] & Hy & Hn)|[(s' & [= ->] & Hn)|[Hn _]]].
           ++ cbn in E. injection E as <- ->. exists s'. auto.
           ++ destruct s' as [|y s'].
              { cbn in E. destruct r as [|y r]; [discriminate|]. injection E as <- ->.
                inversion Hw; subst. unfold white in *. lia. }
              cbn in E. injection E as <- ->. destruct Hn as [_ (ds & H2 & Hf & _)].
              inversion H2 as [|? ? ? ? _ H2']; subst. inversion H2'; subst. inversion Hf; subst.
              match goal with H : Forall _ (_ :: _) |- _ => inversion H; subst end. unfold spells in *. lia.
           ++ now destruct (Hn p).
      * assert (Hx : ~ (x = 120 \/ x = 88)) by (rewrite <- !N.eqb_eq, <- orb_true_iff; congruence).
        rewrite get_number_spec. split.
        -- intros (p & E & Hn & _). destruct p as [|c p]; [destruct Hn; contradiction|].
           cbn in E. injection E as <- E. exists (48 :: p). split; [cbn; congruence|]. right; left. eauto.
        -- intros (p & E & Hm). destruct p as [|c p].
           { apply magnitude_head in Hm as (? & ? & ? & _). discriminate. }
           cbn in E. injection E as <- E. destruct Hm as [(y & s' & [= ->] & Hy & Hn)|[(s' & [= ->] & Hn)|[Hn _]]].
           ++ cbn in E. injection E as <- ->. contradiction.
           ++ exists (48 :: s'). split; [cbn; congruence|]. auto.
           ++ now destruct (Hn p).
  - cbn [get_unsigned]. rewrite (proj2 (N.eqb_neq c 48) Hc).
    rewrite get_number_spec. split.
    + intros (p & E & Hn & _). exists p. split; [exact E|]. right; right. split; [|exact Hn].
      intros s' ->. cbn in E. congruence.
    + intros (p & E & Hm). destruct Hm as [(y & s' & -> & Hy & Hn)|[(s' & -> & Hn)|[Hn Hm]]].
      * cbn in E. congruence.
      * cbn in E. congruence.
      * exists p. auto.
Qed.

(* ------------------------------------------------------------------ *)
(** ** Integers *)

Lemma white_spec c : is_space c = true <-> white c.
Proof. unfold is_space, white. rewrite orb_true_iff, andb_true_iff, N.eqb_eq, !N.leb_le. tauto. Qed.

Lemma all_white r : forallb is_space r = true <-> Forall white r.
Proof. rewrite forallb_forall, Forall_forall. setoid_rewrite white_spec. tauto. Qed.

Lemma get_signed_spec s z r : Forall white r ->
  get_signed s = Some (z, r) <-> exists sign body n, s = sign ++ body ++ r /\ magnitude body n /\
    ((sign = [] /\ z = Z.of_N n) \/ (sign = [43] /\ z = Z.of_N n) \/ (sign = [45] /\ z = (- Z.of_N n)%Z)).
Proof.
  intros Hw. destruct s as [|c s]; cbn [get_signed].
  { split; [discriminate|]. intros (sign & body & n & E & Hm & _). apply magnitude_head in Hm as (c & s' & -> & _).
    destruct sign; discriminate. }
  split.
  - destruct (get_unsigned _) as [[n r']|] eqn:E; [|discriminate]. intros [= <- ->].
    apply (get_unsigned_spec _ _ _ Hw) in E as (p & E & Hm).
    destruct (N.eqb_spec c 45) as [->|H45].
    { cbn [orb] in E. subst s. exists [45], p, n. auto 6. }
    destruct (N.eqb_spec c 43) as [->|H43]; cbn [orb] in E.
    { subst s. exists [43], p, n. auto 6. }
    exists [], p, n. auto 6.
  - intros (sign & body & n & E & Hm & Hs).
    assert (G : get_unsigned (body ++ r) = Some (n, r)) by (apply get_unsigned_spec; eauto).
    destruct Hs as [[-> ->]|[[-> ->]|[-> ->]]]; cbn in E.
    + destruct (magnitude_head _ _ Hm) as (c' & s' & -> & Hc). cbn in E. injection E as <- ->.
      destruct (N.eqb_spec c 45); [lia|]. destruct (N.eqb_spec c 43); [lia|]. cbn [orb].
      change (c :: s' ++ r) with ((c :: s') ++ r). now rewrite G.
    + injection E as -> ->. cbn [N.eqb Pos.eqb orb]. now rewrite G.
    + injection E as -> ->. cbn [N.eqb Pos.eqb orb]. now rewrite G.
Qed.

Lemma in_type_b t z : ((ity_min t <=? z)%Z && (z <=? ity_max t)%Z = true) <-> of_type t z.
Proof. rewrite andb_true_iff, !Z.leb_le. reflexivity. Qed.

Lemma text_int_spec t s z : text_int t s = Some z <-> int_means (isigned t) s z /\ of_type t z.
Proof.
  unfold text_int, int_means. split.
  - intros H. destruct (negb (isigned t) && (hd 0 s =? 45)) eqn:Em; [discriminate|].
    destruct (get_signed s) as [[z' r]|] eqn:E; [|discriminate].
    destruct (_ && forallb is_space r) eqn:Eb; [|discriminate]. injection H as ->.
    apply andb_true_iff in Eb as [Ht Hw]. apply in_type_b in Ht. apply all_white in Hw.
    split; [|exact Ht]. apply (get_signed_spec _ _ _ Hw) in E as (sign & body & n & -> & Hm & Hs).
    exists sign, body, r, n. split; [reflexivity|]. split; [exact Hw|]. split; [exact Hm|].
    destruct Hs as [Hs|[Hs|[-> ->]]]; auto. cbn in Em. rewrite andb_true_r in Em. destruct (isigned t); [auto|discriminate].
  - intros [(sign & body & tail & n & -> & Hw & Hm & Hs) Ht].
    assert (Em : negb (isigned t) && (hd 0 (sign ++ body ++ tail) =? 45) = false).
    { destruct Hs as [[-> _]|[[-> _]|(-> & Hs & _)]].
      - destruct (magnitude_head _ _ Hm) as (c' & s' & -> & Hc). cbn. destruct (N.eqb_spec c' 45); [lia|]. apply andb_false_r.
      - cbn. apply andb_false_r.
      - now rewrite Hs. }
    rewrite Em. assert (G : get_signed (sign ++ body ++ tail) = Some (z, tail)).
    { apply get_signed_spec; [exact Hw|]. exists sign, body, n. intuition. }
    rewrite G, (proj2 (in_type_b t z) Ht), (proj2 (all_white tail) Hw). reflexivity.
Qed.

(* ------------------------------------------------------------------ *)
(** ** Decimal text *)

Lemma weighs_snoc base ds d : weighs base (ds ++ [d]) = weighs base ds * base + d.
Proof.
  induction ds as [|x ds IH]; cbn [app weighs].
  - cbn. lia.
  - rewrite IH, app_length. cbn [length]. rewrite Nat.add_1_r, Nnat.Nat2N.inj_succ, N.pow_succ_r'. lia.
Qed.

Lemma weighs_pos base ds d : 0 < base -> 0 < d -> 0 < weighs base (d :: ds).
Proof. intros Hb Hd. cbn [weighs]. assert (0 < base ^ N.of_nat (length ds)) by (apply N.neq_0_lt_0, N.pow_nonzero; lia). nia. Qed.

(** Digits with no leading zero. *)
Definition lean (ds : list N) : Prop := forall ds', ds = 0 :: ds' -> ds' = [].

Lemma lean_unique : forall ds ds', ds <> [] -> ds' <> [] -> lean ds -> lean ds' ->
  Forall (fun d => d < 10) ds -> Forall (fun d => d < 10) ds' -> weighs 10 ds = weighs 10 ds' -> ds = ds'.
Proof.
  induction ds as [|d ds IH] using rev_ind; intros ds' Hn Hn' Hl Hl' Hf Hf' Hw; [contradiction|].
  destruct (@exists_last _ ds' Hn') as (es & e & ->).
  rewrite !weighs_snoc in Hw. apply Forall_app in Hf as [Hf Hd], Hf' as [Hf' He].
  apply Forall_inv in Hd, He. cbv beta in Hd, He.
  assert (E : d = e /\ weighs 10 ds = weighs 10 es) by lia. destruct E as [-> E].
  assert (Hpos : forall xs x y, lean (xs ++ [y]) -> xs = x :: tl xs -> 0 < weighs 10 xs).
  { intros [|x xs] x' y Hx Ex; [discriminate|]. injection Ex as ->. apply weighs_pos; [lia|].
    destruct (N.eq_dec x' 0) as [->|]; [|lia]. specialize (Hx (xs ++ [y]) eq_refl). destruct xs; discriminate. }
  destruct ds as [|x xs].
  - destruct es as [|y ys]; [reflexivity|]. specialize (Hpos (y :: ys) y e Hl' eq_refl). change (weighs 10 []) with 0 in E. lia.
  - destruct es as [|y ys]. { specialize (Hpos (x :: xs) x e Hl eq_refl). change (weighs 10 []) with 0 in E. lia. }
    f_equal. apply IH; auto; try discriminate.
    + intros zs [= -> ->]. specialize (Hl (zs ++ [e]) eq_refl). destruct zs; discriminate.
    + intros zs [= -> ->]. specialize (Hl' (zs ++ [e]) eq_refl). destruct zs; discriminate.
Qed.

Lemma spells_decimal s ds : Forall2 spells s ds -> Forall (fun d => d < 10) ds -> s = map (fun d => 48 + d) ds.
Proof.
  induction 1 as [|c d s ds Hs H2 IH]; intros Hf; [reflexivity|]. inversion Hf; subst. cbn [map]. f_equal; [|auto].
  unfold spells in Hs. lia.
Qed.

Lemma decimal_spells ds : Forall (fun d => d < 10) ds -> Forall2 spells (map (fun d => 48 + d) ds) ds.
Proof. induction 1; constructor; auto. left. auto. Qed.

Lemma dec_digits_spec : forall fuel n acc, n < 10 ^ N.of_nat (S fuel) ->
  exists ds, dec_digits (S fuel) n acc = map (fun d => 48 + d) ds ++ acc /\ ds <> [] /\ lean ds /\
    Forall (fun d => d < 10) ds /\ weighs 10 ds = n.
Proof.
  induction fuel as [|fuel IH]; intros n acc Hn; cbn [dec_digits].
  - cbn in Hn. destruct (N.ltb_spec n 10); [|lia]. exists [n]. repeat split; auto; try discriminate.
    + intros ds' [= -> <-]. reflexivity.
    + cbn. lia.
  - destruct (N.ltb_spec n 10) as [Hlt|Hge].
    + exists [n]. repeat split; auto; try discriminate.
      * intros ds' [= -> <-]. reflexivity.
      * cbn. lia.
    + destruct (IH (n / 10) ((48 + n mod 10) :: acc)) as (ds & E & Hne & Hl & Hf & Hw).
      { apply N.div_lt_upper_bound; [lia|]. rewrite Nnat.Nat2N.inj_succ, N.pow_succ_r' in Hn. exact Hn. }
      exists (ds ++ [n mod 10]). split; [|split; [|split; [|split]]].
      * cbn [dec_digits] in E. rewrite E, map_app, <- app_assoc. reflexivity.
      * destruct ds; discriminate.
      * intros ds' Ed. destruct ds as [|d ds]; [contradiction|]. cbn in Ed. injection Ed as -> <-.
        specialize (Hl ds eq_refl). subst ds. cbn in Hw. pose proof (N.div_str_pos n 10). lia.
      * apply Forall_app. split; [exact Hf|]. constructor; [apply N.mod_lt; lia|constructor].
      * rewrite weighs_snoc, Hw. pose proof (N.div_mod n 10). lia.
Qed.

Lemma nat_text_spec n : exists ds, nat_text n = map (fun d => 48 + d) ds /\ ds <> [] /\ lean ds /\
    Forall (fun d => d < 10) ds /\ weighs 10 ds = n.
Proof.
  unfold nat_text. destruct (dec_digits_spec (N.to_nat (N.log2 n)) n []) as (ds & E & H); [|exists ds; rewrite app_nil_r in E; auto].
  rewrite Nnat.Nat2N.inj_succ, Nnat.N2Nat.id. destruct (N.eq_dec n 0) as [->|Hn]; [cbn; lia|].
  pose proof (N.log2_spec n ltac:(lia)) as [_ H]. eapply N.lt_le_trans; [exact H|]. apply N.pow_le_mono_l. lia.
Qed.

Lemma nat_text_numeral n : numeral 10 (nat_text n) n /\ (forall s', nat_text n = 48 :: s' -> s' = []).
Proof.
  destruct (nat_text_spec n) as (ds & -> & Hne & Hl & Hf & Hw). split.
  - split; [destruct ds; [contradiction|discriminate]|]. exists ds. auto using decimal_spells.
  - intros s' E. destruct ds as [|d ds]; [contradiction|]. cbn [map] in E. injection E as Ed <-.
    assert (d = 0) by (apply (N.add_cancel_l d 0 48); exact Ed). subst d. now rewrite (Hl ds eq_refl).
Qed.

Lemma numeral_unique s n : numeral 10 s n -> (forall s', s = 48 :: s' -> s' = []) -> s = nat_text n.
Proof.
  intros [Hne (es & H2 & Hf & ->)] Hl. destruct (nat_text_spec (weighs 10 es)) as (ds & -> & Hdn & Hdl & Hdf & Hdw).
  rewrite (spells_decimal s es H2 Hf) in *. f_equal. apply lean_unique; auto.
  - intros ->. now apply Hne.
  - intros ds' ->. cbn [map] in Hl. specialize (Hl _ eq_refl). destruct ds'; [reflexivity|discriminate].
Qed.

Lemma int_text_decimal z s : decimal z s <-> s = int_text z.
Proof.
  unfold decimal, int_text. split.
  - intros (body & -> & Hn & Hl). rewrite <- (numeral_unique body _ Hn Hl). reflexivity.
  - intros ->. exists (nat_text (Z.abs_N z)). destruct (nat_text_numeral (Z.abs_N z)) as [Hn Hl]. auto.
Qed.

Lemma decimal_magnitude s n : numeral 10 s n -> (forall s', s = 48 :: s' -> s' = []) -> magnitude s n.
Proof.
  intros Hn Hl. destruct s as [|c s]; [now destruct Hn|].
  destruct (N.eq_dec c 48) as [->|Hc].
  - right; left. exists s. split; [reflexivity|]. rewrite (Hl s eq_refl) in *.
    destruct Hn as [_ (ds & H2 & Hf & ->)]. split; [discriminate|]. exists ds. split; [exact H2|].
    inversion H2 as [|? d ? ds' Hs H2']; subst. inversion H2'; subst.
    assert (d = 0) by (apply (spells_fun 48); [exact Hs|left; lia]). subst d. split; [constructor; [lia|constructor]|reflexivity].
  - right; right. split; [|exact Hn]. intros s' [= E _]. contradiction.
Qed.

Lemma text_int_text t z : of_type t z -> text_int t (int_text z) = Some z.
Proof.
  intros Ht. apply text_int_spec. split; [|exact Ht]. unfold int_text, int_means.
  destruct (nat_text_numeral (Z.abs_N z)) as [Hn Hl]. pose proof (decimal_magnitude _ _ Hn Hl) as Hm.
  destruct (Z.ltb_spec z 0) as [Hz|Hz].
  - exists [45], (nat_text (Z.abs_N z)), [], (Z.abs_N z). rewrite app_nil_r. split; [reflexivity|]. split; [constructor|].
    split; [exact Hm|]. right; right. split; [reflexivity|]. rewrite N2Z.inj_abs_N. split; [|lia].
    unfold of_type, ity_min in Ht. destruct (isigned t); [reflexivity|lia].
  - exists [], (nat_text (Z.abs_N z)), [], (Z.abs_N z). rewrite app_nil_r. split; [reflexivity|]. split; [constructor|].
    split; [exact Hm|]. left. split; [reflexivity|]. rewrite N2Z.inj_abs_N. lia.
Qed.

(* ------------------------------------------------------------------ *)
(** ** Booleans *)

Lemma text_bool_text b : text_bool (bool_text b) = Some b.
Proof. now destruct b. Qed.

Lemma lower_cases c d : to_lower c = d -> c = d \/ (is_upper c = true /\ c + 32 = d).
Proof. unfold to_lower. destruct (is_upper c) eqn:E; auto. Qed.

Lemma map_nil {A B} (f : A -> B) l : map f l = [] -> l = [].
Proof. now destruct l. Qed.

Lemma map_cons {A B} (f : A -> B) l y ys : map f l = y :: ys -> exists x xs, l = x :: xs /\ f x = y /\ map f xs = ys.
Proof. destruct l as [|x xs]; [discriminate|]. intros [= <- <-]. eauto. Qed.

Ltac unmap H :=
  lazymatch type of H with
  | map _ ?l = [] => apply map_nil in H; subst l
  | map _ ?l = _ :: _ =>
      let c := fresh "c" in let r := fresh "r" in let E := fresh "E" in let Ec := fresh "Ec" in
      apply map_cons in H as (c & r & E & Ec & H); subst l; apply lower_cases in Ec as [->|[_ Ec]];
      [|let k := fresh in pose proof Ec as k; apply N.add_sub_eq_r in k; cbn in k; subst c; clear Ec]; unmap H
  end.

Lemma bool_search_spec s b : bool_search true_names false_names (map to_lower s) = Some b ->
  exists names, In names (if b then true_names else false_names) /\ map to_lower s = names.
Proof.
  unfold true_names, false_names. cbn [bool_search].
  repeat (match goal with |- context [str_eqb ?x ?y] => destruct (str_eqb x y) eqn:E end;
    [apply str_eqb_true in E; intros [= <-]; eexists; (split; [|symmetry; exact E]); cbn [In]; tauto|clear E]).
  discriminate.
Qed.

Lemma text_bool_spec s b : text_bool s = Some b <-> In s (spellings b).
Proof.
  split.
  - unfold text_bool. destruct (flexible_case s) eqn:Ef; [|discriminate]. intros H.
    apply bool_search_spec in H as (names & Hin & Hs).
    destruct b; cbn [true_names false_names In] in Hin;
      (destruct Hin as [<-|[<-|[<-|[<-|[]]]]]; unmap Hs; try discriminate Ef; vm_compute; tauto).
  - intros H. destruct b; vm_compute in H;
      repeat match type of H with _ \/ _ => destruct H as [<-|H]; [vm_compute; reflexivity|] end; destruct H.
Qed.
