(** The reader accepts exactly the representations of values. *)
From Coq Require Import List NArith ZArith Arith Bool Lia ZifyBool ZifyNat ZifyN.
From Verif Require Import Base BinModel BinSpec BinOrder BinProofs BinSafety.
Import ListNotations.
Local Open Scope outcome_scope.
Ltac Zify.zify_post_hook ::= Z.div_mod_to_equations.
Arguments N.add : simpl never.
Arguments N.mul : simpl never.
Arguments N.sub : simpl never.
Arguments N.modulo : simpl never.
Arguments Z.modulo : simpl never.
Arguments Z.div : simpl never.
Arguments Z.pow : simpl never.
Arguments Z.mul : simpl never.
Arguments Z.add : simpl never.

(* ---------- numbers from bytes and back ---------- *)

Lemma le_of_le bs : Forall is_octet bs -> le_bytes (length bs) (of_le_bytes bs) = bs.
Proof.
  induction 1 as [|b bs Hb Hbs IH]; cbn [of_le_bytes length le_bytes]; [reflexivity|].
  unfold is_octet in Hb. f_equal.
  - rewrite (Z.mul_comm 256), Z.mod_add by lia. rewrite Z.mod_small by lia. apply N2Z.id.
  - rewrite (Z.mul_comm 256), Z.div_add by lia. rewrite Z.div_small by lia. exact IH.
Qed.

Lemma le_bytes_shift w : forall z, le_bytes w (z - 256 ^ Z.of_nat w) = le_bytes w z.
Proof.
  induction w as [|w IH]; intros z; cbn [le_bytes]; [reflexivity|].
  rewrite Nat2Z.inj_succ, Z.pow_succ_r by lia.
  replace (z - 256 * 256 ^ Z.of_nat w)%Z with (z + (- 256 ^ Z.of_nat w) * 256)%Z by lia.
  rewrite Z.mod_add, Z.div_add by lia. f_equal. apply IH.
Qed.

Lemma int_bytes_back o s bs : Forall is_octet bs -> int_bytes o (length bs) (bytes_int o s bs) = bs.
Proof.
  intros Hb. unfold int_bytes, bytes_int. rewrite <- pow256.
  match goal with |- context [if ?b then _ else _] => destruct b end; rewrite ?le_bytes_shift;
    rewrite <- (length_arrange o bs), (le_of_le (arrange o bs)) by (now apply octet_arrange); apply arrange_twice.
Qed.

Lemma number_back w bs : length bs = w -> Forall is_octet bs ->
  bs = number w (Z.to_N (bytes_int Native false bs)).
Proof.
  intros Hl Hb. unfold number. rewrite Z2N.id.
  - rewrite <- le_bytes_spec. pose proof (int_bytes_back Native false bs Hb) as E.
    unfold int_bytes in E. cbn [arrange] in E. rewrite Hl in E. now rewrite E.
  - unfold bytes_int. cbn [andb arrange]. pose proof (of_le_bytes_range bs Hb). lia.
Qed.

Lemma number1 n : (n < 256)%N -> number 1 n = [n].
Proof.
  intros H. unfold number, byte_of. cbn [seq map]. change (256 ^ Z.of_nat 0)%Z with 1%Z.
  rewrite Z.div_1_r, Z.mod_small by lia. now rewrite N2Z.id.
Qed.

(* ---------- what a read takes ---------- *)

Lemma skipn_add {A} n : forall m (l : list A), skipn m (skipn n l) = skipn (n + m) l.
Proof.
  induction n as [|n IH]; intros m l; [reflexivity|]. destruct l as [|x l]; cbn [skipn plus].
  - now rewrite skipn_nil.
  - apply IH.
Qed.

Definition took (c c' : cursor) (bs : list N) : Prop :=
  buf c' = buf c /\ rest c = bs ++ rest c' /\ pos c' = (pos c + N.of_nat (length bs))%N.

Lemma took_nil c n : took c (ask c n) [].
Proof. repeat split. cbn. lia. Qed.

Lemma took_refl c : took c c [].
Proof. repeat split. cbn. lia. Qed.

Lemma took_trans a b c x y : took a b x -> took b c y -> took a c (x ++ y).
Proof.
  intros (B1 & R1 & P1) (B2 & R2 & P2). split; [congruence|]. split.
  - now rewrite R1, R2, app_assoc.
  - rewrite P2, P1, app_length. lia.
Qed.

Lemma took_ask a b n x : took a b x -> took a (ask b n) x.
Proof. intros H. rewrite <- (app_nil_r x). eapply took_trans; [exact H|apply took_nil]. Qed.

Lemma read_impl_took c n c' r : inside c -> read_impl c n = Ok (c', r) -> err c' = false ->
  exists bs, r = Some bs /\ took c c' bs /\ N.of_nat (length bs) = n /\ Forall is_octet bs /\ err c = false /\ inside c'.
Proof.
  intros Hi E He. destruct (read_impl_cases c n Hi) as [(_ & E1)|(He1 & Hle & bs & E1 & Eb & Hl & Hb)].
  - rewrite E1 in E. injection E as <- _. discriminate.
  - destruct (read_impl_ok c n Hi) as (c2 & r2 & E2 & (S & _) & _).
    rewrite E1 in E, E2. injection E as <- <-. injection E2 as <- _.
    exists bs. split; [reflexivity|]. split; [|auto]. split; [reflexivity|]. split.
    + unfold rest. cbn [pos buf set_pos]. rewrite Eb at 1. rewrite N2Nat.inj_add.
      rewrite <- skipn_add. symmetry. apply firstn_skipn.
    + cbn [pos set_pos]. lia.
Qed.

Lemma read_uint_took w c c' n : 1 <= w -> inside c -> read_uint w c = Ok (c', n) -> err c' = false ->
  took c c' (number w n) /\ (n < 2 ^ (8 * N.of_nat w))%N /\ err c = false /\ inside c'.
Proof.
  intros Hw Hi E He. destruct (read_uint_ok w c Hw Hi) as (c2 & n2 & E2 & S2 & _ & B2).
  assert (c2 = c' /\ n2 = n) as [-> ->] by (split; congruence).
  unfold read_uint in E. destruct (err c) eqn:Ec; [injection E as <- _; congruence|].
  destruct (read_impl_ok c (N.of_nat w) Hi) as (c3 & r & E3 & S3 & R3). rewrite E3 in E. cbn [obind] in E.
  assert (c3 = c') by (destruct r; congruence). subst c3.
  destruct (read_impl_took c _ c' r Hi E3 He) as (bs & -> & T & Hl & Hb & _).
  injection E as <-. split; [|split; [assumption|split; [reflexivity|apply S2]]].
  rewrite <- number_back; [assumption|lia|assumption].
Qed.

(* ---------- containers ---------- *)

Lemma set_insert_in m k x : In x (set_insert m k) <-> x = k \/ In x m.
Proof.
  induction m as [|k' m IH]; cbn [set_insert In]; [intuition congruence|].
  destruct (vcmp k k') eqn:E; cbn [In].
  - apply vcmp_eq in E. subst. intuition congruence.
  - intuition congruence.
  - rewrite IH. intuition congruence.
Qed.

Lemma fold_set_in items : forall acc x, In x (fold_left set_insert items acc) <-> In x items \/ In x acc.
Proof.
  induction items as [|k items IH]; intros acc x; cbn [fold_left In]; [tauto|].
  rewrite IH, set_insert_in. intuition congruence.
Qed.

Lemma fold_set_increasing items : forall acc, increasing acc -> increasing (fold_left set_insert items acc).
Proof. induction items as [|k items IH]; intros acc H; cbn [fold_left]; [assumption|]. apply IH. now apply set_insert_increasing. Qed.

Lemma increasing_notin k l : Forall (fun y => vcmp k y = Lt) l -> ~ In k l.
Proof. rewrite Forall_forall. intros H Hk. specialize (H _ Hk). rewrite vcmp_refl in H. discriminate. Qed.

Lemma map_insert_in m k v : increasing (map fst m) -> forall k' v',
  In (k', v') (map_insert m k v) <-> In (k', v') m \/ (k' = k /\ v' = v /\ ~ In k (map fst m)).
Proof.
  induction m as [|[k0 v0] m IH]; intros Hm k' v'; cbn [map_insert map fst In] in *.
  - intuition congruence.
  - destruct Hm as [H1 H2]. destruct (vcmp k k0) eqn:E; cbn [In].
    + apply vcmp_eq in E. subst. intuition.
    + assert (N : ~ In k (map fst m)).
      { apply increasing_notin. eapply Forall_impl; [|exact H1]. intros y Hy. eapply vcmp_trans; eauto. }
      assert (k0 <> k) by (intros ->; rewrite vcmp_refl in E; discriminate).
      intuition congruence.
    + rewrite IH by assumption.
      assert (k0 <> k) by (intros ->; rewrite vcmp_refl in E; discriminate).
      intuition congruence.
Qed.

Definition collect (items : list (val * val)) : list (val * val) :=
  fold_left (fun m kv => map_insert m (fst kv) (snd kv)) items [].

Lemma collect_snoc items k v : collect (items ++ [(k, v)]) = map_insert (collect items) k v.
Proof. unfold collect. now rewrite fold_left_app. Qed.

Lemma first_keys items l : first_of_each items l -> forall k, In k (map fst items) -> In k (map fst l).
Proof.
  intros (_ & H) k Hk.
  assert (exists v a b, items = a ++ (k, v) :: b /\ ~ In k (map fst a)) as (v & a & b & E & N).
  { clear H. induction items as [|[k0 v0] items IH]; cbn in Hk; [contradiction|].
    destruct (vcmp k k0) eqn:E.
    1: apply vcmp_eq in E; subst; exists v0, [], items; auto.
    all: assert (Hne : k0 <> k) by (intros ->; rewrite vcmp_refl in E; discriminate);
      destruct Hk as [Hk|Hk]; [congruence|]; destruct (IH Hk) as (v & a & b & -> & N);
      exists v, ((k0, v0) :: a), b; split; [reflexivity|]; cbn; intuition. }
  apply in_map_iff. exists (k, v). split; [reflexivity|]. apply H. eauto.
Qed.

Lemma first_of_each_collect items : first_of_each items (collect items).
Proof.
  induction items as [|[k v] items IH] using rev_ind.
  - split; [exact I|]. intros k v. split; [intros []|]. intros (a & b & E & _). destruct a; discriminate.
  - rewrite collect_snoc. pose proof IH as (Hinc & Hin). split; [now apply map_insert_increasing|].
    intros k' v'. rewrite map_insert_in by assumption. split.
    + intros [H|(-> & -> & H)].
      * apply Hin in H. destruct H as (a & b & -> & N). exists a, (b ++ [(k, v)]). split; [|assumption].
        now rewrite <- app_assoc.
      * exists items, []. split; [reflexivity|]. intros G. apply H. eapply first_keys; eauto.
    + intros (a & b & E & N). destruct b as [|x b _] using rev_ind.
      * apply app_inj_tail in E. destruct E as [-> E]. injection E as -> ->. right. split; [reflexivity|]. split; [reflexivity|].
        intros G. apply N. apply in_map_iff in G. destruct G as ([k2 v2] & E2 & G). cbn in E2. subst k2.
        apply Hin in G. destruct G as (a2 & b2 & -> & _). rewrite map_app. apply in_or_app. right. now left.
      * left. apply Hin. exists a, b. split; [|assumption].
        rewrite app_comm_cons, app_assoc in E. apply app_inj_tail in E. apply E.
Qed.

Lemma increasing_ext l m : increasing l -> increasing m -> (forall x, In x l <-> In x m) -> l = m.
Proof.
  revert m; induction l as [|x l IH]; intros [|y m] Hl Hm H.
  - reflexivity.
  - exfalso. apply (H y). now left.
  - exfalso. apply (H x). now left.
  - destruct Hl as [L1 L2], Hm as [M1 M2]. rewrite Forall_forall in L1, M1.
    assert (x = y).
    { destruct (proj1 (H x) (or_introl eq_refl)) as [E|E]; [congruence|].
      destruct (proj2 (H y) (or_introl eq_refl)) as [E'|E']; [congruence|].
      pose proof (vcmp_trans _ _ _ (L1 _ E') (M1 _ E)) as C. rewrite vcmp_refl in C. discriminate. }
    subst y. f_equal. apply IH; auto. intros z. specialize (H z). cbn [In] in H.
    assert (~ In x l) by (intros G; specialize (L1 _ G); rewrite vcmp_refl in L1; discriminate).
    assert (~ In x m) by (intros G; specialize (M1 _ G); rewrite vcmp_refl in M1; discriminate).
    split; intros G.
    + destruct (proj1 H (or_intror G)) as [->|]; [contradiction|assumption].
    + destruct (proj2 H (or_intror G)) as [->|]; [contradiction|assumption].
Qed.

Lemma keyed_ext (l m : list (val * val)) : increasing (map fst l) -> increasing (map fst m) ->
  (forall x, In x l <-> In x m) -> l = m.
Proof.
  revert m; induction l as [|[k v] l IH]; intros [|[k' v'] m] Hl Hm H.
  - reflexivity.
  - exfalso. apply (H (k', v')). now left.
  - exfalso. apply (H (k, v)). now left.
  - cbn [map fst] in Hl, Hm. destruct Hl as [L1 L2], Hm as [M1 M2]. rewrite Forall_forall in L1, M1.
    assert (Hk : forall z u, In (z, u) l -> vcmp k z = Lt) by (intros z u G; apply L1; apply in_map_iff; exists (z, u); auto).
    assert (Hk' : forall z u, In (z, u) m -> vcmp k' z = Lt) by (intros z u G; apply M1; apply in_map_iff; exists (z, u); auto).
    assert (E : (k, v) = (k', v')).
    { destruct (proj1 (H (k, v)) (or_introl eq_refl)) as [E|E]; [congruence|].
      destruct (proj2 (H (k', v')) (or_introl eq_refl)) as [E'|E']; [congruence|].
      pose proof (vcmp_trans _ _ _ (Hk _ _ E') (Hk' _ _ E)) as C. rewrite vcmp_refl in C. discriminate. }
    injection E as <- <-. f_equal. apply IH; auto. intros [z u]. specialize (H (z, u)). cbn [In] in H.
    split; intros G.
    + destruct (proj1 H (or_intror G)) as [E|]; [|assumption]. injection E as <- <-.
      specialize (Hk _ _ G). rewrite vcmp_refl in Hk. discriminate.
    + destruct (proj2 H (or_intror G)) as [E|]; [|assumption]. injection E as <- <-.
      specialize (Hk' _ _ G). rewrite vcmp_refl in Hk'. discriminate.
Qed.

Lemma first_of_each_unique items l m : first_of_each items l -> first_of_each items m -> l = m.
Proof.
  intros (L1 & L2) (M1 & M2). apply keyed_ext; auto. intros [k v]. now rewrite L2, M2.
Qed.

(* ---------- the reader is sound ---------- *)

Lemma chunks_parts w : forall n (bs : list N), length bs = n * w -> concat (chunks n w bs) = bs.
Proof.
  induction n as [|n IH]; intros bs Hl; cbn [chunks concat].
  - destruct bs; [reflexivity|discriminate].
  - rewrite IH by (rewrite skipn_length; lia). apply firstn_skipn.
Qed.

Lemma fixed_represents t bs : wf_ty t -> ((exists o s w, t = TInt o s w) \/ (exists s w, t = TRaw s w)) ->
  length bs = width t -> Forall is_octet bs -> represents t bs (of_repr t bs).
Proof.
  intros Hw Ht Hl Hb. pose proof (of_repr_ty t bs Hw Ht Hl Hb) as HT.
  destruct Ht as [(o & s & w & ->)|(s & w & ->)]; cbn [represents of_repr width] in *.
  - eexists. split; [reflexivity|]. split; [exact HT|]. cbn [encode].
    rewrite <- int_bytes_spec, <- Hl. symmetry. now apply int_bytes_back.
  - auto.
Qed.

Definition sound (t : ty) : Prop :=
  forall old c c' v, inside c -> has_ty t old ->
    read_binary t old c = Ok (c', v) -> err c' = false ->
    err c = false -> exists bs, took c c' bs /\ represents t bs v.

Lemma nloop_sound {R A} (body : cursor * R -> outcome (cursor * R * bool)) (add : R -> A -> R)
  (P : list N -> A -> Prop) :
  (forall c acc c' acc' b, inside c -> err c = false -> body (c, acc) = Ok (c', acc', b) ->
     inside c' /\ if err c' then b = true else b = false /\ exists x bs, took c c' bs /\ P bs x /\ acc' = add acc x) ->
  forall n c acc c' acc' b, inside c -> err c = false -> nloop n body (c, acc) = Ok (c', acc', b) -> err c' = false ->
  exists parts items, length items = n /\ Forall2 P parts items /\ took c c' (concat parts) /\ acc' = fold_left add items acc.
Proof.
  intros Hb n. induction n as [|n IH]; intros c acc c' acc' b Hi He E He'; cbn [nloop] in E.
  - injection E as <- <- _. exists [], []. split; [reflexivity|]. split; [constructor|]. split; [apply took_refl|reflexivity].
  - destruct (body (c, acc)) as [[[c1 a1] b1]| |] eqn:E1; cbn [obind] in E; try discriminate.
    destruct (Hb _ _ _ _ _ Hi He E1) as (Hi1 & H1). destruct (err c1) eqn:Ec1.
    + subst b1. injection E as <- <- _. congruence.
    + destruct H1 as (-> & x & bs & T1 & P1 & ->).
      destruct (IH _ _ _ _ _ Hi1 Ec1 E He') as (parts & items & Hl & HF & T & ->).
      exists (bs :: parts), (x :: items). split; [cbn; congruence|]. split; [now constructor|].
      split; [|reflexivity]. cbn [concat]. eapply took_trans; eauto.
Qed.

(** One element read by a loop body. *)
Lemma item_sound t c c' v : wf_ty t -> sound t -> inside c -> err c = false ->
  (if err c then Ok (c, dflt t) else read_binary t (dflt t) c) = Ok (c', v) ->
  inside c' /\ (err c' = false -> exists bs, took c c' bs /\ represents t bs v).
Proof.
  intros Hw Hs Hi He E. rewrite He in E.
  destruct (read_safe t Hw (dflt t) c Hi (dflt_has_ty t Hw)) as (c2 & v2 & E2 & (S & _) & _).
  assert (c2 = c') by congruence. subst c2. split; [apply S|]. intros He'.
  apply (Hs (dflt t) c c' v); auto. now apply dflt_has_ty.
Qed.

Fixpoint members_rep (ts : list ty) (bs : list N) (vs : list val) : Prop :=
  match ts, vs with
  | [], [] => bs = []
  | t0 :: ts', v0 :: vs' => exists p1 p2, bs = p1 ++ p2 /\ represents t0 p1 v0 /\ members_rep ts' p2 vs'
  | _, _ => False
  end.

Lemma members_safe' ts olds c : Forall wf_ty ts -> inside c -> members_ty ts olds ->
  exists c' vs, read_members ts olds c = Ok (c', vs) /\ step_ok c c' /\ members_ty ts vs.
Proof. intros Hw. apply members_safe; auto. rewrite Forall_forall. intros u _ Hu. exact (read_safe u Hu). Qed.

Lemma members_sound ts : Forall (fun t => wf_ty t -> sound t) ts -> Forall wf_ty ts ->
  forall olds c c' vs, inside c -> members_ty ts olds -> read_members ts olds c = Ok (c', vs) -> err c' = false ->
  err c = false -> exists bs, took c c' bs /\ members_rep ts bs vs.
Proof.
  induction 1 as [|t ts Ht _ IH]; intros Hw olds c c' vs Hi Ho E He' He;
    destruct olds as [|o olds]; cbn [members_ty] in Ho; try contradiction; cbn [read_members] in E.
  - injection E as <- <-. exists []. split; [apply took_refl|reflexivity].
  - inversion Hw as [|? ? Hw0 Hw']; subst. destruct Ho as [Ho0 Ho].
    destruct (read_safe t Hw0 o c Hi Ho0) as (c1 & v & E1 & S1 & _). rewrite E1 in E. cbn [obind] in E.
    destruct (members_safe' ts olds c1 Hw' (proj1 S1) Ho) as (c2 & ws & E2 & S2 & _).
    rewrite E2 in E. cbn [obind] in E. injection E as <- <-.
    pose proof (err_false_before _ _ S2 He') as He1.
    destruct (Ht Hw0 o c c1 v Hi Ho0 E1 He1 He) as (p1 & T1 & R1).
    destruct (IH Hw' olds c1 c2 ws (proj1 S1) Ho E2 He' He1) as (p2 & T2 & R2).
    exists (p1 ++ p2). split; [eapply took_trans; eauto|]. exists p1, p2. auto.
Qed.

Theorem reader_sound t : wf_ty t -> sound t.
Proof.
  induction t as [o s w|s w| |t IH|k t IHk IH|t IH|a b IHa IHb|t IH|ts IH|ts IH] using ty_induct;
    intros Hw old c c' v Hi Hold E He' He; cbn [read_binary] in E.
  - unfold read_raw in E. destruct (read_impl_ok c (N.of_nat (width (TInt o s w))) Hi) as (c2 & r & E2 & _ & _).
    rewrite E2 in E. cbn [obind] in E. assert (c2 = c') by (destruct r; congruence). subst c2.
    destruct (read_impl_took _ _ _ _ Hi E2 He') as (bs & -> & T & Hl & Hb & _). injection E as <-.
    exists bs. split; [assumption|]. apply (fixed_represents (TInt o s w)); eauto 6. lia.
  - unfold read_raw in E. destruct (read_impl_ok c (N.of_nat (width (TRaw s w))) Hi) as (c2 & r & E2 & _ & _).
    rewrite E2 in E. cbn [obind] in E. assert (c2 = c') by (destruct r; congruence). subst c2.
    destruct (read_impl_took _ _ _ _ Hi E2 He') as (bs & -> & T & Hl & Hb & _). injection E as <-.
    exists bs. split; [assumption|]. apply (fixed_represents (TRaw s w)); eauto 6. lia.
  - destruct (read_uint 4 c) as [[c1 n]| |] eqn:E1; cbn [obind] in E; try discriminate.
    destruct (N.eqb_spec n 0) as [En|En].
    + injection E as <- <-. destruct (read_uint_took 4 c c1 n ltac:(lia) Hi E1 He') as (T & B & _).
      subst n. exists (number 4 0). split; [assumption|]. exists []. split; [reflexivity|]. split; [reflexivity|]. cbn [length]. now rewrite app_nil_r.
    + assert (Hi1 : inside c1).
      { destruct (read_uint_ok 4 c ltac:(lia) Hi) as (c3 & n3 & E3 & S3 & _). assert (c3 = c1) by congruence. subst. apply S3. }
      destruct (read_impl_ok (ask c1 n) n Hi1) as (c2 & r & E2 & S2 & R2). rewrite E2 in E. cbn [obind] in E.
      destruct (err c2) eqn:Ec2; [injection E as <- _; congruence|]. destruct r as [bs|]; [|congruence].
      injection E as <- <-.
      assert (Ec1 : err c1 = false) by (apply (err_false_before _ _ S2 Ec2)).
      destruct (read_uint_took 4 c c1 n ltac:(lia) Hi E1 Ec1) as (T & B & _).
      destruct (read_impl_took (ask c1 n) _ _ _ Hi1 E2 Ec2) as (bs' & Eq & T2 & Hl & Hb & _). injection Eq as <-.
      exists (number 4 n ++ bs). split.
      * eapply took_trans; [apply took_ask, T|]. exact T2.
      * exists bs. split; [reflexivity|]. split; [apply (fits_le _ n B); lia|]. now rewrite Hl.
  - destruct (read_uint 4 c) as [[c1 n]| |] eqn:E1; cbn [obind] in E; try discriminate.
    assert (Hi1 : inside c1).
    { destruct (read_uint_ok 4 c ltac:(lia) Hi) as (c3 & n3 & E3 & S3 & _). assert (c3 = c1) by congruence. subst. apply S3. }
    destruct (is_simple t) eqn:Es.
    + destruct (N.eqb_spec n 0) as [En|En].
      * injection E as <- <-. destruct (read_uint_took 4 c c1 n ltac:(lia) Hi E1 He') as (T & B & _).
        subst n. exists (number 4 0). split; [assumption|]. exists [], []. split; [reflexivity|]. split; [reflexivity|].
        split; [constructor|]. cbn [length concat]. now rewrite app_nil_r.
      * destruct (read_impl_ok (ask c1 n) (n * N.of_nat (width t)) Hi1) as (c2 & r & E2 & S2 & R2). rewrite E2 in E. cbn [obind] in E.
        destruct (err c2) eqn:Ec2; [injection E as <- _; congruence|]. destruct r as [bs|]; [|congruence].
        injection E as <- <-.
        assert (Ec1 : err c1 = false) by (apply (err_false_before _ _ S2 Ec2)).
        destruct (read_uint_took 4 c c1 n ltac:(lia) Hi E1 Ec1) as (T & B & _).
        destruct (read_impl_took (ask c1 n) _ _ _ Hi1 E2 Ec2) as (bs' & Eq & T2 & Hl & Hb & _). injection Eq as <-.
        destruct (chunks_length (width t) (N.to_nat n) bs ltac:(lia) Hb) as [C1 C2].
        exists (number 4 n ++ bs). split.
        { eapply took_trans; [apply took_ask, T|]. exact T2. }
        exists (map (of_repr t) (chunks (N.to_nat n) (width t) bs)), (chunks (N.to_nat n) (width t) bs).
        split; [reflexivity|]. split; [apply (fits_le _ n B); rewrite map_length; lia|]. split.
        -- clear -C1 Es Hw. induction C1 as [|x l (Hx1 & Hx2) Hl IH]; cbn [map]; constructor; auto.
           apply fixed_represents; auto. now apply simple_shape.
        -- rewrite map_length, C2, N2Nat.id, chunks_parts by lia. reflexivity.
    + rewrite loop_nloop in E. match type of E with context [nloop _ ?body _] => set (B := body) in E end.
      destruct (nloop (N.to_nat n) B (ask c1 n, [])) as [[[c2 acc] fl]| |] eqn:E2; cbn [obind fst snd] in E; try discriminate.
      injection E as <- <-.
      destruct (err c1) eqn:Ec1.
      { exfalso. destruct (read_uint_ok 4 c ltac:(lia) Hi) as (c3 & n3 & E3 & S3 & Z3 & _).
        assert (c3 = c1 /\ n3 = n) as [-> ->] by (split; congruence). rewrite (Z3 Ec1) in E2. cbn in E2. injection E2 as <- _ _. cbn in He'. congruence. }
      destruct (read_uint_took 4 c c1 n ltac:(lia) Hi E1 Ec1) as (T & Bd & _).
      destruct (nloop_sound B (fun m x => m ++ [x]) (represents t)) with (n := N.to_nat n) (c := ask c1 n) (acc := @nil val) (c' := c2) (acc' := acc) (b := fl)
        as (parts & items & Hl & HF & T2 & Ea); auto.
      * intros c0 acc0 c0' acc0' b0 Hi0 He0 Eb. unfold B in Eb.
        destruct (if err c0 then Ok (c0, dflt t) else read_binary t (dflt t) c0) as [[c3 x]| |] eqn:E3; cbn [obind] in Eb; try discriminate.
        destruct (item_sound t c0 c3 x Hw (IH Hw) Hi0 He0 E3) as (Hi3 & H3).
        destruct (err c3) eqn:Ec3; injection Eb as <- <- <-; rewrite Ec3; split; auto.
        split; [reflexivity|]. destruct (H3 eq_refl) as (bs & T3 & R3). eauto.
      * rewrite fold_push in Ea. cbn [app] in Ea. subst acc. exists (number 4 n ++ concat parts). split.
        { eapply took_trans; [apply took_ask, T|exact T2]. }
        exists items, parts. split; [reflexivity|]. split; [apply (fits_le _ n Bd); lia|]. split; [assumption|].
        rewrite Hl, N2Nat.id. reflexivity.
  - destruct Hw as [Hwk Hwt].
    destruct (read_uint 4 c) as [[c1 n]| |] eqn:E1; cbn [obind] in E; try discriminate.
    assert (Hi1 : inside c1).
    { destruct (read_uint_ok 4 c ltac:(lia) Hi) as (c3 & n3 & E3 & S3 & _). assert (c3 = c1) by congruence. subst. apply S3. }
    rewrite loop_nloop in E. match type of E with context [nloop _ ?body _] => set (B := body) in E end.
    destruct (nloop (N.to_nat n) B (c1, [])) as [[[c2 acc] fl]| |] eqn:E2; cbn [obind fst snd] in E; try discriminate.
    injection E as <- <-.
    destruct (err c1) eqn:Ec1.
    { exfalso. destruct (read_uint_ok 4 c ltac:(lia) Hi) as (c3 & n3 & E3 & S3 & Z3 & _).
      assert (c3 = c1 /\ n3 = n) as [-> ->] by (split; congruence). rewrite (Z3 Ec1) in E2. cbn in E2. injection E2 as <- _ _. congruence. }
    destruct (read_uint_took 4 c c1 n ltac:(lia) Hi E1 Ec1) as (T & Bd & _).
    destruct (nloop_sound B (fun m kv => map_insert m (fst kv) (snd kv))
        (fun p kv => exists p1 p2, p = p1 ++ p2 /\ represents k p1 (fst kv) /\ represents t p2 (snd kv)))
      with (n := N.to_nat n) (c := c1) (acc := @nil (val * val)) (c' := c2) (acc' := acc) (b := fl)
      as (parts & items & Hl & HF & T2 & Ea); auto.
    + intros c0 acc0 c0' acc0' b0 Hi0 He0 Eb. unfold B in Eb.
      destruct (if err c0 then Ok (c0, dflt k) else read_binary k (dflt k) c0) as [[c3 x]| |] eqn:E3; cbn [obind] in Eb; try discriminate.
      destruct (item_sound k c0 c3 x Hwk (IHk Hwk) Hi0 He0 E3) as (Hi3 & H3).
      destruct (err c3) eqn:Ec3.
      * cbn [obind] in Eb. rewrite Ec3 in Eb. injection Eb as <- <- <-. rewrite Ec3. split; auto.
      * destruct (read_binary t (dflt t) c3) as [[c4 y]| |] eqn:E4; cbn [obind] in Eb; try discriminate.
        destruct (item_sound t c3 c4 y Hwt (IH Hwt) Hi3 Ec3) as (Hi4 & H4); [now rewrite Ec3|].
        destruct (err c4) eqn:Ec4; injection Eb as <- <- <-; rewrite Ec4; split; auto.
        split; [reflexivity|]. destruct (H3 eq_refl) as (bs & T3 & R3). destruct (H4 eq_refl) as (bs4 & T4 & R4).
        exists (x, y), (bs ++ bs4). split; [eapply took_trans; eauto|]. split; [|reflexivity]. eauto.
    + exists (number 4 n ++ concat parts). split.
      { eapply took_trans; [exact T|exact T2]. }
      exists items, parts, acc. split; [reflexivity|]. split; [apply (fits_le _ n Bd); lia|]. split; [assumption|].
      split; [subst acc; apply first_of_each_collect|]. rewrite Hl, N2Nat.id. reflexivity.
  - destruct (read_uint 4 c) as [[c1 n]| |] eqn:E1; cbn [obind] in E; try discriminate.
    assert (Hi1 : inside c1).
    { destruct (read_uint_ok 4 c ltac:(lia) Hi) as (c3 & n3 & E3 & S3 & _). assert (c3 = c1) by congruence. subst. apply S3. }
    rewrite loop_nloop in E. match type of E with context [nloop _ ?body _] => set (B := body) in E end.
    destruct (nloop (N.to_nat n) B (c1, [])) as [[[c2 acc] fl]| |] eqn:E2; cbn [obind fst snd] in E; try discriminate.
    injection E as <- <-.
    destruct (err c1) eqn:Ec1.
    { exfalso. destruct (read_uint_ok 4 c ltac:(lia) Hi) as (c3 & n3 & E3 & S3 & Z3 & _).
      assert (c3 = c1 /\ n3 = n) as [-> ->] by (split; congruence). rewrite (Z3 Ec1) in E2. cbn in E2. injection E2 as <- _ _. congruence. }
    destruct (read_uint_took 4 c c1 n ltac:(lia) Hi E1 Ec1) as (T & Bd & _).
    destruct (nloop_sound B set_insert (represents t)) with (n := N.to_nat n) (c := c1) (acc := @nil val) (c' := c2) (acc' := acc) (b := fl)
      as (parts & items & Hl & HF & T2 & Ea); auto.
    + intros c0 acc0 c0' acc0' b0 Hi0 He0 Eb. unfold B in Eb.
      destruct (if err c0 then Ok (c0, dflt t) else read_binary t (dflt t) c0) as [[c3 x]| |] eqn:E3; cbn [obind] in Eb; try discriminate.
      destruct (item_sound t c0 c3 x Hw (IH Hw) Hi0 He0 E3) as (Hi3 & H3).
      destruct (err c3) eqn:Ec3; injection Eb as <- <- <-; rewrite Ec3; split; auto.
      split; [reflexivity|]. destruct (H3 eq_refl) as (bs & T3 & R3). eauto.
    + exists (number 4 n ++ concat parts). split.
      { eapply took_trans; [exact T|exact T2]. }
      exists items, parts, acc. split; [reflexivity|]. split; [apply (fits_le _ n Bd); lia|]. split; [assumption|].
      subst acc. split; [now apply fold_set_increasing|]. split; [|rewrite Hl, N2Nat.id; reflexivity].
      intros x. rewrite fold_set_in. cbn. tauto.
  - destruct Hw as [Hwa Hwb]. destruct old as [| | | | | |x y| |]; cbn in Hold; try contradiction. destruct Hold as [Hx Hy].
    rewrite He in E.
    destruct (read_safe a Hwa x c Hi Hx) as (c1 & v1 & E1 & (S1 & _) & _). rewrite E1 in E. cbn [obind] in E.
    destruct (err c1) eqn:Ec1; [injection E as <- _; congruence|].
    destruct (read_safe b Hwb y c1 S1 Hy) as (c2 & v2 & E2 & (S2 & _) & _). rewrite E2 in E. cbn [obind] in E.
    injection E as <- <-.
    destruct (IHa Hwa x c c1 v1 Hi Hx E1 Ec1 He) as (p1 & T1 & R1).
    destruct (IHb Hwb y c1 c2 v2 S1 Hy E2 He' Ec1) as (p2 & T2 & R2).
    exists (p1 ++ p2). split; [eapply took_trans; eauto|]. exists p1, p2, v1, v2. auto.
  - destruct (read_uint 1 c) as [[c1 n]| |] eqn:E1; cbn [obind] in E; try discriminate.
    assert (Hi1 : inside c1).
    { destruct (read_uint_ok 1 c ltac:(lia) Hi) as (c3 & n3 & E3 & S3 & _). assert (c3 = c1) by congruence. subst. apply S3. }
    destruct (err c1) eqn:Ec1; cbn [negb andb] in E; [injection E as <- _; congruence|].
    destruct (read_uint_took 1 c c1 n ltac:(lia) Hi E1 Ec1) as (T & Bd & _).
    change (2 ^ (8 * N.of_nat 1))%N with 256%N in Bd. rewrite (number1 n Bd) in T.
    destruct (N.eqb_spec n 0) as [En|En]; cbn [negb] in E.
    + injection E as <- <-. subst n. exists [0%N]. split; [assumption|]. now left.
    + destruct (read_safe t Hw (dflt t) c1 Hi1 (dflt_has_ty t Hw)) as (c2 & v2 & E2 & (S2 & _) & _). rewrite E2 in E. cbn [obind] in E.
      injection E as <- <-.
      destruct (IH Hw (dflt t) c1 c2 v2 Hi1 (dflt_has_ty t Hw) E2 He' Ec1) as (bs & T2 & R2).
      exists (n :: bs). split; [exact (took_trans _ _ _ [n] bs T T2)|]. right. exists n, bs, v2. auto.
  - apply wf_var in Hw. destruct Hw as [Hlen Hwf].
    destruct (read_uint 1 c) as [[c1 n]| |] eqn:E1; cbn [obind] in E; try discriminate. rewrite visit_spec in E.
    assert (Hi1 : inside c1).
    { destruct (read_uint_ok 1 c ltac:(lia) Hi) as (c3 & n3 & E3 & S3 & _). assert (c3 = c1) by congruence. subst. apply S3. }
    destruct (err c1) eqn:Ec1; [injection E as <- _; congruence|].
    destruct (read_uint_took 1 c c1 n ltac:(lia) Hi E1 Ec1) as (T & Bd & _).
    destruct (nth_error ts (N.to_nat n)) as [t0|] eqn:Et; [|injection E as <- _; cbn in He'; discriminate].
    pose proof (nth_error_In _ _ Et) as Hin. rewrite Forall_forall in IH, Hwf.
    pose proof (dflt_has_ty t0 (Hwf t0 Hin)) as Hd.
    destruct (read_safe t0 (Hwf t0 Hin) (dflt t0) c1 Hi1 Hd) as (c2 & v2 & E2 & (S2 & _) & _). rewrite E2 in E. cbn [obind] in E.
    destruct (err c2) eqn:Ec2; [injection E as <- _; congruence|]. injection E as <- <-.
    destruct (IH t0 Hin (Hwf t0 Hin) (dflt t0) c1 c2 v2 Hi1 Hd E2 Ec2 Ec1) as (bs & T2 & R2).
    exists (number 1 n ++ bs). split; [eapply took_trans; eauto|]. cbn [represents plus].
    exists (N.to_nat n), v2, bs. split; [reflexivity|]. rewrite N2Nat.id. split; [reflexivity|].
    rewrite pick_prop, Et. exact R2.
  - destruct (has_ty_rec _ _ Hold) as (olds & -> & Ho).
    change ((' (c1, vs) <- read_members ts olds c ;; Ok (c1, VSeq vs)) = Ok (c', v)) in E.
    destruct (read_members ts olds c) as [[c1 vs]| |] eqn:E1; cbn [obind] in E; try discriminate. injection E as <- <-.
    destruct (members_sound ts IH (wf_rec _ Hw) olds c c1 vs Hi Ho E1 He' He) as (bs & T & R).
    exists bs. split; [assumption|]. exists vs. split; [reflexivity|exact R].
Qed.

(* ---------- and complete ---------- *)

Definition accepts (t : ty) (bs : list N) (v : val) : Prop :=
  forall c pre post old, inside c -> err c = false ->
    buf c = pre ++ bs ++ post -> pos c = N.of_nat (length pre) -> has_ty t old ->
    exists c', read_binary t old c = Ok (c', v) /\ moved c c' (N.of_nat (length (pre ++ bs))).

Lemma loop_parts {A R} (body : cursor * R -> outcome (cursor * R * bool)) (add : R -> A -> R)
  (P : list N -> A -> Prop) (post : list N) :
  (forall bs x acc c pre post, P bs x -> inside c -> err c = false ->
     buf c = pre ++ bs ++ post -> pos c = N.of_nat (length pre) ->
     exists c', body (c, acc) = Ok (c', add acc x, false) /\ moved c c' (N.of_nat (length (pre ++ bs)))) ->
  forall parts items, Forall2 P parts items ->
  forall (acc : R) (c : cursor) (pre : list N),
  inside c -> err c = false ->
  buf c = pre ++ concat parts ++ post -> pos c = N.of_nat (length pre) ->
  exists c', nloop (length items) body (c, acc) = Ok (c', fold_left add items acc, false) /\
    moved c c' (N.of_nat (length (pre ++ concat parts))).
Proof.
  intros Hbody parts items H. induction H as [|bs x parts items Hx H IH]; intros acc c pre Hi He Hb Hp;
    cbn [nloop length concat fold_left].
  - exists c. split; [reflexivity|]. rewrite app_nil_r. repeat split; auto.
  - cbn [concat] in Hb. rewrite <- app_assoc in Hb.
    destruct (Hbody bs x acc c pre (concat parts ++ post) Hx Hi He Hb Hp) as (c1 & E & Hm).
    rewrite E. cbn [obind].
    assert (Hi1 : inside c1) by (eapply inside_moved_app; eauto).
    destruct (IH (add acc x) c1 (pre ++ bs)) as (c2 & E2 & Hm2).
    + assumption.
    + apply Hm.
    + destruct Hm as (-> & _). rewrite Hb. now rewrite <- !app_assoc.
    + apply Hm.
    + exists c2. split; [assumption|]. rewrite app_assoc. eapply moved_trans; eauto.
Qed.

Lemma item_complete t bs v c pre post : wf_ty t -> accepts t bs v ->
  inside c -> err c = false -> buf c = pre ++ bs ++ post -> pos c = N.of_nat (length pre) ->
  exists c', (if err c then Ok (c, dflt t) else read_binary t (dflt t) c) = Ok (c', v) /\
    moved c c' (N.of_nat (length (pre ++ bs))).
Proof. intros Hw Hr Hi He Hb Hp. rewrite He. apply (Hr c pre post); auto. now apply dflt_has_ty. Qed.

Lemma fixed_back t bs v : wf_ty t -> ((exists o s w, t = TInt o s w) \/ (exists s w, t = TRaw s w)) ->
  represents t bs v -> length bs = width t /\ of_repr t bs = v.
Proof.
  intros Hw [(o & s & w & ->)|(s & w & ->)] Hr; cbn [represents] in Hr.
  - destruct Hr as (z & -> & Hz & ->). split.
    + apply encode_width; [eauto 6|exact Hz].
    + apply of_repr_encode; eauto 6.
  - destruct Hr as [-> Hl]. auto.
Qed.

Lemma members_complete ts : Forall (fun t => wf_ty t -> forall bs v, represents t bs v -> accepts t bs v) ts -> Forall wf_ty ts ->
  forall bs vs olds c pre post, members_rep ts bs vs -> members_ty ts olds -> inside c -> err c = false ->
  buf c = pre ++ bs ++ post -> pos c = N.of_nat (length pre) ->
  exists c', read_members ts olds c = Ok (c', vs) /\ moved c c' (N.of_nat (length (pre ++ bs))).
Proof.
  induction 1 as [|t ts Ht _ IH]; intros Hw bs vs olds c pre post Hv Ho Hi He Hb Hp;
    destruct vs as [|v vs]; cbn [members_rep] in Hv; try contradiction;
    destruct olds as [|o olds]; cbn [members_ty] in Ho; try contradiction; cbn [read_members] in *.
  - subst bs. exists c. split; [reflexivity|]. rewrite app_nil_r. repeat split; auto.
  - inversion Hw as [|? ? Hw0 Hw']; subst. destruct Hv as (p1 & p2 & -> & Hv0 & Hv). destruct Ho as [Ho0 Ho]. rewrite <- app_assoc in Hb.
    destruct (Ht Hw0 p1 v Hv0 c pre _ o Hi He Hb Hp Ho0) as (c1 & E1 & Hm1). rewrite E1. cbn [obind].
    pose proof Hm1 as (Hb1 & Hp1 & He1).
    destruct (IH Hw' p2 vs olds c1 (pre ++ p1) post Hv Ho) as (c2 & E2 & Hm2); auto.
    { eapply inside_moved_app; eauto. } { rewrite Hb1, Hb. now rewrite <- app_assoc. }
    rewrite E2. cbn [obind]. exists c2. split; [reflexivity|]. rewrite app_assoc. eapply moved_trans; eauto.
Qed.

Theorem reader_complete t : wf_ty t -> forall bs v, represents t bs v -> accepts t bs v.
Proof.
  induction t as [o s w|s w| |t IH|k t IHk IH|t IH|a b IHa IHb|t IH|ts IH|ts IH] using ty_induct;
    intros Hw bs v Hv c pre post old Hi He Hb Hp Hold.
  - cbn [read_binary]. unfold read_raw.
    destruct (fixed_back (TInt o s w) bs v Hw ltac:(eauto 6) Hv) as [Hl Er].
    destruct (read_impl_exact c pre _ post Hi He Hb Hp) as (c' & E & Hm). rewrite Hl in E. rewrite E. cbn [obind].
    exists c'. split; [now rewrite Er|assumption].
  - cbn [read_binary]. unfold read_raw.
    destruct (fixed_back (TRaw s w) bs v Hw ltac:(eauto 6) Hv) as [Hl Er].
    destruct (read_impl_exact c pre _ post Hi He Hb Hp) as (c' & E & Hm). rewrite Hl in E. rewrite E. cbn [obind].
    exists c'. split; [now rewrite Er|assumption].
  - destruct Hv as (str & -> & Hf & ->).
    cbn [read_binary]. rewrite <- app_assoc in Hb.
    destruct (read_uint_exact 4 (N.of_nat (length str)) c pre (str ++ post) ltac:(lia) (fits_bound _ Hf) Hi He Hb Hp)
      as (c1 & E1 & Hm1). rewrite E1. cbn [obind].
    destruct (N.eqb_spec (N.of_nat (length str)) 0) as [Ez|Ez].
    + destruct str; [|cbn in Ez; lia]. exists c1. split; [reflexivity|]. now rewrite app_nil_r.
    + assert (Hi1 : inside (ask c1 (N.of_nat (length str)))).
      { eapply inside_moved_app; [exact Hi|exact Hb|]. now apply moved_ask. }
      destruct (read_impl_exact (ask c1 (N.of_nat (length str))) (pre ++ number 4 (N.of_nat (length str))) str post Hi1)
        as (c2 & E2 & Hm2).
      * apply Hm1.
      * cbn. destruct Hm1 as (-> & _). rewrite Hb. now rewrite <- app_assoc.
      * apply Hm1.
      * rewrite E2. cbn [obind]. destruct Hm2 as (Hb2 & Hp2 & He2). rewrite He2.
        exists c2. split; [reflexivity|]. rewrite app_assoc. repeat split; auto.
        rewrite Hb2. cbn. apply Hm1.
  - destruct Hv as (l & parts & -> & Hf & HF & ->).
    cbn [read_binary]. rewrite <- app_assoc in Hb.
    destruct (read_uint_exact 4 (N.of_nat (length l)) c pre (concat parts ++ post) ltac:(lia) (fits_bound _ Hf) Hi He Hb Hp)
      as (c1 & E1 & Hm1). rewrite E1. cbn [obind].
    assert (Hi1 : inside (ask c1 (N.of_nat (length l)))).
    { eapply inside_moved_app; [exact Hi|exact Hb|]. now apply moved_ask. }
    destruct (is_simple t) eqn:Es.
    + assert (HW : Forall (fun bs => length bs = width t) parts /\ map (of_repr t) parts = l /\ length parts = length l).
      { clear -HF Hw Es. induction HF as [|p x parts l Hx HF (I1 & I2 & I3)]; [auto|].
        destruct (fixed_back t p x Hw (simple_shape t Es) Hx) as [H1 H2]. cbn [map length]. repeat split; [auto|congruence|lia]. }
      destruct HW as (HW & Hmap & Hlen).
      destruct (N.eqb_spec (N.of_nat (length l)) 0) as [Ez|Ez].
      * destruct l; [|cbn in Ez; lia]. destruct parts; [|discriminate]. exists c1. split; [reflexivity|]. cbn [concat]. now rewrite app_nil_r.
      * destruct (read_impl_exact (ask c1 (N.of_nat (length l))) (pre ++ number 4 (N.of_nat (length l)))
                    (concat parts) post Hi1) as (c2 & E2 & Hm2).
        -- apply Hm1.
        -- cbn. destruct Hm1 as (-> & _). rewrite Hb. now rewrite <- app_assoc.
        -- apply Hm1.
        -- rewrite (length_concat_width _ _ HW), Hlen, Nat2N.inj_mul in E2. rewrite E2. cbn [obind].
           destruct Hm2 as (Hb2 & Hp2 & He2). rewrite He2. exists c2. split.
           ++ do 2 f_equal. f_equal. rewrite Nat2N.id, <- Hlen.
              rewrite chunks_concat by assumption. exact Hmap.
           ++ rewrite app_assoc. repeat split; auto. rewrite Hb2. cbn. apply Hm1.
    + rewrite loop_nloop, Nat2N.id.
      match goal with |- context [nloop _ ?body _] => set (B := body) end.
      destruct (loop_parts B (fun m x => m ++ [x]) (represents t) post) with (parts := parts) (items := l) (acc := @nil val)
        (c := ask c1 (N.of_nat (length l))) (pre := pre ++ number 4 (N.of_nat (length l))) as (c2 & E2 & Hm2).
      * intros p x acc c0 pre0 post0 Hx Hi0 He0 Hb0 Hp0. unfold B.
        destruct (item_complete t p x c0 pre0 post0 Hw (IH Hw p x Hx) Hi0 He0 Hb0 Hp0) as (c' & E & Hm).
        rewrite E. cbn [obind]. destruct Hm as (Hm_b & Hm_p & Hm_e). rewrite Hm_e.
        exists c'. split; [reflexivity|]. repeat split; auto.
      * assumption.
      * assumption.
      * apply Hm1.
      * cbn. destruct Hm1 as (-> & _). rewrite Hb. now rewrite <- app_assoc.
      * apply Hm1.
      * rewrite E2. cbn [obind fst snd]. rewrite fold_push. cbn [app]. exists c2. split; [reflexivity|].
        rewrite app_assoc. eapply moved_trans; [apply moved_ask, Hm1|eassumption].
  - destruct Hv as (items & parts & l & -> & Hf & HF & Hfirst & ->).
    cbn [read_binary]. rewrite <- app_assoc in Hb.
    destruct (read_uint_exact 4 (N.of_nat (length items)) c pre (concat parts ++ post) ltac:(lia) (fits_bound _ Hf) Hi He Hb Hp)
      as (c1 & E1 & Hm1). rewrite E1. cbn [obind].
    assert (Hi1 : inside c1) by (eapply inside_moved_app; eauto).
    rewrite loop_nloop, Nat2N.id.
    match goal with |- context [nloop _ ?body _] => set (B := body) end.
    destruct (loop_parts B (fun m kv => map_insert m (fst kv) (snd kv))
        (fun p kv => exists p1 p2, p = p1 ++ p2 /\ represents k p1 (fst kv) /\ represents t p2 (snd kv)) post)
      with (parts := parts) (items := items) (acc := @nil (val * val))
        (c := c1) (pre := pre ++ number 4 (N.of_nat (length items))) as (c2 & E2 & Hm2).
    + intros p [x y] acc c0 pre0 post0 (p1 & p2 & -> & Hx & Hy) Hi0 He0 Hb0 Hp0. unfold B. cbn [fst snd] in *.
      destruct Hw as [Hwk Hwt].
      rewrite <- app_assoc in Hb0.
      destruct (item_complete k p1 x c0 pre0 (p2 ++ post0) Hwk (IHk Hwk _ _ Hx) Hi0 He0 Hb0 Hp0) as (c' & E & Hm).
      rewrite E. cbn [obind].
      assert (Hi' : inside c') by (eapply inside_moved_app; eauto).
      destruct (item_complete t p2 y c' (pre0 ++ p1) post0 Hwt (IH Hwt _ _ Hy) Hi') as (c'' & E' & Hm').
      { apply Hm. } { destruct Hm as (-> & _). rewrite Hb0. now rewrite <- app_assoc. } { apply Hm. }
      rewrite E'. cbn [obind]. destruct Hm' as (Hm_b & Hm_p & Hm_e). rewrite Hm_e.
      exists c''. split; [reflexivity|]. rewrite app_assoc. repeat split; auto. rewrite Hm_b. apply Hm.
    + assumption.
    + assumption.
    + apply Hm1.
    + destruct Hm1 as (-> & _). rewrite Hb. now rewrite <- app_assoc.
    + apply Hm1.
    + rewrite E2. cbn [obind fst snd]. fold (collect items).
      rewrite (first_of_each_unique items (collect items) l (first_of_each_collect items) Hfirst).
      exists c2. split; [reflexivity|]. rewrite app_assoc. eapply moved_trans; eauto.
  - destruct Hv as (items & parts & l & -> & Hf & HF & Hinc & Hin & ->).
    cbn [read_binary]. rewrite <- app_assoc in Hb.
    destruct (read_uint_exact 4 (N.of_nat (length items)) c pre (concat parts ++ post) ltac:(lia) (fits_bound _ Hf) Hi He Hb Hp)
      as (c1 & E1 & Hm1). rewrite E1. cbn [obind].
    assert (Hi1 : inside c1) by (eapply inside_moved_app; eauto).
    rewrite loop_nloop, Nat2N.id.
    match goal with |- context [nloop _ ?body _] => set (B := body) end.
    destruct (loop_parts B set_insert (represents t) post) with (parts := parts) (items := items) (acc := @nil val)
        (c := c1) (pre := pre ++ number 4 (N.of_nat (length items))) as (c2 & E2 & Hm2).
    + intros p x acc c0 pre0 post0 Hx Hi0 He0 Hb0 Hp0. unfold B.
      destruct (item_complete t p x c0 pre0 post0 Hw (IH Hw p x Hx) Hi0 He0 Hb0 Hp0) as (c' & E & Hm).
      rewrite E. cbn [obind]. destruct Hm as (Hm_b & Hm_p & Hm_e). rewrite Hm_e.
      exists c'. split; [reflexivity|]. repeat split; auto.
    + assumption.
    + assumption.
    + apply Hm1.
    + destruct Hm1 as (-> & _). rewrite Hb. now rewrite <- app_assoc.
    + apply Hm1.
    + rewrite E2. cbn [obind fst snd].
      rewrite (increasing_ext (fold_left set_insert items []) l).
      * exists c2. split; [reflexivity|]. rewrite app_assoc. eapply moved_trans; eauto.
      * now apply fold_set_increasing.
      * assumption.
      * intros x. rewrite fold_set_in, Hin. cbn. tauto.
  - destruct Hv as (p1 & p2 & x & y & -> & -> & Hx & Hy).
    destruct old as [| | | | | |ox oy| |]; cbn in Hold; try contradiction. destruct Hold as [Hox Hoy].
    destruct Hw as [Hwa Hwb]. cbn [read_binary]. rewrite He. rewrite <- app_assoc in Hb.
    destruct (IHa Hwa p1 x Hx c pre (p2 ++ post) ox Hi He Hb Hp Hox) as (c1 & E1 & Hm1).
    rewrite E1. cbn [obind]. pose proof Hm1 as (Hb1 & Hp1 & He1). rewrite He1.
    destruct (IHb Hwb p2 y Hy c1 (pre ++ p1) post oy) as (c2 & E2 & Hm2); auto.
    { eapply inside_moved_app; eauto. } { rewrite Hb1, Hb. now rewrite <- app_assoc. }
    rewrite E2. cbn [obind]. exists c2. split; [reflexivity|]. rewrite app_assoc. eapply moved_trans; eauto.
  - cbn [read_binary]. destruct Hv as [(-> & ->)|(b & bs1 & v1 & Hb0 & -> & -> & Hr)].
    + change [0%N] with (number 1 0) in *.
      destruct (read_uint_exact 1 0 c pre post ltac:(lia) ltac:(reflexivity) Hi He Hb Hp) as (c1 & E1 & Hm1).
      rewrite E1. cbn [obind]. rewrite andb_false_r. exists c1. auto.
    + assert (Hoct : (b < 256)%N).
      { destruct Hi as (_ & _ & Ho). rewrite Hb, Forall_app in Ho. destruct Ho as [_ Ho]. now inversion Ho. }
      change (b :: bs1) with ([b] ++ bs1) in *. rewrite <- (number1 b Hoct) in *. rewrite <- app_assoc in Hb.
      destruct (read_uint_exact 1 b c pre (bs1 ++ post) ltac:(lia) ltac:(exact Hoct) Hi He Hb Hp) as (c1 & E1 & Hm1).
      rewrite E1. cbn [obind]. pose proof Hm1 as (Hb1 & Hp1 & He1). rewrite He1.
      replace (b =? 0)%N with false by (symmetry; now apply N.eqb_neq). cbn [negb andb].
      destruct (IH Hw bs1 v1 Hr c1 (pre ++ number 1 b) post (dflt t)) as (c2 & E2 & Hm2); auto.
      { eapply inside_moved_app; eauto. } { rewrite Hb1, Hb. now rewrite <- app_assoc. } { now apply dflt_has_ty. }
      rewrite E2. cbn [obind]. exists c2. split; [reflexivity|]. rewrite app_assoc. eapply moved_trans; eauto.
  - destruct Hv as (i & v1 & bs1 & -> & -> & Hr). rewrite pick_prop in Hr.
    apply wf_var in Hw. destruct Hw as [Hlen Hwf]. cbn [read_binary].
    destruct (nth_error ts i) as [t0|] eqn:Et; [|contradiction].
    assert (Hil : i < length ts) by (apply nth_error_Some; congruence).
    rewrite <- app_assoc in Hb.
    destruct (read_uint_exact 1 (N.of_nat i) c pre (bs1 ++ post) ltac:(lia)
      ltac:(change (2 ^ (8 * N.of_nat 1))%N with 256%N; lia) Hi He Hb Hp) as (c1 & E1 & Hm1).
    rewrite E1. cbn [obind]. pose proof Hm1 as (Hb1 & Hp1 & He1).
    rewrite visit_spec, Nat2N.id, Et, He1.
    pose proof (nth_error_In _ _ Et) as Hin. rewrite Forall_forall in IH, Hwf.
    destruct (IH t0 Hin (Hwf t0 Hin) bs1 v1 Hr c1 (pre ++ number 1 (N.of_nat i)) post (dflt t0)) as (c2 & E2 & Hm2); auto.
    { eapply inside_moved_app; eauto. } { rewrite Hb1, Hb. now rewrite <- app_assoc. } { apply dflt_has_ty; auto. }
    rewrite E2. cbn [obind]. pose proof Hm2 as (Hb2 & Hp2 & He2). rewrite He2.
    exists c2. split; [reflexivity|]. rewrite app_assoc. eapply moved_trans; eauto.
  - destruct Hv as (vs & -> & Hv). destruct (has_ty_rec _ _ Hold) as (olds & -> & Ho). rewrite read_rec.
    destruct (members_complete ts IH (wf_rec _ Hw) bs vs olds c pre post Hv Ho Hi He Hb Hp) as (c' & E & Hm).
    rewrite E. cbn [obind]. eauto.
Qed.

(* ---------- final forms ---------- *)

Lemma grammar_exact t c old : wf_ty t -> inside c -> err c = false -> has_ty t old ->
  (forall c' v, read_binary t old c = Ok (c', v) -> err c' = false ->
     exists bs, rest c = bs ++ rest c' /\ pos c' = (pos c + N.of_nat (length bs))%N /\ represents t bs v) /\
  (forall bs post v, rest c = bs ++ post -> represents t bs v ->
     exists c', read_binary t old c = Ok (c', v) /\ err c' = false /\ rest c' = post /\
       pos c' = (pos c + N.of_nat (length bs))%N).
Proof.
  intros Hw Hi He Hold. split.
  - intros c' v E He'. destruct (reader_sound t Hw old c c' v Hi Hold E He' He) as (bs & (_ & T1 & T2) & R). eauto.
  - intros bs post v Hr R.
    assert (Hb : buf c = firstn (N.to_nat (pos c)) (buf c) ++ bs ++ post).
    { rewrite <- Hr. symmetry. apply firstn_skipn. }
    assert (Hp : pos c = N.of_nat (length (firstn (N.to_nat (pos c)) (buf c)))).
    { rewrite firstn_length. destruct Hi as (Hi & _). unfold size_bytes in Hi. lia. }
    destruct (reader_complete t Hw bs v R c _ post old Hi He Hb Hp Hold) as (c' & E & (M1 & M2 & M3)).
    exists c'. split; [assumption|]. split; [assumption|]. rewrite app_length in M2. split; [|lia].
    unfold rest. rewrite M1, M2. clear E M1 M2 M3 Hr.
    generalize dependent (firstn (N.to_nat (pos c)) (buf c)). intros pre Hb Hp. rewrite Hb, app_assoc.
    replace (N.to_nat (N.of_nat (length pre + length bs))) with (length (pre ++ bs)) by (rewrite app_length; lia).
    now rewrite skipn_app, skipn_all, Nat.sub_diag.
Qed.

(** The grammar is unambiguous: two representations that start a byte string
    the same way are the same representation of the same value. *)
Lemma represents_unique t bs1 bs2 post1 post2 v1 v2 : wf_ty t ->
  (N.of_nat (length (bs1 ++ post1)) < 2 ^ 63)%N -> Forall is_octet (bs1 ++ post1) ->
  bs1 ++ post1 = bs2 ++ post2 -> represents t bs1 v1 -> represents t bs2 v2 ->
  bs1 = bs2 /\ post1 = post2 /\ v1 = v2.
Proof.
  intros Hw Hsz Ho E R1 R2.
  set (c := mkcursor (bs1 ++ post1) 0 false 0).
  assert (Hi : inside c) by (split; [cbn; lia|split; [exact Hsz|exact Ho]]).
  destruct (grammar_exact t c (dflt t) Hw Hi eq_refl (dflt_has_ty t Hw)) as (_ & C).
  destruct (C bs1 post1 v1 eq_refl R1) as (c1 & E1 & _ & P1 & _).
  destruct (C bs2 post2 v2 E R2) as (c2 & E2 & _ & P2 & _).
  assert (c1 = c2 /\ v1 = v2) as [-> ->] by (split; congruence).
  assert (post1 = post2) by congruence. subst. apply app_inv_tail in E. auto.
Qed.

(* ---------- failed reads ---------- *)

Lemma fixed_shape t : fixed_size t -> (exists o s w, t = TInt o s w) \/ (exists s w, t = TRaw s w).
Proof. destruct t; cbn; try contradiction; eauto 6. Qed.

Lemma length_rest c : inside c -> N.of_nat (length (rest c)) = (size_bytes c - pos c)%N.
Proof. intros (H & _). unfold rest, size_bytes in *. rewrite skipn_length. lia. Qed.

Lemma read_raw_failed t old c c' v : inside c -> read_raw t old c = Ok (c', v) -> err c' = true -> v = old.
Proof.
  intros Hi E He. unfold read_raw in E.
  destruct (read_impl_ok c (N.of_nat (width t)) Hi) as (c2 & r & E2 & _ & R). rewrite E2 in E. cbn [obind] in E.
  destruct r; injection E as <- <-; [|reflexivity]. destruct R as [R _]. congruence.
Qed.

(** Reading from a stream that has already failed. *)
Lemma members_blanked ts : Forall (fun t => wf_ty t -> forall old c, inside c -> err c = true -> has_ty t old ->
    exists c', read_binary t old c = Ok (c', blanked t old)) ts -> Forall wf_ty ts ->
  forall olds c, inside c -> err c = true -> members_ty ts olds ->
  exists c', read_members ts olds c = Ok (c', all_blanked ts olds).
Proof.
  induction 1 as [|t ts Ht _ IH]; intros Hw olds c Hi He Ho;
    destruct olds as [|o olds]; cbn [members_ty] in Ho; try contradiction; cbn [read_members all_blanked].
  - eauto.
  - inversion Hw as [|? ? Hw0 Hw']; subst. destruct Ho as [Ho0 Ho].
    destruct (Ht Hw0 o c Hi He Ho0) as (c1 & E1).
    destruct (read_safe t Hw0 o c Hi Ho0) as (c2 & v2 & E2 & (S2 & _ & _ & S4) & _). rewrite E1 in E2. injection E2 as <- <-.
    rewrite E1. cbn [obind]. destruct (IH Hw' olds c1 S2 (proj1 (S4 He)) Ho) as (c3 & E3). rewrite E3. cbn [obind]. eauto.
Qed.

Lemma read_blanked t : wf_ty t -> forall old c, inside c -> err c = true -> has_ty t old ->
  exists c', read_binary t old c = Ok (c', blanked t old).
Proof.
  induction t as [o s w|s w| |t IH|k t IHk IH|t IH|a b IHa IHb|t IH|ts IH|ts IH] using ty_induct;
    intros Hw old c Hi He Hold.
  1-6:
    match goal with |- exists c', read_binary ?T _ _ = _ =>
      destruct (read_safe T Hw old c Hi Hold) as (c2 & v2 & E2 & ((_ & _ & _ & S) & _ & R)); exists c2; rewrite E2;
      destruct (S He) as [He2 _]
    end; try (rewrite (R He2 _ eq_refl); reflexivity);
    cbn [blanked read_binary] in *; rewrite (read_raw_failed _ _ _ _ _ Hi E2 He2); reflexivity.
  - cbn [read_binary]. destruct old as [| | | | | |x y| |]; cbn in Hold; try contradiction. rewrite He. exists c. reflexivity.
  - cbn [read_binary]. unfold read_uint. rewrite He. cbn [obind]. rewrite He. cbn [negb andb]. exists c. reflexivity.
  - cbn [read_binary]. unfold read_uint. rewrite He. cbn [obind]. rewrite He. exists c. reflexivity.
  - destruct (has_ty_rec _ _ Hold) as (olds & -> & Ho). rewrite read_rec.
    destruct (members_blanked ts IH (wf_rec _ Hw) olds c Hi He Ho) as (c' & E). rewrite E. cbn [obind]. exists c'. reflexivity.
Qed.

Fixpoint members_leave (ts : list ty) (olds : list val) (bs : list N) (vs : list val) : Prop :=
  match ts, olds, vs with
  | t0 :: ts', o :: olds', v0 :: vs' =>
      (leaves t0 o bs v0 /\ vs' = all_blanked ts' olds') \/
      (exists p post, bs = p ++ post /\ represents t0 p v0 /\ members_leave ts' olds' post vs')
  | _, _, _ => False
  end.

Lemma members_failed ts : Forall (fun t => wf_ty t -> forall old c c' v, inside c -> err c = false -> has_ty t old ->
    read_binary t old c = Ok (c', v) -> err c' = true -> leaves t old (rest c) v) ts -> Forall wf_ty ts ->
  forall olds c c' vs, inside c -> err c = false -> members_ty ts olds ->
  read_members ts olds c = Ok (c', vs) -> err c' = true -> members_leave ts olds (rest c) vs.
Proof.
  induction 1 as [|t ts Ht _ IH]; intros Hw olds c c' vs Hi He Ho E He';
    destruct olds as [|o olds]; cbn [members_ty] in Ho; try contradiction; cbn [read_members] in E.
  - injection E as <- <-. congruence.
  - inversion Hw as [|? ? Hw0 Hw']; subst. destruct Ho as [Ho0 Ho].
    destruct (read_safe t Hw0 o c Hi Ho0) as (c1 & v & E1 & (S1 & _) & _). rewrite E1 in E. cbn [obind] in E.
    destruct (err c1) eqn:Ec1.
    + destruct (members_blanked ts) with (olds := olds) (c := c1) as (c2 & E2); auto.
      { rewrite Forall_forall. intros u _ Hu. exact (read_blanked u Hu). }
      rewrite E2 in E. cbn [obind] in E. injection E as <- <-. cbn [members_leave]. left. split; [|reflexivity].
      eapply Ht; eauto.
    + destruct (members_safe' ts olds c1 Hw' S1 Ho) as (c2 & ws & E2 & _).
      rewrite E2 in E. cbn [obind] in E. injection E as <- <-. cbn [members_leave]. right.
      destruct (reader_sound t Hw0 o c c1 v Hi Ho0 E1 Ec1 He) as (p & (_ & T & _) & R).
      exists p, (rest c1). split; [assumption|]. split; [assumption|]. eapply IH; eauto.
Qed.

Lemma failed_leaves t : wf_ty t -> forall old c c' v, inside c -> err c = false -> has_ty t old ->
  read_binary t old c = Ok (c', v) -> err c' = true -> leaves t old (rest c) v.
Proof.
  induction t as [o s w|s w| |t IH|k t IHk IH|t IH|a b IHa IHb|t IH|ts IH|ts IH] using ty_induct;
    intros Hw old c c' v Hi He Hold E He'.
  1, 2: cbn [leaves read_binary] in *; eapply read_raw_failed; eauto.
  1, 2, 3, 4:
    match goal with |- leaves ?T _ _ _ =>
      destruct (read_safe T Hw old c Hi Hold) as (c2 & v2 & E2 & (_ & _ & R));
      assert (c2 = c' /\ v2 = v) as [-> ->] by (split; congruence) end;
    exact (R He' _ eq_refl).
  - destruct Hw as [Hwa Hwb]. destruct old as [| | | | | |x y| |]; cbn in Hold; try contradiction. destruct Hold as [Hx Hy].
    cbn [read_binary] in E. rewrite He in E.
    destruct (read_safe a Hwa x c Hi Hx) as (c1 & v1 & E1 & (S1 & _) & _). rewrite E1 in E. cbn [obind] in E.
    cbn [leaves]. destruct (err c1) eqn:Ec1.
    + injection E as <- <-. exists x, y, v1, y. split; [reflexivity|]. split; [reflexivity|]. left. split; [|reflexivity].
      eapply IHa; eauto.
    + destruct (read_safe b Hwb y c1 S1 Hy) as (c2 & v2 & E2 & (S2 & _) & _). rewrite E2 in E. cbn [obind] in E.
      injection E as <- <-. exists x, y, v1, v2. split; [reflexivity|]. split; [reflexivity|]. right.
      destruct (reader_sound a Hwa x c c1 v1 Hi Hx E1 Ec1 He) as (p & (_ & T & _) & R).
      exists p, (rest c1). split; [assumption|]. split; [assumption|]. eapply IHb; eauto.
  - cbn [read_binary] in E.
    destruct (read_uint 1 c) as [[c1 n]| |] eqn:E1; cbn [obind] in E; try discriminate.
    assert (Hi1 : inside c1).
    { destruct (read_uint_ok 1 c ltac:(lia) Hi) as (c3 & n3 & E3 & S3 & _). assert (c3 = c1) by congruence. subst. apply S3. }
    cbn [leaves]. destruct (err c1) eqn:Ec1; cbn [negb andb] in E.
    + left. injection E as <- <-. split; [|reflexivity].
      unfold read_uint in E1. rewrite He in E1.
      destruct (read_impl_cases c (N.of_nat 1) Hi) as [(Hs & E3)|(_ & _ & bs & E3 & _)]; rewrite E3 in E1; cbn [obind] in E1.
      * pose proof (length_rest c Hi) as HL. destruct Hs as [Hs|Hs]; [congruence|].
        assert (length (rest c) = 0) by lia. destruct (rest c); [reflexivity|discriminate].
      * injection E1 as <- _. cbn in Ec1. congruence.
    + destruct (read_uint_took 1 c c1 n ltac:(lia) Hi E1 Ec1) as ((_ & T & _) & Bd & _).
      change (2 ^ (8 * N.of_nat 1))%N with 256%N in Bd. rewrite (number1 n Bd) in T.
      destruct (N.eqb_spec n 0) as [En|En]; cbn [negb] in E; [injection E as <- _; congruence|].
      destruct (read_safe t Hw (dflt t) c1 Hi1 (dflt_has_ty t Hw)) as (c2 & v2 & E2 & (S2 & _) & _). rewrite E2 in E. cbn [obind] in E.
      injection E as <- <-. right. exists n, (rest c1), v2. split; [assumption|]. split; [exact T|]. split; [reflexivity|].
      eapply IH; eauto. now apply dflt_has_ty.
  - apply wf_var in Hw. destruct Hw as [Hlen Hwf]. cbn [read_binary leaves] in *.
    destruct (read_uint 1 c) as [[c1 n]| |] eqn:E1; cbn [obind] in E; try discriminate. rewrite visit_spec in E.
    destruct (err c1) eqn:Ec1; [congruence|].
    destruct (nth_error ts (N.to_nat n)) as [t0|] eqn:Et; [|congruence].
    destruct (read_binary t0 (dflt t0) c1) as [[c2 v2]| |]; cbn [obind] in E; try discriminate.
    destruct (err c2) eqn:Ec2; congruence.
  - destruct (has_ty_rec _ _ Hold) as (olds & -> & Ho). rewrite read_rec in E.
    destruct (read_members ts olds c) as [[c1 vs]| |] eqn:E1; cbn [obind] in E; try discriminate. injection E as <- <-.
    exists olds, vs. split; [reflexivity|]. split; [reflexivity|].
    exact (members_failed ts IH (wf_rec _ Hw) olds c c1 vs Hi He Ho E1 He').
Qed.

(* ---------- span and peek ---------- *)

Lemma span_peek_spec c : inside c ->
  (forall n mv, exists c' bs, span c n mv = Ok (c', bs) /\ buf c' = buf c /\
     if err c || (N.of_nat (length (rest c)) <? n)%N
     then err c' = true /\ bs = [] /\ pos c' = pos c
     else err c' = false /\ bs = firstn (N.to_nat n) (rest c) /\
          rest c' = (if mv then skipn (N.to_nat n) (rest c) else rest c) /\
          pos c' = (if mv then pos c + n else pos c)%N) /\
  (forall t old, fixed_size t -> wf_ty t ->
     if err c || (N.of_nat (length (rest c)) <? N.of_nat (width t))%N
     then peek t old c = Ok (old, false)
     else exists v, peek t old c = Ok (v, true) /\ represents t (firstn (width t) (rest c)) v) /\
  (forall t old c' v b, fixed_size t -> read_into t old c = Ok (c', v, b) -> peek t old c = Ok (v, b)).
Proof.
  intros Hi. pose proof (length_rest c Hi) as HL. split; [|split].
  - intros n mv. unfold span. rewrite (left_inside c Hi), HL.
    destruct (N.ltb_spec (size_bytes c - pos c) n) as [Hlt|Hge].
    + cbn [err notify_error]. rewrite orb_true_r. eexists _, _. split; [reflexivity|]. auto.
    + destruct (err c) eqn:He; cbn [orb].
      * eexists _, _. split; [reflexivity|]. auto.
      * destruct Hi as (H1 & H2 & H3). unfold copy_out.
        replace (N.of_nat (length (buf c)) <? pos c + n)%N with false by (symmetry; apply N.ltb_ge; unfold size_bytes in *; lia).
        cbn [obind]. eexists _, _. split; [reflexivity|]. split; [now destruct mv|].
        assert (Em : ((pos c + n) mod size_modulus)%N = (pos c + n)%N).
        { apply N.mod_small. unfold size_modulus, size_bytes in *. lia. }
        split; [now destruct mv|]. split; [reflexivity|]. destruct mv; cbn [rest pos buf set_pos]; [|auto].
        rewrite Em. split; [|reflexivity]. unfold rest. cbn [pos buf set_pos]. rewrite skipn_add. f_equal. lia.
  - intros t old Hf Hw. unfold peek, peek_impl. rewrite (left_inside c Hi), HL.
    destruct (err c || (size_bytes c - pos c <? N.of_nat (width t))%N) eqn:Eb; [reflexivity|].
    apply orb_false_iff in Eb. destruct Eb as [He Hn]. apply N.ltb_ge in Hn.
    destruct Hi as (H1 & H2 & H3). unfold copy_out.
    replace (N.of_nat (length (buf c)) <? pos c + N.of_nat (width t))%N with false by (symmetry; apply N.ltb_ge; unfold size_bytes in *; lia).
    cbn [obind]. rewrite Nat2N.id. eexists. split; [reflexivity|]. apply fixed_represents; auto.
    + now apply fixed_shape.
    + rewrite firstn_length. unfold rest in HL. lia.
    + rewrite <- (firstn_skipn (N.to_nat (pos c)) (buf c)), Forall_app in H3. destruct H3 as [_ H3].
      rewrite <- (firstn_skipn (width t)), Forall_app in H3. apply H3.
  - intros t old c' v b Hf E. unfold read_into in E. destruct (err c) eqn:He.
    + injection E as <- <- <-. unfold peek, peek_impl. now rewrite He.
    + replace (read_binary t old c) with (read_raw t old c) in E by (destruct t; cbn in Hf; try contradiction; reflexivity).
      unfold read_raw, read_impl in E. unfold peek.
      destruct (peek_impl c (N.of_nat (width t))) as [[bs|]| |] eqn:E2; cbn [obind] in *; try discriminate;
        injection E as <- <- <-; cbn [err set_pos notify_error]; rewrite ?He; reflexivity.
Qed.

Lemma left_empty_spec c : inside c -> left c = N.of_nat (List.length (rest c)) /\ (at_end c = true <-> rest c = []).
Proof.
  intros Hi. pose proof (left_inside c Hi) as Hl. assert (Hn : left c = N.of_nat (List.length (rest c))).
  { rewrite Hl. unfold rest, size_bytes. rewrite skipn_length. destruct Hi as (H & _). unfold size_bytes in H. lia. }
  split; [exact Hn|]. unfold at_end. rewrite Hn, N.leb_le. split; [|intros ->; cbn; lia].
  destruct (rest c); [reflexivity|]. cbn [List.length]. lia.
Qed.
