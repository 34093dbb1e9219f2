(** Proofs about the modification tracker. *)
From Coq Require Import List NArith Arith Bool Lia ZifyBool ZifyNat ZifyN.
From Verif Require Import Base PathModel PathSpec PathProofs TrackerModel TrackerSpec.
Import ListNotations.

Lemma str_eqb_spec a b : str_eqb a b = true <-> a = b.
Proof. unfold str_eqb. destruct (list_eq_dec N.eq_dec a b); split; congruence. Qed.

Lemma str_eqb_refl a : str_eqb a a = true.
Proof. now apply str_eqb_spec. Qed.

Lemma lookup_assign m k v k' :
  lookup (assign m k v) k' = if str_eqb k k' then v else lookup m k'.
Proof.
  induction m as [|[k0 v0] m IH]; cbn [assign lookup]; [reflexivity|].
  destruct (str_eqb k0 k) eqn:E; cbn [lookup].
  - apply str_eqb_spec in E. subst. now destruct (str_eqb k k').
  - rewrite IH. destruct (str_eqb k0 k') eqn:E0; [|reflexivity].
    destruct (str_eqb k k') eqn:E1; [|reflexivity].
    apply str_eqb_spec in E0, E1. subst. rewrite str_eqb_refl in E. discriminate.
Qed.

(** Views denoting a location. *)
Definition prefixes_ok (v : path_view) (l : list text) : Prop :=
  Forall segment_ok l /\ view_size v = length l /\
  forall k, k <= length l -> view_prefix v k = Ok (join (firstn k l)).

Lemma denotes_prefixes v l : denotes v l -> prefixes_ok v l.
Proof.
  intros (q & s & p & segs & n & M & P & V & ->).
  pose proof (path_set_rep q s segs p M P) as R.
  pose proof (view_of_rep p segs 0 n v R V) as HV.
  assert (Hn : n <= length segs) by (destruct HV as (? & ? & _ & _ & H); exact H).
  split; [apply firstn_segment_ok; eapply meaning_ok; eauto|].
  rewrite firstn_length_le by assumption.
  split. { destruct HV as (? & ? & _ & -> & _). reflexivity. }
  intros k Hk. rewrite (prefix_spec v segs 0 n k HV Hk). cbn [plus].
  rewrite firstn_firstn, Nat.min_l by assumption. destruct k; reflexivity.
Qed.

Fixpoint is_prefix (p l : list text) : bool :=
  match p, l with
  | [], _ => true
  | x :: p', y :: l' => str_eqb x y && is_prefix p' l'
  | _ :: _, [] => false
  end.

Lemma is_prefix_spec p l : is_prefix p l = true <-> at_or_above p l.
Proof.
  revert l; induction p as [|x p IH]; intros l; cbn [is_prefix].
  - split; [|reflexivity]. intros _. now exists l.
  - destruct l as [|y l].
    + split; [discriminate|]. intros (r & H). discriminate.
    + rewrite andb_true_iff, str_eqb_spec, IH. split.
      * intros (-> & r & ->). now exists r.
      * intros (r & H). cbn in H. injection H as -> ->. split; [reflexivity|]. now exists r.
Qed.

Lemma is_prefix_firstn p l : is_prefix p l = true <-> length p <= length l /\ p = firstn (length p) l.
Proof.
  rewrite is_prefix_spec. split.
  - intros (r & ->). rewrite app_length. split; [lia|]. now rewrite firstn_app, firstn_all, Nat.sub_diag, app_nil_r.
  - intros (_ & E). exists (skipn (length p) l). rewrite E at 1. now rewrite firstn_skipn.
Qed.

Lemma join_eqb a b : Forall segment_ok a -> Forall segment_ok b ->
  str_eqb (join a) (join b) = true <-> a = b.
Proof. intros Ha Hb. rewrite str_eqb_spec. split; [now apply join_inj|congruence]. Qed.

Lemma assign_prefixes_spec v l g : prefixes_ok v l -> forall n i m,
  i + n = length l + 1 ->
  exists m', assign_prefixes n i v g m = Ok m' /\
    forall a, Forall segment_ok a ->
      lookup m' (join a) =
        if is_prefix a l && (i <=? length a) then g else lookup m (join a).
Proof.
  intros (Hok & Hs & Hp) n. induction n as [|n IH]; intros i m Hi; cbn [assign_prefixes].
  - exists m. split; [reflexivity|]. intros a Ha.
    destruct (is_prefix a l) eqn:E; [|reflexivity].
    apply is_prefix_firstn in E. destruct (Nat.leb_spec i (length a)); [lia|reflexivity].
  - rewrite Hp by lia. cbn [obind].
    destruct (IH (i + 1) (assign m (join (firstn i l)) g) ltac:(lia)) as (m' & Em & Hm).
    exists m'. split; [assumption|]. intros a Ha. rewrite Hm, lookup_assign by assumption.
    destruct (str_eqb (join (firstn i l)) (join a)) eqn:E.
    + apply join_eqb in E; [|apply firstn_segment_ok; assumption|assumption]. subst a.
      replace (is_prefix (firstn i l) l) with true
        by (symmetry; apply is_prefix_spec; exists (skipn i l); now rewrite firstn_skipn).
      rewrite firstn_length_le by lia.
      destruct (Nat.leb_spec (i + 1) i), (Nat.leb_spec i i); cbn; try lia; reflexivity.
    + destruct (is_prefix a l) eqn:Ea; cbn [andb]; [|reflexivity].
      destruct (Nat.leb_spec (i + 1) (length a)), (Nat.leb_spec i (length a)); try lia; try reflexivity.
      exfalso. apply is_prefix_firstn in Ea. assert (length a = i) by lia. subst i.
      destruct Ea as [_ Ea]. rewrite <- Ea in E. now rewrite str_eqb_refl in E.
Qed.

(** Generation of the last event satisfying [P] (0 if none). *)
Fixpoint latest (P : event -> bool) (g : N) (h : list event) : N :=
  match h with
  | [] => 0
  | e :: h' => let r := latest P (g + 1) h' in
               if N.eqb r 0 then if P e then g else 0 else r
  end.

Lemma latest_snoc P h e : forall g, (0 < g)%N ->
  latest P g (h ++ [e]) = if P e then (g + N.of_nat (length h))%N else latest P g h.
Proof.
  induction h as [|e0 h IH]; intros g Hg; cbn [latest app length].
  - destruct (P e); cbn; [destruct (N.eqb_spec g 0); lia|reflexivity].
  - rewrite IH by lia. destruct (P e).
    + destruct (N.eqb_spec (g + 1 + N.of_nat (length h)) 0); lia.
    + reflexivity.
Qed.

Lemma latest_spec P h : forall g, (0 < g)%N ->
  (latest P g h = 0%N /\ (forall e, In e h -> P e = false)) \/
  (exists i e, latest P g h = (g + N.of_nat i)%N /\ nth_error h i = Some e /\ P e = true /\
     forall j e', i < j -> nth_error h j = Some e' -> P e' = false).
Proof.
  induction h as [|e0 h IH]; intros g Hg; cbn [latest].
  - left. split; [reflexivity|]. intros e [].
  - destruct (IH (g + 1)%N ltac:(lia)) as [(E & H) | (i & e & E & Hi & HP & Hl)].
    + rewrite E. cbn [N.eqb]. destruct (P e0) eqn:E0.
      * right. exists 0, e0. split; [lia|]. split; [reflexivity|]. split; [assumption|].
        intros [|j] e' Hj He'; [lia|]. apply H. eapply nth_error_In. cbn in He'. eauto.
      * left. split; [reflexivity|]. intros e [<-|He]; auto.
    + right. exists (S i), e. rewrite E. destruct (N.eqb_spec (g + 1 + N.of_nat i) 0); [lia|].
      split; [lia|]. split; [assumption|]. split; [assumption|].
      intros [|j] e' Hj He'; [lia|]. cbn in He'. apply (Hl j); [lia|assumption].
Qed.

Definition at_below (a : list text) (e : event) : bool := is_prefix a (where_ e).
Definition at_exact (a : list text) (e : event) : bool :=
  whole e && str_eqb (join a) (join (where_ e)).

Definition tinv (t : tracker) (h : list event) : Prop :=
  Forall (fun e => Forall segment_ok (where_ e)) h /\
  current_ t = (1 + N.of_nat (length h))%N /\
  (forall a, Forall segment_ok a ->
     lookup (node_generation_ t) (join a) = latest (at_below a) 2 h /\
     lookup (subtree_generation_ t) (join a) = latest (at_exact a) 2 h).

Lemma tinv_init : tinv tracker_init [].
Proof. repeat split; constructor. Qed.

Lemma str_eqb_sym a b : str_eqb a b = str_eqb b a.
Proof. unfold str_eqb. destruct (list_eq_dec N.eq_dec a b), (list_eq_dec N.eq_dec b a); congruence. Qed.

Lemma notify_spec t h v e : tinv t h -> prefixes_ok v (where_ e) ->
  (N.of_nat (length h) + 2 < gen_modulus)%N ->
  exists t', notify_changed t v (whole e) = Ok (t', (N.of_nat (length h) + 2)%N)
             /\ tinv t' (h ++ [e]).
Proof.
  intros (Hok & Hc & Hm) Hv Hlt. pose proof Hv as (Hl & Hs & Hp). unfold notify_changed.
  rewrite Hc. replace (1 + N.of_nat (length h) + 1)%N with (N.of_nat (length h) + 2)%N by lia.
  rewrite N.mod_small by assumption. set (g := (N.of_nat (length h) + 2)%N).
  destruct (assign_prefixes_spec v (where_ e) g Hv (view_size v + 1) 0 (node_generation_ t)
              ltac:(lia)) as (m & Em & Hlook).
  rewrite Em. cbn [obind].
  assert (Hn : forall a, Forall segment_ok a -> lookup m (join a) = latest (at_below a) 2 (h ++ [e])).
  { intros a Ha. rewrite Hlook by assumption. rewrite latest_snoc by lia. unfold at_below at 1.
    rewrite andb_true_r. destruct (Hm a Ha) as [-> _].
    destruct (is_prefix a (where_ e)); [unfold g; lia|reflexivity]. }
  assert (Hok' : Forall (fun e => Forall segment_ok (where_ e)) (h ++ [e]))
    by (apply Forall_app; auto).
  destruct (whole e) eqn:Ew.
  - rewrite Hs. rewrite Hp by lia. rewrite firstn_all. cbn [obind].
    eexists. split; [reflexivity|]. split; [assumption|]. cbn [current_ node_generation_ subtree_generation_].
    split; [rewrite app_length; cbn [length]; unfold g; lia|]. intros a Ha. split; [auto|].
    rewrite lookup_assign, latest_snoc by lia. unfold at_exact at 1. rewrite Ew. cbn [andb].
    rewrite (str_eqb_sym (join a)). destruct (Hm a Ha) as [_ ->].
    destruct (str_eqb (join (where_ e)) (join a)); [unfold g; lia|reflexivity].
  - eexists. split; [reflexivity|]. split; [assumption|]. cbn [current_ node_generation_ subtree_generation_].
    split; [rewrite app_length; cbn [length]; unfold g; lia|]. intros a Ha. split; [auto|].
    rewrite latest_snoc by lia. unfold at_exact at 1. rewrite Ew. cbn [andb].
    apply Hm. assumption.
Qed.

Lemma changed_at_loop_spec t v l : prefixes_ok v l -> forall n i result,
  i + n = length l + 1 ->
  changed_at_loop n i t v result = Ok (
    fold_left N.max (map (fun k => lookup (subtree_generation_ t) (join (firstn k l))) (seq i n))
      (if n =? 0 then result else N.max result (lookup (node_generation_ t) (join l)))).
Proof.
  intros (Hok & Hs & Hp) n. induction n as [|n IH]; intros i result Hi; cbn [changed_at_loop].
  - reflexivity.
  - rewrite Hp by lia. cbn [obind]. rewrite Hs. rewrite IH by lia.
    f_equal. cbn [seq map fold_left Nat.eqb]. rewrite Nat.add_1_r.
    set (sub := lookup (subtree_generation_ t) (join (firstn i l))).
    set (F := fold_left N.max _).
    destruct n as [|n].
    + assert (i = length l) by lia. subst i. rewrite !Nat.eqb_refl. clearbody sub. rewrite firstn_all.
      cbn [seq map] in F. subst F. cbn [fold_left]. set (nd := lookup _ _). clearbody nd.
      destruct (N.ltb_spec result nd).
      * destruct (N.ltb_spec nd sub); lia.
      * destruct (N.ltb_spec result sub); lia.
    + destruct (Nat.eqb_spec i (length l)); [lia|]. cbn [Nat.eqb]. f_equal.
      set (nd := lookup _ (join l)). clearbody nd sub.
      destruct (N.ltb_spec result sub); lia.
Qed.

Lemma fold_max_spec l x : 
  (forall y, In y (x :: l) -> (y <= fold_left N.max l x)%N) /\ In (fold_left N.max l x) (x :: l).
Proof.
  revert x; induction l as [|a l IH]; intros x; cbn [fold_left].
  - split; [intros y [<-|[]]; lia|now left].
  - destruct (IH (N.max x a)) as [H1 H2]. split.
    + intros y [<-|[<-|Hy]].
      * specialize (H1 _ (or_introl eq_refl)). lia.
      * specialize (H1 _ (or_introl eq_refl)). lia.
      * apply H1. now right.
    + destruct H2 as [H2|H2].
      * rewrite <- H2. destruct (N.max_spec x a) as [[_ ->]|[_ ->]]; cbn; auto.
      * right. now right.
Qed.

Lemma concerns_cases h l : Forall segment_ok l ->
  Forall (fun e => Forall segment_ok (where_ e)) h ->
  forall e, In e h ->
  (concerns e l <-> at_below l e = true \/ exists k, k <= length l /\ at_exact (firstn k l) e = true).
Proof.
  intros Hl Hh e He. rewrite Forall_forall in Hh. specialize (Hh e He).
  unfold concerns, at_below, at_exact. rewrite is_prefix_spec.
  split; (intros [H|H]; [now left|right]).
  - destruct H as (Hw & r & ->). exists (length (where_ e)).
    rewrite app_length. split; [lia|]. rewrite Hw. cbn [andb].
    rewrite firstn_app, firstn_all, Nat.sub_diag, app_nil_r. apply str_eqb_refl.
  - destruct H as (k & Hk & H). apply andb_true_iff in H. destruct H as [Hw H].
    split; [assumption|]. apply join_eqb in H; [|apply firstn_segment_ok; assumption|assumption].
    exists (skipn k l). rewrite <- H. now rewrite firstn_skipn.
Qed.

Lemma changed_at_spec t h v l : tinv t h -> prefixes_ok v l ->
  exists g, changed_at t v = Ok g /\
   ((g = 0%N /\ (forall e, In e h -> ~ concerns e l)) \/
    (exists i e, g = generation_of i /\ nth_error h i = Some e /\ concerns e l /\
       forall j e', i < j -> nth_error h j = Some e' -> ~ concerns e' l)).
Proof.
  intros (Hh & Hc & Hm) Hv. pose proof Hv as (Hl & Hs & Hp).
  unfold changed_at. rewrite (changed_at_loop_spec t v l Hv) by lia.
  eexists. split; [reflexivity|]. rewrite Hs.
  replace (length l + 1 =? 0) with false by (symmetry; apply Nat.eqb_neq; lia).
  destruct (Hm l Hl) as [-> _].
  replace (map _ (seq 0 (length l + 1)))
    with (map (fun k => latest (at_exact (firstn k l)) 2 h) (seq 0 (length l + 1)))
    by (apply map_ext_in; intros k _; symmetry; apply Hm; now apply firstn_segment_ok).
  set (L := map _ _). rewrite N.max_0_l.
  destruct (fold_max_spec L (latest (at_below l) 2 h)) as [Hmax Hin].
  set (g := fold_left _ _ _) in *.
  assert (Hup : forall j e, nth_error h j = Some e -> concerns e l -> (generation_of j <= g)%N).
  { intros j e Hj He. pose proof (nth_error_In _ _ Hj) as Hin'.
    apply (concerns_cases h l Hl Hh e Hin') in He.
    assert (Hq : forall P, P e = true -> (generation_of j <= latest P 2 h)%N).
    { intros P HP. destruct (latest_spec P h 2 ltac:(lia)) as [(_ & Hn)|(i & e' & E & Hi & _ & Hlast)].
      - rewrite Hn in HP by assumption. discriminate.
      - rewrite E. unfold generation_of. destruct (Nat.le_gt_cases j i) as [|Hgt]; [lia|].
        rewrite (Hlast j e Hgt Hj) in HP. discriminate. }
    destruct He as [He|(k & Hk & He)].
    - etransitivity; [apply Hq; eassumption|]. apply Hmax. now left.
    - etransitivity; [apply (Hq _ He)|]. apply Hmax. right. unfold L.
      apply in_map_iff. exists k. split; [reflexivity|]. apply in_seq. lia. }
  assert (Hw : g = 0%N \/ exists i e, g = generation_of i /\ nth_error h i = Some e /\ concerns e l).
  { assert (Hq : forall P, (forall e, In e h -> P e = true -> concerns e l) -> g = latest P 2 h ->
       g = 0%N \/ exists i e, g = generation_of i /\ nth_error h i = Some e /\ concerns e l).
    { intros P HP E. destruct (latest_spec P h 2 ltac:(lia)) as [(E0 & _)|(i & e & E0 & Hi & HPe & _)].
      - left. congruence.
      - right. exists i, e. split; [rewrite E, E0; unfold generation_of; lia|]. split; [assumption|].
        apply HP; [eapply nth_error_In; eassumption|assumption]. }
    destruct Hin as [E|E].
    - apply (Hq (at_below l)); [|congruence]. intros e He H. apply (concerns_cases h l Hl Hh e He). now left.
    - unfold L in E. apply in_map_iff in E. destruct E as (k & E & Hk). apply in_seq in Hk.
      apply (Hq (at_exact (firstn k l))); [|congruence].
      intros e He H. apply (concerns_cases h l Hl Hh e He). right. exists k. split; [lia|assumption]. }
  destruct Hw as [E|(i & e & E & Hi & He)].
  - left. split; [assumption|]. intros e He Hcn. apply In_nth_error in He. destruct He as [j Hj].
    specialize (Hup j e Hj Hcn). unfold generation_of in Hup. lia.
  - right. exists i, e. split; [assumption|]. split; [assumption|]. split; [assumption|].
    intros j e' Hij Hj Hcn. specialize (Hup j e' Hj Hcn). unfold generation_of in *. lia.
Qed.

Lemma notify_all_spec calls evs : Forall2 denotes_call calls evs -> forall t h,
  tinv t h -> (N.of_nat (length h + length evs) + 1 < gen_modulus)%N ->
  exists t', notify_all t calls = Ok (t', map generation_of (seq (length h) (length evs)))
             /\ tinv t' (h ++ evs).
Proof.
  induction 1 as [|[v w] e calls evs [Hd Hw] H IH]; intros t h Hi Hlt.
  - exists t. rewrite app_nil_r. auto.
  - cbn [fst snd] in *. subst w. cbn [notify_all]. cbn [length] in Hlt.
    destruct (notify_spec t h v e Hi (denotes_prefixes _ _ Hd) ltac:(lia)) as (t1 & E1 & Hi1).
    rewrite E1. cbn [obind].
    destruct (IH t1 (h ++ [e]) Hi1) as (t2 & E2 & Hi2).
    { rewrite app_length. cbn [length]. lia. }
    rewrite E2. cbn [obind]. exists t2. rewrite <- app_assoc in Hi2. split; [|assumption].
    do 2 f_equal. cbn [length seq map]. unfold generation_of at 2.
    rewrite app_length. cbn [length]. rewrite Nat.add_1_r. reflexivity.
Qed.

Lemma changed_since_spec t h v l old : tinv t h -> prefixes_ok v l ->
  exists b, changed_since t v old = Ok b /\
    (b = true <-> exists i e, nth_error h i = Some e /\ concerns e l /\ (old < generation_of i)%N).
Proof.
  intros Hi Hv. destruct (changed_at_spec t h v l Hi Hv) as (g & E & H).
  unfold changed_since. rewrite E. cbn [obind]. eexists. split; [reflexivity|].
  rewrite N.ltb_lt. destruct H as [(-> & H)|(i & e & -> & Hn & Hc & Hl)]; split.
  - lia.
  - intros (j & e & Hj & Hc & _). exfalso. apply (H e); [eapply nth_error_In; eauto|assumption].
  - intros Hlt. eauto.
  - intros (j & e' & Hj & Hc' & Hlt). destruct (Nat.le_gt_cases j i) as [Hle|Hgt].
    + unfold generation_of in *. lia.
    + exfalso. eapply Hl; eauto.
Qed.

Lemma tracker_from_history calls evs :
  Forall2 denotes_call calls evs -> (N.of_nat (length evs) + 1 < gen_modulus)%N ->
  exists t gens, notify_all tracker_init calls = Ok (t, gens) /\
  forall v l, denotes v l ->
    (forall old, exists b, changed_since t v old = Ok b /\
      (b = true <-> exists i e, nth_error evs i = Some e /\ concerns e l /\ (old < generation_of i)%N)) /\
    (exists g, changed_at t v = Ok g /\
      ((g = 0%N /\ (forall e, In e evs -> ~ concerns e l)) \/
       (exists i e, g = generation_of i /\ nth_error evs i = Some e /\ concerns e l /\
          forall j e', i < j -> nth_error evs j = Some e' -> ~ concerns e' l))).
Proof.
  intros H Hlt. destruct (notify_all_spec calls evs H tracker_init [] tinv_init Hlt) as (t & E & Hi).
  exists t. eexists. split; [exact E|]. intros v l Hd. apply denotes_prefixes in Hd. split.
  - intros old. eapply changed_since_spec; eauto.
  - eapply changed_at_spec; eauto.
Qed.

Lemma tracker_generations calls evs :
  Forall2 denotes_call calls evs -> (N.of_nat (length evs) + 1 < gen_modulus)%N ->
  exists t gens, notify_all tracker_init calls = Ok (t, gens) /\
    current t = (1 + N.of_nat (length evs))%N /\
    length gens = length evs /\
    (forall i g, nth_error gens i = Some g -> g = generation_of i).
Proof.
  intros H Hlt. destruct (notify_all_spec calls evs H tracker_init [] tinv_init Hlt) as (t & E & Hi).
  exists t. eexists. split; [exact E|]. split; [apply Hi|]. rewrite map_length, seq_length.
  split; [reflexivity|]. intros i g Hg. rewrite nth_error_map in Hg. cbn [length] in Hg.
  destruct (nth_error (seq 0 (length evs)) i) as [k|] eqn:Ek; [|discriminate].
  injection Hg as <-. f_equal.
  assert (i < length evs) by (rewrite <- (seq_length (length evs) 0); apply nth_error_Some; congruence).
  rewrite (nth_error_nth' _ 0) in Ek by (rewrite seq_length; assumption).
  rewrite seq_nth in Ek by assumption. cbn in Ek. congruence.
Qed.

Lemma poll_complete calls1 evs1 calls2 evs2 :
  Forall2 denotes_call calls1 evs1 -> Forall2 denotes_call calls2 evs2 ->
  (N.of_nat (length evs1 + length evs2) + 1 < gen_modulus)%N ->
  exists t1 g1 t2 g2,
    notify_all tracker_init calls1 = Ok (t1, g1) /\ notify_all t1 calls2 = Ok (t2, g2) /\
    forall v l, denotes v l ->
      exists b, changed_since t2 v (current t1) = Ok b /\
        (b = true <-> exists e, In e evs2 /\ concerns e l).
Proof.
  intros H1 H2 Hlt.
  destruct (notify_all_spec calls1 evs1 H1 tracker_init [] tinv_init ltac:(cbn [length]; lia)) as (t1 & E1 & Hi1).
  destruct (notify_all_spec calls2 evs2 H2 t1 evs1 Hi1 Hlt) as (t2 & E2 & Hi2).
  exists t1. eexists. exists t2. eexists. split; [exact E1|]. split; [exact E2|].
  intros v l Hd. apply denotes_prefixes in Hd.
  destruct (changed_since_spec t2 _ v l (current t1) Hi2 Hd) as (b & E & Hb).
  exists b. split; [assumption|]. rewrite Hb. unfold current. destruct Hi1 as (_ & -> & _). cbn [app].
  unfold generation_of. split.
  - intros (i & e & Hn & Hc & Hg). exists e. split; [|assumption].
    rewrite nth_error_app2 in Hn by lia. eapply nth_error_In; eauto.
  - intros (e & Hin & Hc). apply In_nth_error in Hin. destruct Hin as [i Hn].
    exists (length evs1 + i), e. split; [|split; [assumption|lia]].
    rewrite nth_error_app2 by lia. replace (length evs1 + i - length evs1) with i by lia. assumption.
Qed.

(** Views of the root, used for concrete histories. *)
Lemma denotes_root : denotes (path_to_view path_default) [].
Proof.
  exists path_default, [], path_default, [], 0. repeat split; try reflexivity.
  apply view_start.
Qed.

Lemma wrap_at n : N.of_nat n = (gen_modulus - 2)%N ->
  exists calls evs v t1 gs t2 g,
    Forall2 denotes_call calls evs /\ denotes v [] /\
    notify_all tracker_init calls = Ok (t1, gs) /\ notify_changed t1 v false = Ok (t2, g) /\
    (g < current t1)%N /\ changed_since t2 v (current t1) = Ok false.
Proof.
  intros Hn.
  set (v := path_to_view path_default).
  set (calls := repeat (v, false) n). set (evs := repeat (mkevent [] false) n).
  assert (HF : Forall2 denotes_call calls evs).
  { unfold calls, evs. clear. induction n as [|n IH]; cbn [repeat]; constructor; auto.
    split; [apply denotes_root|reflexivity]. }
  assert (Hlen : length evs = n) by apply repeat_length.
  destruct (notify_all_spec calls evs HF tracker_init [] tinv_init) as (t1 & E1 & Hi).
  { cbn [length]. rewrite Hlen. cbn [plus]. rewrite Hn. reflexivity. }
  destruct (denotes_prefixes v [] denotes_root) as (_ & _ & Hp).
  pose proof Hi as (_ & Hc & Hm). cbn [app] in Hc, Hm. rewrite Hlen, Hn in Hc.
  assert (Hsub : lookup (subtree_generation_ t1) [] = 0%N).
  { destruct (Hm [] ltac:(constructor)) as [_ H]. change (join []) with (@nil N) in H. rewrite H.
    destruct (latest_spec (at_exact []) evs 2 ltac:(lia)) as [(E & _)|(i & e & _ & Hi' & He & _)]; [assumption|].
    exfalso. apply nth_error_In in Hi'. unfold evs in Hi'. apply repeat_spec in Hi'. subst e. discriminate. }
  exists calls, evs, v, t1. eexists.
  exists (mktracker 0 (assign (node_generation_ t1) [] 0%N) (subtree_generation_ t1)), 0%N.
  split; [assumption|]. split; [apply denotes_root|]. split; [exact E1|].
  split.
  { unfold notify_changed. rewrite Hc.
    replace ((1 + (gen_modulus - 2) + 1) mod gen_modulus)%N with 0%N by reflexivity. reflexivity. }
  split; [unfold current; rewrite Hc; reflexivity|].
  unfold changed_since, changed_at. cbn -[lookup assign current gen_modulus N.ltb].
  rewrite lookup_assign, str_eqb_refl. cbn [obind]. rewrite Hsub. unfold current. rewrite Hc. reflexivity.
Qed.

Lemma wrap_exists :
  exists calls evs v t1 gs t2 g,
    Forall2 denotes_call calls evs /\ denotes v [] /\
    notify_all tracker_init calls = Ok (t1, gs) /\ notify_changed t1 v false = Ok (t2, g) /\
    (g < current t1)%N /\ changed_since t2 v (current t1) = Ok false.
Proof. exact (wrap_at _ (N2Nat.id _)). Qed.
