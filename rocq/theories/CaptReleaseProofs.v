(** What releasing a slot does, whatever its function owns. *)
From Coq Require Import List Arith Bool Lia Relations.
From Verif Require Import Base CaptModel CaptSpec CaptProofs.
Import ListNotations.

Lemma with_slot_live st s x k : nth_error (slots st) s = Some x -> s_live x = true -> with_slot st s k = k x.
Proof. intros H L. unfold with_slot. rewrite H, L. reflexivity. Qed.
Lemma with_sig_live st g r k : nth_error (sigs st) g = Some r -> g_live r = true -> with_sig st g k = k r.
Proof. intros H L. unfold with_sig. rewrite H, L. reflexivity. Qed.

(** A connection cut. *)
Lemma unsend_inv P st s x : inv P st -> nth_error (slots st) s = Some x -> s_live x = true ->
  inv P (set_slot st s (mkslot true (s_refs x) None (s_caps x))).
Proof.
  intros I H L. set (st' := set_slot _ _ _).
  assert (N : forall k, namesP P st' k = namesP P st k).
  { intro k. unfold namesP, names, st'. rewrite (owned_set_slot st s x) by (cbn; congruence). reflexivity. }
  split.
  - intros k y E. rewrite N. unfold st' in E. cbn in E. apply nth_upd_inv in E. destruct E as [(-> & ->)|(D & E)].
    + rewrite <- (i_refs _ _ I _ _ H). unfold count. rewrite L. reflexivity.
    + apply (i_refs _ _ I _ _ E).
  - intros k y. cbn. intro E. apply nth_upd_inv in E. destruct E as [(-> & ->)|(D & E)]; [cbn; intros _; apply (i_pos _ _ I _ _ H L)|apply (i_pos _ _ I _ _ E)].
  - intros k E. unfold st' in E. cbn in E. rewrite length_upd in E. rewrite N. apply (i_range _ _ I _ E).
  - intros k y g. cbn. intro E. apply nth_upd_inv in E. destruct E as [(-> & ->)|(D & E)]; [discriminate|apply (i_sender _ _ I _ _ _ E)].
  - apply (i_nodup _ _ I).
  - apply (i_dead _ _ I).
  - intros k y b c. unfold st'. cbn. rewrite length_upd. intro E. apply nth_upd_inv in E.
    destruct E as [(-> & ->)|(D & E)]; [apply (i_caps _ _ I _ _ _ _ H)|apply (i_caps _ _ I _ _ _ _ E)].
  - intros g r k y h G K. cbn. intro E. apply nth_upd_inv in E.
    destruct E as [(-> & ->)|(D & E)]; [discriminate|apply (i_where _ _ I _ _ _ _ _ G K E)].
Qed.
Lemma unsend_later st s x : nth_error (slots st) s = Some x -> s_live x = true -> ~ blocked st s ->
  later st (set_slot st s (mkslot true (s_refs x) None (s_caps x))).
Proof.
  intros H L B. split; try reflexivity.
  - cbn. apply length_upd.
  - intros k y E. cbn. destruct (Nat.eq_dec k s) as [->|D].
    + exists (mkslot true (s_refs x) None (s_caps x)). rewrite (nth_upd_here _ _ _ x H). assert (y = x) by congruence. subst y. cbn.
      repeat split; try tauto; try lia; try discriminate. intros g r H1 H2 H3. contradiction B. exists x, g, r. repeat split; assumption.
    + exists y. rewrite nth_upd_other by exact D. repeat split; try tauto; try lia. intros. congruence.
  - intros g r E. exists r. repeat split; try tauto. apply incl_refl.
Qed.
(** A slot taken out of a list. *)
Lemma unlist_inv P st g r s fl lk : inv P st -> nth_error (sigs st) g = Some r -> g_live r = true -> In s (g_slots r) -> disconnected st s ->
  inv (s :: P) (set_sig st g (mksig true (without s (g_slots r)) (g_active r) fl lk)).
Proof.
  intros I H L K D. set (st' := set_sig _ _ _).
  assert (N : forall k, namesP (s :: P) st' k = namesP P st k).
  { intro k. assert (O : listed st' k + times k (g_slots r) = listed st k + times k (without s (g_slots r))).
    { unfold listed, st'. cbn [set_sig sigs].
      apply (total_upd (fun r => times k (g_slots r)) (sigs st) g (mksig true (without s (g_slots r)) (g_active r) fl lk) r H). }
    unfold namesP, names. change (owned st' k) with (owned st k). change (held st' k) with (held st k). rewrite times_cons.
    destruct (Nat.eq_dec s k) as [<-|Q].
    - rewrite times_without_same, (nodup_times _ _ (i_nodup _ _ I _ _ H) K) in O. lia.
    - rewrite times_without_other in O by congruence. lia. }
  split.
  - intros k y E. rewrite N. apply (i_refs _ _ I _ _ E).
  - apply (i_pos _ _ I).
  - intros k E. rewrite N. apply (i_range _ _ I _ E).
  - intros k y h E F. destruct (i_sender _ _ I _ _ _ E F) as (r' & R1 & R2 & R3). cbn.
    destruct (Nat.eq_dec h g) as [->|Q].
    + rewrite (nth_upd_here _ _ _ r H). eexists. split; [reflexivity|]. split; [reflexivity|]. cbn. apply in_without.
      assert (r' = r) by congruence. subst r'. split; [exact R3|]. intros ->. rewrite (D _ E) in F. discriminate.
    + rewrite nth_upd_other by exact Q. exists r'. repeat split; assumption.
  - intros h r' E. cbn in E. apply nth_upd_inv in E. destruct E as [(-> & ->)|(Q & E)]; [cbn; apply nodup_without, (i_nodup _ _ I _ _ H)|apply (i_nodup _ _ I _ _ E)].
  - intros h r' E. cbn in E. apply nth_upd_inv in E. destruct E as [(-> & ->)|(Q & E)]; [discriminate|apply (i_dead _ _ I _ _ E)].
  - apply (i_caps _ _ I).
  - intros h r' k y j E K0. cbn in E. apply nth_upd_inv in E.
    destruct E as [(-> & ->)|(Q & E)]; [apply in_without in K0; apply (i_where _ _ I _ _ _ _ _ H (proj1 K0))|apply (i_where _ _ I _ _ _ _ _ E K0)].
Qed.
Lemma sig_later st g r r' : nth_error (sigs st) g = Some r -> g_locked r = false -> g_live r' = g_live r -> g_active r' = g_active r ->
  g_locked r' = false -> incl (g_slots r') (g_slots r) -> (g_active r = 0 -> g_deferred r' = g_deferred r) -> (g_active r <> 0 -> g_slots r' = g_slots r) ->
  later st (set_sig st g r').
Proof.
  intros H K V A K' S' D E. split; try reflexivity.
  - intros s x Q. exists x. cbn. repeat split; try tauto; try lia. intros. congruence.
  - cbn. apply length_upd.
  - intros h r0 Q. cbn. destruct (Nat.eq_dec h g) as [->|N].
    + assert (r0 = r) by congruence. subst r0. exists r'. rewrite (nth_upd_here _ _ _ r H). repeat split; try assumption; try congruence.
    + exists r0. rewrite nth_upd_other by exact N. repeat split; try tauto. apply incl_refl.
Qed.
Lemma sig_inv P st g r r' : inv P st -> nth_error (sigs st) g = Some r -> g_live r' = g_live r -> g_slots r' = g_slots r ->
  (g_live r' = false -> g_locked r' = false) -> inv P (set_sig st g r').
Proof.
  intros I H V S' D. set (st' := set_sig _ _ _).
  assert (N : forall k, namesP P st' k = namesP P st k).
  { intro k. unfold namesP, names, listed, st'. cbn [set_sig sigs]. rewrite (total_same _ _ _ _ _ H) by (rewrite S'; reflexivity). reflexivity. }
  split.
  - intros k y E. rewrite N. apply (i_refs _ _ I _ _ E).
  - apply (i_pos _ _ I).
  - intros k E. rewrite N. apply (i_range _ _ I _ E).
  - intros k y h E F. destruct (i_sender _ _ I _ _ _ E F) as (r0 & R1 & R2 & R3). cbn.
    destruct (Nat.eq_dec h g) as [->|Q].
    + rewrite (nth_upd_here _ _ _ r H). exists r'. assert (r0 = r) by congruence. subst r0. split; [reflexivity|]. split; congruence.
    + rewrite nth_upd_other by exact Q. exists r0. repeat split; assumption.
  - intros h r0 E. cbn in E. apply nth_upd_inv in E. destruct E as [(-> & ->)|(Q & E)]; [rewrite S'; apply (i_nodup _ _ I _ _ H)|apply (i_nodup _ _ I _ _ E)].
  - intros h r0 E. cbn in E. apply nth_upd_inv in E. destruct E as [(-> & ->)|(Q & E)]; [intro Z; split; [apply D, Z|rewrite S'; apply (i_dead _ _ I _ _ H); congruence]|apply (i_dead _ _ I _ _ E)].
  - apply (i_caps _ _ I).
  - intros h r0 k y j E K. cbn in E. apply nth_upd_inv in E.
    destruct E as [(-> & ->)|(Q & E)]; [rewrite S' in K; apply (i_where _ _ I _ _ _ _ _ H K)|apply (i_where _ _ I _ _ _ _ _ E K)].
Qed.

(** * [slot_state::disconnect] by one who holds a reference *)

Lemma state_disconnect_spec f P s st : inv (s :: P) st ->
  (exists st', state_disconnect (release (S f)) s st = Done st' /\ inv (s :: P) st' /\ later st st' /\ disconnected st' s) \/
  (state_disconnect (release (S f)) s st = Deadlock /\ blocked st s).
Proof.
  intro I. destruct (pending_live _ _ _ I) as (x & H & L & R).
  unfold state_disconnect. rewrite (with_slot_live _ _ _ _ H L).
  set (stA := set_slot st s (mkslot true (s_refs x) None (s_caps x))).
  assert (IA : inv (s :: P) stA) by (apply unsend_inv; assumption).
  assert (HA : nth_error (slots stA) s = Some (mkslot true (s_refs x) None (s_caps x))) by (apply (nth_upd_here _ _ _ x H)).
  assert (DA : disconnected stA s) by (intros y Hy; rewrite HA in Hy; injection Hy as <-; reflexivity).
  destruct (s_sender x) as [g|] eqn:E.
  2: { left. exists stA. split; [reflexivity|]. split; [exact IA|]. split; [|exact DA].
       apply unsend_later; try assumption. intros (y & g & r & B1 & B2 & _). congruence. }
  destruct (i_sender _ _ I _ _ _ H E) as (r & G1 & G2 & G3).
  destruct (g_locked r) eqn:K.
  { right. split; [|exists x, g, r; repeat split; assumption].
    unfold sig_disconnect, lock. change (sigs st) with (sigs stA) in G1. rewrite (with_sig_live _ _ _ _ G1 G2), K. reflexivity. }
  left.
  assert (NB : ~ blocked st s) by (intros (y & h & r' & B1 & B2 & B3 & B4); congruence).
  assert (LA : later st stA) by (apply unsend_later; assumption).
  unfold sig_disconnect, lock. change (sigs st) with (sigs stA) in G1. rewrite (with_sig_live _ _ _ _ G1 G2), K. cbn [bind].
  set (stL := set_sig stA g (mksig true (g_slots r) (g_active r) (g_deferred r) true)).
  assert (GL : nth_error (sigs stL) g = Some (mksig true (g_slots r) (g_active r) (g_deferred r) true)) by (apply (nth_upd_here _ _ _ r G1)).
  rewrite (with_sig_live _ _ _ _ GL eq_refl). cbn [g_slots g_active g_locked].
  rewrite (proj2 (existsb_eqb s (g_slots r)) G3).
  unfold invalidate. assert (HL : nth_error (slots stL) s = Some (mkslot true (s_refs x) None (s_caps x))) by exact HA.
  rewrite (with_slot_live _ _ _ _ HL eq_refl). cbn [bind s_refs s_caps].
  set (stM := set_slot stL s (mkslot true (s_refs x) None (s_caps x))).
  assert (EM : stM = stL). { unfold stM, stL, stA, set_slot, set_sig. cbn. rewrite upd_upd. reflexivity. }
  rewrite EM. clear stM EM.
  destruct (Nat.eqb_spec (g_active r) 0) as [A|A].
  - unfold remove_slot. rewrite (with_sig_live _ _ _ _ GL eq_refl). cbn [g_slots g_active g_deferred g_locked].
    fold (without s (g_slots r)).
    set (stB := set_sig stL g (mksig true (without s (g_slots r)) (g_active r) (g_deferred r) true)).
    assert (HB : nth_error (slots stB) s = Some (mkslot true (s_refs x) None (s_caps x))) by exact HA.
    assert (R2 : exists n, s_refs x = S (S n)).
    { exists (s_refs x - 2). rewrite R. unfold namesP, names. rewrite times_cons. destruct (Nat.eq_dec s s); [|congruence].
      pose proof (listed_in st g r s G1 G3). lia. }
    destruct R2 as (n & R2).
    cbn [release]. rewrite (with_slot_live _ _ _ _ HB eq_refl). cbn [s_refs s_caps s_sender]. rewrite R2. cbn [bind].
    unfold unlock. 
    set (stC := set_slot stB s (mkslot true (S n) None (s_caps x))).
    assert (GC : nth_error (sigs stC) g = Some (mksig true (without s (g_slots r)) (g_active r) (g_deferred r) true)).
    { unfold stC, stB. cbn. apply (nth_upd_here _ _ _ _ GL). }
    rewrite (with_sig_live _ _ _ _ GC eq_refl). cbn [g_slots g_active g_deferred g_locked].
    set (stU := set_sig stA g (mksig true (without s (g_slots r)) (g_active r) (g_deferred r) false)).
    assert (EU : set_sig stC g (mksig true (without s (g_slots r)) (g_active r) (g_deferred r) false)
               = set_slot stU s (mkslot true (S n) None (s_caps x))).
    { unfold stU, stC, stB, stL, set_slot, set_sig. cbn. rewrite !upd_upd. reflexivity. }
    rewrite EU. eexists. split; [reflexivity|].
    assert (IU : inv (s :: s :: P) stU) by (apply unlist_inv; assumption).
    assert (HU : nth_error (slots stU) s = Some (mkslot true (s_refs x) None (s_caps x))) by exact HA.
    pose proof (less_inv _ _ _ _ n IU HU eq_refl R2) as IV. pose proof (less_later _ _ _ n HU eq_refl R2) as LV. cbn [s_sender s_caps] in IV, LV.
    split; [exact IV|].
    split.
    + apply (later_trans _ stA); [exact LA|]. apply (later_trans _ stU); [|exact LV].
      apply (sig_later _ _ r); try assumption; try reflexivity; cbn; [congruence|intros k; rewrite in_without; tauto|congruence].
    + intros y Hy. cbn in Hy. rewrite upd_upd in Hy. rewrite (nth_upd_here _ _ _ x H) in Hy. injection Hy as <-. reflexivity.
  - cbn [bind]. unfold unlock.
    set (stB := set_sig stL g (mksig true (g_slots r) (g_active r) true true)).
    assert (GB : nth_error (sigs stB) g = Some (mksig true (g_slots r) (g_active r) true true)) by (apply (nth_upd_here _ _ _ _ GL)).
    rewrite (with_sig_live _ _ _ _ GB eq_refl). cbn [g_slots g_active g_deferred g_locked].
    assert (EU : set_sig stB g (mksig true (g_slots r) (g_active r) true false) = set_sig stA g (mksig true (g_slots r) (g_active r) true false)).
    { unfold stB, stL, set_sig. cbn. rewrite !upd_upd. reflexivity. }
    rewrite EU. eexists. split; [reflexivity|]. split; [|split].
    + apply (sig_inv _ _ _ r); try assumption; try reflexivity; cbn; congruence.
    + apply (later_trans _ stA); [exact LA|].
      apply (sig_later _ _ r); try assumption; try reflexivity; cbn; [congruence|apply incl_refl|congruence].
    + exact DA.
Qed.

(** * [release] *)

Definition cut_from (st : state) (caps : list (bool * nat)) : Prop :=
  exists k a, In (k, a) caps /\ ((k = true /\ blocked st a) \/ exists c, may_cut st a c /\ blocked st c).

Lemma cut_later st st' caps : later st st' -> cut_from st' caps -> cut_from st caps.
Proof.
  intros L (k & a & H & [(-> & B)|(c & M & B)]).
  - exists true, a. split; [exact H|]. left. split; [reflexivity|apply (later_blocked _ _ _ L B)].
  - exists k, a. split; [exact H|]. right. exists c. split; [apply (later_cut _ _ _ _ L M)|apply (later_blocked _ _ _ L B)].
Qed.

Lemma destroy_spec f :
  (forall s P st, live_of st < f -> inv (s :: P) st ->
    (exists st', release f s st = Done st' /\ inv P st' /\ later st st') \/
    (release f s st = Deadlock /\ exists c, may_cut st s c /\ blocked st c)) ->
  forall caps P st, live_of st < f -> inv (map snd caps ++ P) st ->
    (exists st', destroy (release f) caps st = Done st' /\ inv P st' /\ later st st' /\ forall c, In (true, c) caps -> disconnected st' c) \/
    (destroy (release f) caps st = Deadlock /\ cut_from st caps).
Proof.
  intros IH. induction caps as [|(k, s) caps IC]; intros P st F I.
  - left. exists st. split; [reflexivity|]. split; [exact I|]. split; [apply later_refl|intros c []].
  - cbn [map snd app] in I. cbn [destroy].
    assert (T : (exists st1, (if k then disconnect (release f) s st else release f s st) = Done st1 /\ inv (map snd caps ++ P) st1 /\ later st st1 /\
                  (k = true -> disconnected st1 s)) \/
                ((if k then disconnect (release f) s st else release f s st) = Deadlock /\ cut_from st ((k, s) :: caps))).
    { destruct k.
      - unfold disconnect. destruct f as [|f]; [lia|].
        destruct (state_disconnect_spec f _ _ _ I) as [(st1 & E1 & I1 & L1 & D1)|(E1 & B)]; rewrite E1; cbn [bind].
        + pose proof (later_live _ _ L1). destruct (IH s _ st1 ltac:(lia) I1) as [(st2 & E2 & I2 & L2)|(E2 & c & C1 & C2)]; rewrite E2.
          * left. exists st2. split; [reflexivity|]. split; [exact I2|]. split; [apply (later_trans _ _ _ L1 L2)|].
            intros _. apply (later_disconnected _ _ _ L2 D1).
          * right. split; [reflexivity|]. exists true, s. split; [left; reflexivity|]. right. exists c.
            split; [apply (later_cut _ _ _ _ L1 C1)|apply (later_blocked _ _ _ L1 C2)].
        + right. split; [reflexivity|]. exists true, s. split; [left; reflexivity|]. left. split; [reflexivity|exact B].
      - destruct (IH s _ st F I) as [(st2 & E2 & I2 & L2)|(E2 & c & C1 & C2)]; rewrite E2.
        + left. exists st2. split; [reflexivity|]. split; [exact I2|]. split; [exact L2|discriminate].
        + right. split; [reflexivity|]. exists false, s. split; [left; reflexivity|]. right. exists c. split; assumption. }
    destruct T as [(st1 & E1 & I1 & L1 & D1)|(E1 & C)]; rewrite E1; cbn [bind].
    + pose proof (later_live _ _ L1).
      destruct (IC P st1 ltac:(lia) I1) as [(st2 & E2 & I2 & L2 & D2)|(E2 & C2)]; rewrite E2.
      * left. exists st2. split; [reflexivity|]. split; [exact I2|]. split; [apply (later_trans _ _ _ L1 L2)|].
        intros c [Q|Q]; [injection Q as -> ->; apply (later_disconnected _ _ _ L2 (D1 eq_refl))|apply (D2 c Q)].
      * right. split; [reflexivity|]. apply (cut_later _ _ _ L1) in C2. destruct C2 as (k2 & a & Q & R). exists k2, a. split; [right; exact Q|exact R].
    + right. split; [reflexivity|exact C].
Qed.

Lemma release_spec f s P st : live_of st < f -> inv (s :: P) st ->
  (exists st', release f s st = Done st' /\ inv P st' /\ later st st') \/
  (release f s st = Deadlock /\ exists c, may_cut st s c /\ blocked st c).
Proof.
  revert s P st. induction f as [|f IH]; intros s P st F I; [lia|].
  destruct (pending_live _ _ _ I) as (x & H & L & R).
  cbn [release]. rewrite (with_slot_live _ _ _ _ H L).
  destruct (s_refs x) as [|[|n]] eqn:E; [contradiction (i_pos _ _ I _ _ H L E)| |].
  - set (st0 := set_slot st s (mkslot false 0 (s_sender x) (s_caps x))).
    pose proof (last_inv _ _ _ _ I H L E) as I0. fold st0 in I0.
    pose proof (last_live st s x (mkslot false 0 (s_sender x) (s_caps x)) H L eq_refl) as V. fold st0 in V.
    destruct (destroy_spec f IH (s_caps x) P st0 ltac:(lia) I0) as [(st' & E1 & I1 & L1 & D1)|(E1 & C)]; rewrite E1.
    + left. exists st'. split; [reflexivity|]. split; [exact I1|]. apply (last_later _ _ _ _ H L L1 D1).
    + right. split; [reflexivity|].
      assert (O : forall a b, owns st0 a b -> owns st a b).
      { intros a b (y & k & Y1 & Y2). unfold st0 in Y1. cbn in Y1. apply nth_upd_inv in Y1. destruct Y1 as [(-> & ->)|(_ & Y1)].
        - exists x, k. split; assumption.
        - exists y, k. split; assumption. }
      assert (OS : forall a b, owns_scoped st0 a b -> owns_scoped st a b).
      { intros a b (y & Y1 & Y2). unfold st0 in Y1. cbn in Y1. apply nth_upd_inv in Y1. destruct Y1 as [(-> & ->)|(_ & Y1)].
        - exists x. split; assumption.
        - exists y. split; assumption. }
      assert (B : forall c, blocked st0 c -> blocked st c).
      { intros c (y & g & r & Y1 & Y2 & Y3). unfold st0 in Y1. cbn in Y1. apply nth_upd_inv in Y1. destruct Y1 as [(-> & ->)|(_ & Y1)].
        - exists x, g, r. split; [assumption|]. split; [exact Y2|exact Y3].
        - exists y, g, r. split; [assumption|]. split; [exact Y2|exact Y3]. }
      assert (T : forall a b, clos_refl_trans nat (owns st0) a b -> clos_refl_trans nat (owns st) a b).
      { intros a b Q. induction Q as [a b Q| |a b c _ Q1 _ Q2]; [apply rt_step, O, Q|apply rt_refl|apply (rt_trans _ _ _ _ _ Q1 Q2)]. }
      destruct C as (k & a & Q & [(-> & C)|(c & (b & M1 & M2) & C)]).
      * exists a. split; [|apply B, C]. exists s. split; [apply rt_refl|]. exists x. split; assumption.
      * exists c. split; [|apply B, C]. exists b. split; [|apply OS, M2].
        apply (rt_trans _ _ _ a); [|apply T, M1]. apply rt_step. exists x, k. split; assumption.
  - left. eexists. split; [reflexivity|]. split; [apply (less_inv _ _ _ _ _ I H L E)|apply (less_later _ _ _ _ H L E)].
Qed.

Lemma disconnect_spec f s P st : live_of st < f -> inv (s :: P) st ->
  (exists st', disconnect (release f) s st = Done st' /\ inv P st' /\ later st st' /\ disconnected st' s) \/
  (disconnect (release f) s st = Deadlock /\ (blocked st s \/ exists c, may_cut st s c /\ blocked st c)).
Proof.
  intros F I. destruct f as [|f]; [lia|]. unfold disconnect.
  destruct (state_disconnect_spec f _ _ _ I) as [(st1 & E1 & I1 & L1 & D1)|(E1 & B)]; rewrite E1; cbn [bind].
  - pose proof (later_live _ _ L1).
    destruct (release_spec (S f) s _ st1 ltac:(lia) I1) as [(st2 & E2 & I2 & L2)|(E2 & c & C1 & C2)]; rewrite E2.
    + left. exists st2. split; [reflexivity|]. split; [exact I2|]. split; [apply (later_trans _ _ _ L1 L2)|apply (later_disconnected _ _ _ L2 D1)].
    + right. split; [reflexivity|]. right. exists c. split; [apply (later_cut _ _ _ _ L1 C1)|apply (later_blocked _ _ _ L1 C2)].
  - right. split; [reflexivity|]. left. exact B.
Qed.
