(** Programs whose slots own connections. *)
From Coq Require Import List Arith Bool Lia Relations.
From Verif Require Import Base CaptModel CaptSpec CaptProofs CaptReleaseProofs CaptSignalProofs.
Import ListNotations.

(** What functions that are no more owned by scoped connections is disconnected. *)
Definition owned_cut (st : state) : Prop :=
  forall s x c, nth_error (slots st) s = Some x -> s_live x = false -> In (true, c) (s_caps x) -> disconnected st c.
Definition good (st : state) : Prop := inv [] st /\ unlocked st /\ owned_cut st.

Lemma weak_owned st st' : weak st st' -> owned_cut st -> owned_cut st'.
Proof.
  intros W O s x' c H L C. destruct (weak_back _ _ _ _ W H) as (x & E).
  destruct (w_slots _ _ W _ _ E) as (y & Y1 & Y2 & _ & _ & _ & Y3). assert (y = x') by congruence. subst y. rewrite Y2 in C.
  destruct (s_live x) eqn:V; [apply (Y3 eq_refl L _ C)|]. apply (weak_disconnected _ _ _ W), (O s x c E V C).
Qed.
Lemma later_unlocked st st' : later st st' -> unlocked st -> unlocked st'.
Proof.
  intros L U g r' H. destruct (later_sback _ _ _ _ L H) as (r & E). destruct (l_sigs _ _ L _ _ E) as (z & Z1 & _ & _ & Z2 & _).
  assert (z = r') by congruence. subst z. rewrite Z2. apply (U g r E).
Qed.
Lemma later_good st st' : inv [] st' -> later st st' -> unlocked st -> owned_cut st -> good st'.
Proof. intros I L U O. split; [exact I|]. split; [apply (later_unlocked _ _ L U)|apply (weak_owned _ _ (later_weak _ _ L) O)]. Qed.
Lemma unblocked st c : unlocked st -> ~ blocked st c.
Proof. intros U (x & g & r & _ & _ & H & K). rewrite (U g r H) in K. discriminate. Qed.
Lemma enough st : live_of st < fuel_for st.
Proof.
  assert (H : live_of st <= length (slots st)).
  { unfold live_of. induction (slots st) as [|x l IH]; [apply le_n|]. rewrite total_cons. cbn [length]. destruct (s_live x); lia. }
  unfold fuel_for. lia.
Qed.

(** * Names that come and go *)

Definition hold (s : nat) (h : option nat) : nat := match h with Some k => if Nat.eqb k s then 1 else 0 | None => 0 end.
Lemma moved_inv P Q st hs : inv P st -> (forall k, total (hold k) hs + times k Q = held st k + times k P) -> inv Q (set_handles st hs).
Proof.
  intros I H. assert (N : forall k, namesP Q (set_handles st hs) k = namesP P st k).
  { intro k. specialize (H k). unfold namesP, names. change (held (set_handles st hs) k) with (total (hold k) hs).
    change (listed (set_handles st hs) k) with (listed st k). change (owned (set_handles st hs) k) with (owned st k). lia. }
  split.
  - intros k y E. rewrite N. apply (i_refs _ _ I _ _ E).
  - apply (i_pos _ _ I).
  - intros k E. rewrite N. apply (i_range _ _ I _ E).
  - apply (i_sender _ _ I).
  - apply (i_nodup _ _ I).
  - apply (i_dead _ _ I).
  - apply (i_caps _ _ I).
  - apply (i_where _ _ I).
Qed.
Lemma hold_self s : hold s (Some s) = 1. Proof. cbn. rewrite Nat.eqb_refl. reflexivity. Qed.
Lemma hold_times k s : hold k (Some s) = times k [s].
Proof. rewrite times_cons. unfold hold. destruct (Nat.eqb_spec s k), (Nat.eq_dec s k); try reflexivity; contradiction. Qed.
Lemma taken_inv P st h s : inv P st -> nth_error (handles st) h = Some (Some s) -> inv (s :: P) (set_handles st (upd (handles st) h None)).
Proof.
  intros I H. apply (moved_inv P); [exact I|]. intro k. pose proof (total_upd (hold k) (handles st) h None _ H) as Q.
  rewrite hold_times in Q. cbn [hold] in Q. change (held st k) with (total (hold k) (handles st)). rewrite times_cons in *.
  change (times k []) with 0 in Q. lia.
Qed.
Lemma kept_inv P st s : inv (s :: P) st -> inv P (set_handles st (handles st ++ [Some s])).
Proof.
  intros I. apply (moved_inv (s :: P)); [exact I|]. intro k. rewrite total_app, total_cons, hold_times.
  change (held st k) with (total (hold k) (handles st)). rewrite !times_cons. change (total (hold k) []) with 0. change (times k []) with 0. lia.
Qed.
(** The function of a slot that exists gets or loses what it owns. *)
Lemma caps_inv P Q st s x caps n : inv P st -> nth_error (slots st) s = Some x -> s_live x = true ->
  (forall k, times k (map snd caps) + times k Q + (if Nat.eq_dec s k then s_refs x else 0) = times k (map snd (s_caps x)) + times k P + (if Nat.eq_dec s k then n else 0)) ->
  n <> 0 -> (forall b c, In (b, c) caps -> c < length (slots st)) ->
  inv Q (set_slot st s (mkslot true n (s_sender x) caps)).
Proof.
  intros I H L C NZ R. set (st' := set_slot _ _ _).
  assert (N : forall k, namesP Q st' k + (if Nat.eq_dec s k then s_refs x else 0) = namesP P st k + (if Nat.eq_dec s k then n else 0)).
  { intro k. specialize (C k). assert (O : owned st' k + times k (map snd (s_caps x)) = owned st k + times k (map snd caps)).
    { pose proof (total_upd (fun x => if s_live x then times k (map snd (s_caps x)) else 0) (slots st) s (mkslot true n (s_sender x) caps) x H) as Z.
      cbn beta in Z. rewrite L in Z. cbn [s_live s_caps] in Z. unfold owned, st'. cbn [set_slot slots]. lia. }
    unfold namesP, names. change (listed st' k) with (listed st k). change (held st' k) with (held st k). lia. }
  split.
  - intros k y E. specialize (N k). unfold st' in E. cbn in E. apply nth_upd_inv in E. destruct E as [(-> & ->)|(D & E)].
    + pose proof (i_refs _ _ I _ _ H) as Z. unfold count in *. cbn [s_live s_refs]. rewrite L in Z. destruct (Nat.eq_dec s s); [lia|congruence].
    + rewrite (i_refs _ _ I _ _ E). destruct (Nat.eq_dec s k); [congruence|lia].
  - intros k y. cbn. intro E. apply nth_upd_inv in E. destruct E as [(-> & ->)|(D & E)]; [intros _; exact NZ|apply (i_pos _ _ I _ _ E)].
  - intros k E. unfold st' in E. cbn in E. rewrite length_upd in E. specialize (N k). rewrite (i_range _ _ I _ E) in N.
    destruct (Nat.eq_dec s k) as [<-|]; [|lia]. assert (s < length (slots st)) by (apply nth_error_Some; congruence). lia.
  - intros k y g. cbn. intro E. apply nth_upd_inv in E. destruct E as [(-> & ->)|(D & E)]; [apply (i_sender _ _ I _ _ _ H)|apply (i_sender _ _ I _ _ _ E)].
  - apply (i_nodup _ _ I).
  - apply (i_dead _ _ I).
  - intros k y b c. unfold st'. cbn. rewrite length_upd. intro E. apply nth_upd_inv in E.
    destruct E as [(-> & ->)|(D & E)]; [apply R|apply (i_caps _ _ I _ _ _ _ E)].
  - intros g r k y h G K. cbn. intro E. apply nth_upd_inv in E.
    destruct E as [(-> & ->)|(D & E)]; [apply (i_where _ _ I _ _ _ _ _ G K H)|apply (i_where _ _ I _ _ _ _ _ G K E)].
Qed.
Lemma caps_owned st s x caps n : nth_error (slots st) s = Some x -> owned_cut st -> owned_cut (set_slot st s (mkslot true n (s_sender x) caps)).
Proof.
  intros H O k y c E L C z Z. cbn in E. apply nth_upd_inv in E. destruct E as [(-> & ->)|(D & E)]; [discriminate|].
  cbn in Z. apply nth_upd_inv in Z. destruct Z as [(-> & ->)|(D' & Z)]; [apply (O k y s E L C x H)|apply (O k y c E L C z Z)].
Qed.
Lemma times_drop k i (l : list (bool * nat)) b c : nth_error l i = Some (b, c) -> times k (map snd (drop_nth i l)) + times k [c] = times k (map snd l).
Proof.
  revert i. induction l as [|a l IH]; intros [|i] H; cbn [drop_nth map] in *; try discriminate.
  - cbn in H. injection H as ->. cbn [snd]. rewrite !times_cons. change (times k []) with 0. lia.
  - cbn in H. rewrite !(times_cons k (snd a)). rewrite <- (IH i H). lia.
Qed.
Lemma in_drop {A} i (l : list A) a : In a (drop_nth i l) -> In a l.
Proof. revert i. induction l as [|b l IH]; intros [|i]; cbn; try tauto. intros [H|H]; [left; exact H|right; apply (IH i H)]. Qed.

(** * Locking *)

Lemma lock_ok st g r : unlocked st -> nth_error (sigs st) g = Some r -> g_live r = true ->
  lock st g = Done (set_sig st g (mksig true (g_slots r) (g_active r) (g_deferred r) true)).
Proof. intros U H L. unfold lock. rewrite (with_sig_live _ _ _ _ H L), (U g r H). reflexivity. Qed.
Lemma locked_others st g r' : unlocked st -> forall h r, nth_error (sigs (set_sig st g r')) h = Some r -> g_locked r = true -> h = g.
Proof.
  intros U h r H K. cbn in H. apply nth_upd_inv in H. destruct H as [(-> & _)|(_ & H)]; [reflexivity|]. rewrite (U h r H) in K. discriminate.
Qed.
Lemma unlock_spec P st g r : inv P st -> nth_error (sigs st) g = Some r -> g_live r = true ->
  (forall h r, nth_error (sigs st) h = Some r -> g_locked r = true -> h = g) ->
  unlock st g = Done (set_sig st g (mksig true (g_slots r) (g_active r) (g_deferred r) false)) /\
  inv P (set_sig st g (mksig true (g_slots r) (g_active r) (g_deferred r) false)) /\
  unlocked (set_sig st g (mksig true (g_slots r) (g_active r) (g_deferred r) false)).
Proof.
  intros I H L O. unfold unlock. rewrite (with_sig_live _ _ _ _ H L). split; [reflexivity|]. split.
  - apply (sig_inv _ _ _ r); try assumption; cbn; congruence.
  - intros h r0 E. cbn in E. apply nth_upd_inv in E. destruct E as [(-> & ->)|(D & E)]; [reflexivity|].
    destruct (g_locked r0) eqn:K; [contradiction (D (O h r0 E K))|reflexivity].
Qed.

(** * [disconnect_all_slots] *)

Lemma fold_without l L : (forall k, In k L -> In k l) -> fold_left (fun L s => without s L) l L = [].
Proof.
  revert L. induction l as [|s l IH]; intros L H.
  - destruct L as [|k L]; [reflexivity|]. destruct (H k (or_introl eq_refl)).
  - cbn. apply IH. intros k K. apply in_without in K. destruct K as (K & Q). destruct (H k K) as [<-|Z]; [contradiction Q; reflexivity|exact Z].
Qed.
Lemma invalidate_each_spec P g r : forall l st, inv P st -> nth_error (sigs st) g = Some r -> incl l (g_slots r) ->
  exists st', invalidate_each l st = Done st' /\ inv P st' /\ weak st st' /\ sigs st' = sigs st /\ forall s, In s l -> disconnected st' s.
Proof.
  induction l as [|s l IH]; intros st I G K.
  - exists st. split; [reflexivity|]. split; [exact I|]. split; [apply weak_refl|]. split; [reflexivity|intros s []].
  - destruct (listed_live P st g r s I G (K s (or_introl eq_refl))) as (x & H & L).
    cbn [invalidate_each]. unfold invalidate. rewrite (with_slot_live _ _ _ _ H L). cbn [bind].
    set (stI := set_slot st s (mkslot true (s_refs x) None (s_caps x))).
    destruct (IH stI (unsend_inv _ _ _ _ I H L) G (fun k Hk => K k (or_intror Hk))) as (st' & E & I' & W & S' & D).
    exists st'. split; [exact E|]. split; [exact I'|]. split; [apply (weak_trans _ stI); [apply weak_unsend; assumption|exact W]|].
    split; [exact S'|]. intros k [<-|Hk]; [|apply (D k Hk)].
    apply (weak_disconnected _ _ _ W). intros y Y. unfold stI in Y. cbn in Y. rewrite (nth_upd_here _ _ _ _ H) in Y. injection Y as <-. reflexivity.
Qed.
Lemma disconnect_all_spec f st g r : live_of st < f -> good st -> nth_error (sigs st) g = Some r -> g_live r = true ->
  (exists st', disconnect_all (release f) g st = Done st' /\ good st' /\ weak st st' /\ (forall s, In s (g_slots r) -> disconnected st' s) /\
     exists r', nth_error (sigs st') g = Some r' /\ g_live r' = true /\ g_active r' = g_active r /\ (g_active r = 0 -> g_slots r' = [])) \/
  (disconnect_all (release f) g st = Deadlock /\ g_active r = 0 /\
     exists l1 s l2 c, g_slots r = l1 ++ s :: l2 /\ may_cut st s c /\ connected_to st c g /\ ~ In c (l1 ++ [s])).
Proof.
  intros F (I & U & O) G L. unfold disconnect_all. rewrite (lock_ok _ _ _ U G L). cbn [bind].
  set (stL := set_sig st g (mksig true (g_slots r) (g_active r) (g_deferred r) true)).
  assert (GL : nth_error (sigs stL) g = Some (mksig true (g_slots r) (g_active r) (g_deferred r) true)) by (apply (nth_upd_here _ _ _ _ G)).
  assert (OL : forall h r, nth_error (sigs stL) h = Some r -> g_locked r = true -> h = g) by (apply locked_others, U).
  assert (IL : inv [] stL) by (apply (sig_inv _ _ _ r); try assumption; cbn; congruence).
  rewrite (with_sig_live _ _ _ _ GL eq_refl). cbn [g_slots g_active g_deferred g_locked].
  destruct (Nat.eqb_spec (g_active r) 0) as [A|A].
  - rewrite A in GL.
    destruct (all_spec f g (g_deferred r) (g_slots r) (g_slots r) [] stL F IL (conj GL OL) (incl_refl _) (i_nodup _ _ I _ _ G))
      as [(st1 & E & I1 & (U1 & V1) & W1 & D1)|(E & l1 & s & l2 & c & C1 & C2 & C3 & C4)]; rewrite E; cbn [bind].
    + rewrite fold_without in U1 by tauto.
      destruct (unlock_spec [] st1 g _ I1 U1 eq_refl V1) as (E2 & I2 & U2). rewrite E2. cbn [g_slots g_active g_deferred] in *.
      left. eexists. split; [reflexivity|].
      assert (W : weak st (set_sig st1 g (mksig true [] 0 (g_deferred r) false))).
      { apply (weak_trans _ stL); [apply weak_sig|]. apply (weak_trans _ st1); [exact W1|apply weak_sig]. }
      split; [split; [exact I2|]; split; [exact U2|]; apply (weak_owned _ _ W O)|]. split; [exact W|].
      split; [intros s Hs; apply (weak_disconnected st1); [apply weak_sig|apply (D1 s Hs)]|].
      eexists. split; [apply (nth_upd_here _ _ _ _ U1)|]. cbn. repeat split. congruence.
    + right. split; [reflexivity|]. split; [exact A|]. exists l1, s, l2, c. repeat split; assumption.
  - destruct (invalidate_each_spec [] g _ (g_slots r) stL IL GL (incl_refl _)) as (st1 & E & I1 & W1 & S1 & D1). rewrite E. cbn [bind].
    set (fl := match g_slots r with [] => g_deferred r | _ => true end).
    set (st2 := set_sig st1 g (mksig true (g_slots r) (g_active r) fl true)).
    assert (G1 : nth_error (sigs st1) g = Some (mksig true (g_slots r) (g_active r) (g_deferred r) true)) by (rewrite S1; exact GL).
    assert (G2 : nth_error (sigs st2) g = Some (mksig true (g_slots r) (g_active r) fl true)) by (apply (nth_upd_here _ _ _ _ G1)).
    assert (I2 : inv [] st2) by (apply (sig_inv _ _ _ _ _ I1 G1); cbn; congruence).
    assert (O2 : forall h r, nth_error (sigs st2) h = Some r -> g_locked r = true -> h = g).
    { intros h r0 E2 K. unfold st2 in E2. cbn in E2. apply nth_upd_inv in E2. destruct E2 as [(-> & _)|(_ & E2)]; [reflexivity|].
      rewrite S1 in E2. apply (OL h r0 E2 K). }
    destruct (unlock_spec [] st2 g _ I2 G2 eq_refl O2) as (E3 & I3 & U3). rewrite E3. cbn [g_slots g_active g_deferred] in *.
    left. eexists. split; [reflexivity|].
    assert (W : weak st (set_sig st2 g (mksig true (g_slots r) (g_active r) fl false))).
    { apply (weak_trans _ stL); [apply weak_sig|]. apply (weak_trans _ st1); [exact W1|]. apply (weak_trans _ st2); apply weak_sig. }
    split; [split; [exact I3|]; split; [exact U3|]; apply (weak_owned _ _ W O)|]. split; [exact W|].
    split; [intros s Hs; apply (weak_disconnected st2); [apply weak_sig|apply (weak_disconnected st1); [apply weak_sig|apply (D1 s Hs)]]|].
    eexists. split; [apply (nth_upd_here _ _ _ _ G2)|]. cbn. repeat split. congruence.
Qed.
Lemma disconnect_all_dead f st g r s x c l1 l2 : live_of st < f -> good st -> nth_error (sigs st) g = Some r -> g_live r = true -> g_active r = 0 ->
  g_slots r = l1 ++ s :: l2 -> nth_error (slots st) s = Some x -> s_refs x = 1 -> In (true, c) (s_caps x) -> In c l2 -> connected_to st c g ->
  disconnect_all (release f) g st = Deadlock.
Proof.
  intros F (I & U & O) G L A E H R C1 C2 C3. unfold disconnect_all. rewrite (lock_ok _ _ _ U G L). cbn [bind].
  set (stL := set_sig st g (mksig true (g_slots r) (g_active r) (g_deferred r) true)).
  assert (GL : nth_error (sigs stL) g = Some (mksig true (g_slots r) (g_active r) (g_deferred r) true)) by (apply (nth_upd_here _ _ _ _ G)).
  assert (OL : forall h r, nth_error (sigs stL) h = Some r -> g_locked r = true -> h = g) by (apply locked_others, U).
  assert (IL : inv [] stL) by (apply (sig_inv _ _ _ r); try assumption; cbn; congruence).
  rewrite (with_sig_live _ _ _ _ GL eq_refl). cbn [g_slots g_active g_deferred g_locked]. rewrite A, Nat.eqb_refl. rewrite A in GL.
  pose proof (i_nodup _ _ I _ _ G) as N. rewrite E in N.
  assert (X : remove_each (release f) g true (g_slots r) stL = Deadlock).
  { rewrite E. apply (all_dead f g (g_deferred r) s x c l2 l1 (g_slots r) [] stL); try assumption.
    - exact (conj GL OL).
    - rewrite E. apply incl_refl. }
  rewrite X. reflexivity.
Qed.

(** * Emissions *)

Lemma begin_spec st g r : good st -> nth_error (sigs st) g = Some r -> g_live r = true ->
  exists st', begin_emission g st = Done st' /\ good st' /\ weak st st'.
Proof.
  intros (I & U & O) G L. unfold begin_emission. rewrite (lock_ok _ _ _ U G L). cbn [bind].
  set (stL := set_sig st g (mksig true (g_slots r) (g_active r) (g_deferred r) true)).
  assert (GL : nth_error (sigs stL) g = Some (mksig true (g_slots r) (g_active r) (g_deferred r) true)) by (apply (nth_upd_here _ _ _ _ G)).
  assert (IL : inv [] stL) by (apply (sig_inv _ _ _ r); try assumption; cbn; congruence).
  rewrite (with_sig_live _ _ _ _ GL eq_refl). cbn [g_slots g_active g_deferred g_locked bind].
  set (st2 := set_sig stL g (mksig true (g_slots r) (S (g_active r)) (g_deferred r) true)).
  assert (G2 : nth_error (sigs st2) g = Some (mksig true (g_slots r) (S (g_active r)) (g_deferred r) true)) by (apply (nth_upd_here _ _ _ _ GL)).
  assert (I2 : inv [] st2) by (apply (sig_inv _ _ _ _ _ IL GL); cbn; congruence).
  assert (O2 : forall h r, nth_error (sigs st2) h = Some r -> g_locked r = true -> h = g).
  { intros h r0 E2 K. unfold st2 in E2. cbn in E2. rewrite upd_upd in E2. apply (locked_others st g _ U h r0 E2 K). }
  destruct (unlock_spec [] st2 g _ I2 G2 eq_refl O2) as (E3 & I3 & U3). rewrite E3. cbn [g_slots g_active g_deferred] in *.
  eexists. split; [reflexivity|].
  match goal with |- good ?a /\ _ => assert (W : weak st a) end.
  { apply (weak_trans _ stL); [apply weak_sig|]. apply (weak_trans _ st2); apply weak_sig. }
  split; [split; [exact I3|]; split; [exact U3|]; apply (weak_owned _ _ W O)|exact W].
Qed.
Lemma end_spec f st g r n : live_of st < f -> good st -> nth_error (sigs st) g = Some r -> g_live r = true -> g_active r = S n ->
  (exists st', end_emission (release f) g st = Done st' /\ good st' /\ weak st st') \/
  (end_emission (release f) g st = Deadlock /\ n = 0 /\ g_deferred r = true /\
     exists s c, In s (g_slots r) /\ disconnected st s /\ may_cut st s c /\ connected_to st c g).
Proof.
  intros F (I & U & O) G L A. unfold end_emission. rewrite (lock_ok _ _ _ U G L). cbn [bind].
  set (stL := set_sig st g (mksig true (g_slots r) (g_active r) (g_deferred r) true)).
  assert (GL : nth_error (sigs stL) g = Some (mksig true (g_slots r) (g_active r) (g_deferred r) true)) by (apply (nth_upd_here _ _ _ _ G)).
  assert (IL : inv [] stL) by (apply (sig_inv _ _ _ r); try assumption; cbn; congruence).
  rewrite (with_sig_live _ _ _ _ GL eq_refl). cbn [g_slots g_active g_deferred g_locked]. rewrite A.
  set (st2 := set_sig stL g (mksig true (g_slots r) n (g_deferred r) true)).
  assert (G2 : nth_error (sigs st2) g = Some (mksig true (g_slots r) n (g_deferred r) true)) by (apply (nth_upd_here _ _ _ _ GL)).
  assert (I2 : inv [] st2) by (apply (sig_inv _ _ _ _ _ IL GL); cbn; congruence).
  assert (O2 : forall h r, nth_error (sigs st2) h = Some r -> g_locked r = true -> h = g).
  { intros h r0 E2 K. unfold st2 in E2. cbn in E2. rewrite upd_upd in E2. apply (locked_others st g _ U h r0 E2 K). }
  assert (W2 : weak st st2) by (apply (weak_trans _ stL); apply weak_sig).
  destruct (Nat.eqb_spec n 0) as [->|N]; [destruct (g_deferred r) eqn:D|]; cbn [andb bind].
  - destruct (some_spec f g true (g_slots r) (g_slots r) [] st2 F I2 (conj G2 O2) (incl_refl _) (i_nodup _ _ I _ _ G))
      as [(st3 & L3 & E3 & I3 & (U3 & V3) & W3 & _)|(E3 & s & c & C1 & C2 & C3 & C4)]; rewrite E3; cbn [bind].
    + rewrite (with_sig_live _ _ _ _ U3 eq_refl). cbn [g_slots g_active g_deferred g_locked bind].
      set (st4 := set_sig st3 g (mksig true L3 0 false true)).
      assert (G4 : nth_error (sigs st4) g = Some (mksig true L3 0 false true)) by (apply (nth_upd_here _ _ _ _ U3)).
      assert (I4 : inv [] st4) by (apply (sig_inv _ _ _ _ _ I3 U3); cbn; congruence).
      assert (O4 : forall h r, nth_error (sigs st4) h = Some r -> g_locked r = true -> h = g).
      { intros h r0 E2 K. unfold st4 in E2. cbn in E2. apply nth_upd_inv in E2. destruct E2 as [(-> & _)|(_ & E2)]; [reflexivity|apply (V3 h r0 E2 K)]. }
      destruct (unlock_spec [] st4 g _ I4 G4 eq_refl O4) as (E5 & I5 & U5). rewrite E5. cbn [g_slots g_active g_deferred] in *.
      left. eexists. split; [reflexivity|].
      match goal with |- good ?a /\ _ => assert (W : weak st a) end.
      { apply (weak_trans _ st2); [exact W2|]. apply (weak_trans _ st3); [exact W3|]. apply (weak_trans _ st4); apply weak_sig. }
      split; [split; [exact I5|]; split; [exact U5|]; apply (weak_owned _ _ W O)|exact W].
    + right. repeat (split; [reflexivity|]). exists s, c. repeat split; assumption.
  - destruct (unlock_spec [] st2 g _ I2 G2 eq_refl O2) as (E3 & I3 & U3). rewrite E3. cbn [g_slots g_active g_deferred] in *.
    left. eexists. split; [reflexivity|].
    match goal with |- good ?a /\ _ => assert (W : weak st a) end.
    { apply (weak_trans _ st2); [exact W2|apply weak_sig]. }
    split; [split; [exact I3|]; split; [exact U3|]; apply (weak_owned _ _ W O)|exact W].
  - destruct (unlock_spec [] st2 g _ I2 G2 eq_refl O2) as (E3 & I3 & U3). rewrite E3. cbn [g_slots g_active g_deferred] in *.
    left. eexists. split; [reflexivity|].
    match goal with |- good ?a /\ _ => assert (W : weak st a) end.
    { apply (weak_trans _ st2); [exact W2|apply weak_sig]. }
    split; [split; [exact I3|]; split; [exact U3|]; apply (weak_owned _ _ W O)|exact W].
Qed.
Lemma end_dead f st g r s x c : live_of st < f -> good st -> nth_error (sigs st) g = Some r -> g_live r = true -> g_active r = 1 -> g_deferred r = true ->
  In s (g_slots r) -> nth_error (slots st) s = Some x -> s_refs x = 1 -> s_sender x = None -> In (true, c) (s_caps x) -> connected_to st c g ->
  end_emission (release f) g st = Deadlock.
Proof.
  intros F (I & U & O) G L A D K H R S' C1 C2. unfold end_emission. rewrite (lock_ok _ _ _ U G L). cbn [bind].
  set (stL := set_sig st g (mksig true (g_slots r) (g_active r) (g_deferred r) true)).
  assert (GL : nth_error (sigs stL) g = Some (mksig true (g_slots r) (g_active r) (g_deferred r) true)) by (apply (nth_upd_here _ _ _ _ G)).
  assert (IL : inv [] stL) by (apply (sig_inv _ _ _ r); try assumption; cbn; congruence).
  rewrite (with_sig_live _ _ _ _ GL eq_refl). cbn [g_slots g_active g_deferred g_locked]. rewrite A, D. cbn [Nat.eqb andb].
  set (st2 := set_sig stL g (mksig true (g_slots r) 0 true true)).
  assert (G2 : nth_error (sigs st2) g = Some (mksig true (g_slots r) 0 true true)) by (apply (nth_upd_here _ _ _ _ GL)).
  assert (I2 : inv [] st2) by (apply (sig_inv _ _ _ _ _ IL GL); cbn; congruence).
  assert (O2 : forall h r, nth_error (sigs st2) h = Some r -> g_locked r = true -> h = g).
  { intros h r0 E2 Z. unfold st2 in E2. cbn in E2. rewrite upd_upd in E2. apply (locked_others st g _ U h r0 E2 Z). }
  destruct (in_split _ _ K) as (l1 & l2 & E). pose proof (i_nodup _ _ I _ _ G) as N.
  assert (X : remove_each (release f) g false (g_slots r) st2 = Deadlock).
  { rewrite E. apply (some_dead f g true s x c l2 l1 (g_slots r) [] st2); try assumption.
    - exact (conj G2 O2).
    - rewrite E. apply incl_refl.
    - rewrite <- E. exact N. }
  rewrite X. reflexivity.
Qed.
