(** Whole runs: the refinement, and what follows from it. *)
From Coq Require Import List Arith Bool Lia.
From Verif Require Import Base XinfoProofs SignalModel SignalSpec SignalMemProofs SignalRelProofs SignalStepProofs SignalFrameProofs SignalTauProofs SignalEmitProofs.
Import ListNotations.
Local Open Scope outcome_scope.

Lemma step_ok st i L H t l : rel st i L H -> respectful st l -> outcome_ok st t l i.
Proof.
  intros R Hresp. destruct (nth_error (threads st) t) as [th|] eqn:Et.
  2: { unfold outcome_ok, step. rewrite Et. intros _ th E. discriminate. }
  destruct (Forall2_nth _ _ _ _ _ (r_threads _ _ _ _ R) Et) as (is & Ei & Rs). cbn beta in Rs.
  destruct l as [o|].
  - destruct (user_ready th) eqn:Hr.
    2: { unfold outcome_ok, step. rewrite Et, Hr. discriminate. }
    pose proof (ir st L th is Rs Hr) as Hir.
    destruct o; cbn [respectful] in Hresp.
    + eapply ok_new_signal; eauto.
    + eapply ok_connect; eauto.
    + eapply ok_copy; eauto.
    + eapply ok_assign; eauto.
    + eapply ok_drop; eauto.
    + eapply ok_disconnect; eauto.
    + eapply ok_connected; eauto.
    + eapply ok_block; eauto.
    + eapply ok_move_handle; eauto.
    + eapply ok_swap_handles; eauto.
    + eapply ok_copy_blocker; eauto.
    + eapply ok_assign_blocker; eauto.
    + eapply ok_move_blocker; eauto.
    + eapply ok_swap_blockers; eauto.
    + eapply ok_drop_blocker; eauto.
    + eapply ok_emit; eauto.
    + eapply ok_stop; eauto.
    + eapply ok_current; eauto.
    + eapply ok_disconnect_all; eauto.
    + eapply ok_num_slots; eauto.
    + eapply ok_swap; eauto.
    + eapply ok_move; eauto.
    + destruct Hresp. eapply ok_destroy; eauto.
    + eapply ok_return; eauto.
    + eapply ok_throw; eauto.
  - pose proof Rs as Rs0. destruct (th_stack th) as [|f fs] eqn:Es.
    { unfold outcome_ok, step. rewrite Et. unfold tau_step. rewrite Es. intros _ th' E. injection E as <-. unfold user_ready. now rewrite Es. }
    destruct is as [|j js]; [destruct f; contradiction|]. destruct f as [e|s d], j as [ie|s' fin]; try contradiction.
    + rewrite <- Es in Rs0. destruct (e_phase e) eqn:Ep.
      * eapply ok_blocked; eauto.
      * eapply ok_valid; eauto.
      * eapply ok_call; eauto.
      * unfold outcome_ok, step. rewrite Et. unfold tau_step. rewrite Es, Ep.
        assert (match e_cur e with Some _ => Disabled | None => Disabled end = Disabled) as Ed by (destruct (e_cur e); auto).
        intros _ th' E. injection E as <-. unfold user_ready. now rewrite Es, Ep.
      * eapply ok_advance; eauto.
      * eapply ok_prelease; eauto.
      * eapply ok_last; eauto.
      * eapply ok_finish; eauto.
    + cbn [stack_rel] in Rs. destruct Rs as (-> & -> & _). rewrite <- Es in Rs0. destruct d as [|g|].
      * eapply ok_exchange; eauto.
      * eapply ok_region; eauto.
      * eapply ok_release; eauto.
Qed.

Lemma init_rel n : rel (init n) (ideal_init n) (fun _ => []) (fun _ => None).
Proof.
  assert (forall T (d : T) k, nth k [] d = d) as Hn by (intros T d [|k]; auto).
  assert (forall s, tot (thread_holds s) (threads (init n)) = 0) as Z1.
  { intros s. apply tot_zero. intros th Hi. apply repeat_spec in Hi. subst. reflexivity. }
  assert (forall g, tot (thread_emits g) (threads (init n)) = 0) as Z2.
  { intros g. apply tot_zero. intros th Hi. apply repeat_spec in Hi. subst. reflexivity. }
  assert (forall A (v : slot -> A) d s, slot_view v d (mkmem [] []) s = d) as V1 by (intros A v d [|s]; reflexivity).
  assert (forall A (v : sigrec -> A) d s, sig_view v d (mkmem [] []) s = d) as V2 by (intros A v d [|s]; reflexivity).
  constructor; cbn [init mm handles blockers fresh ideal_init i_slots i_order i_live i_handles i_blockers i_fresh]; auto.
  - constructor.
    + intros s x E. destruct s; discriminate.
    + intros s. unfold refs. rewrite V1. unfold X. rewrite Z1. reflexivity.
    + intros s. unfold blk. rewrite V1. reflexivity.
    + intros s g. split; [intros []|discriminate].
    + intros g. constructor.
    + intros g. unfold ghead. rewrite V2. reflexivity.
    + intros g. unfold gtail. rewrite V2. reflexivity.
    + intros g. unfold gact. rewrite V2. unfold A. now rewrite Z2.
  - intros s g E. unfold conn in E. rewrite V1 in E. discriminate.
  - intros s g E. discriminate.
  - intros g E. unfold gdfr in E. rewrite V2 in E. discriminate.
  - intros s. rewrite Hn. unfold conn. now rewrite V1.
  - intros g. rewrite Hn. unfold glive. now rewrite V2.
  - clear. cbn. induction n as [|n IH]; cbn; constructor; [reflexivity|exact IH].
Qed.

Lemma runs_rel st evs st' : runs st evs st' -> forall i L H, rel st i L H ->
  exists i' L' H', ideal_runs i evs i' /\ rel st' i' L' H'.
Proof.
  intros Rn. induction Rn as [st|st t l st1 r evs st2 Hr E Rn IH]; intros i L H R.
  - exists i, L, H. split; auto. constructor.
  - pose proof (step_ok st i L H t l R Hr) as O. unfold outcome_ok in O. rewrite E in O.
    destruct O as (i1 & L1 & H1 & IR & R1). destruct (IH _ _ _ R1) as (i2 & L2 & H2 & IR2 & R2).
    exists i2, L2, H2. split; auto. eapply ir_app; eauto.
Qed.

Lemma reach_rel n evs st : runs (init n) evs st -> exists i L H, ideal_runs (ideal_init n) evs i /\ rel st i L H.
Proof. intros Rn. apply (runs_rel _ _ _ Rn _ _ _ (init_rel n)). Qed.

Lemma refines n evs st : runs (init n) evs st -> exists i, ideal_runs (ideal_init n) evs i.
Proof. intros Rn. destruct (reach_rel _ _ _ Rn) as (i & L & H & IR & _). eauto. Qed.

Lemma runs_app st evs st' evs' st'' : runs st evs st' -> runs st' evs' st'' -> runs st (evs ++ evs') st''.
Proof.
  intros R. induction R as [|st t l st1 r evs st2 Hr E R IH]; intros R'; auto.
  rewrite <- app_assoc. econstructor; eauto.
Qed.

Lemma runs_one st t l st' r : respectful st l -> step st t l = Next st' r -> runs st (event_of t l r) st'.
Proof. intros Hr E. rewrite <- (app_nil_r (event_of t l r)). econstructor; eauto. constructor. Qed.

(* ---------------------------------------------------------- memory safety *)

Lemma safe n evs st t l : runs (init n) evs st -> respectful st l ->
  step st t l <> Crash /\
  (step st t l = Terminate -> exists a, (exists b, l = User (USwap a b)) \/ l = User (UMove a)) /\
  (forall th, nth_error (threads st) t = Some th -> user_ready th = false -> exists st' r, step st t Tau = Next st' r).
Proof.
  intros Rn Hr. destruct (reach_rel _ _ _ Rn) as (i & L & H & _ & R).
  pose proof (step_ok st i L H t l R Hr) as O. unfold outcome_ok in O. split; [|split].
  - intros E. rewrite E in O. auto.
  - intros E. rewrite E in O. destruct l as [o|]; [|contradiction]. destruct o; try contradiction; eauto.
  - intros th Et Hu. pose proof (step_ok st i L H t Tau R I) as O'. unfold outcome_ok in O'.
    destruct (step st t Tau) eqn:E; eauto; try contradiction.
    specialize (O' eq_refl th Et). congruence.
Qed.

(* --------------------------------------------------------- reading a state *)

Lemma chain_walk m l : forall o fuel, chain m o l -> (forall s, In s l -> s < length (heap m)) -> length l <= fuel ->
  walk (heap m) fuel o = l.
Proof.
  induction l as [|s l IH]; intros o fuel C Hb Hf.
  - cbn in C. subst. destruct fuel; reflexivity.
  - cbn in C. destruct C as [-> C]. destruct fuel as [|fuel]; [cbn in Hf; lia|]. cbn [walk].
    destruct (nth_error (heap m) s) as [x|] eqn:E.
    + f_equal. apply IH; [|intros; apply Hb; right; auto|cbn in Hf; lia].
      unfold nxt, slot_view in C. rewrite E in C. exact C.
    + apply nth_error_None in E. specialize (Hb s (or_introl eq_refl)). lia.
Qed.

Lemma listed_is st i L H g : rel st i L H -> listed st g = L g.
Proof.
  intros R. pose proof (r_minv _ _ _ _ R) as I. unfold listed.
  destruct (nth_error (sigs (mm st)) g) as [r|] eqn:E.
  - apply chain_walk.
    + pose proof (mi_chain _ _ _ _ _ _ I g) as C. unfold ghead, sig_view in C. rewrite E in C. exact C.
    + intros s Hs. eapply minv_bound; eauto.
    + pose proof (list_bound _ _ _ _ _ _ g I). lia.
  - apply nth_error_None in E. destruct (minv_out _ _ _ _ _ _ g I E) as [EL _]. auto.
Qed.

Lemma sender_is st s : sender st s = conn (mm st) s.
Proof. unfold sender, conn, slot_view. destruct (nth_error (heap (mm st)) s); auto. Qed.

Lemma slots_of_is st i L H g : rel st i L H -> slots_of st g = nth g (i_order i) [].
Proof.
  intros R. unfold slots_of. rewrite (listed_is _ _ _ _ _ R), (r_order _ _ _ _ R). apply filter_ext_in. intros s Hs.
  unfold connected_to, connected. rewrite sender_is. destruct (conn (mm st) s) as [k|] eqn:E; auto.
  apply (r_sender _ _ _ _ R) in E. apply (mi_in _ _ _ _ _ _ (r_minv _ _ _ _ R)) in Hs.
  assert (k = g) as -> by congruence. apply Nat.eqb_refl.
Qed.

Lemma slots_of_spec st i L H g : rel st i L H -> NoDup (slots_of st g) /\ (forall s, In s (slots_of st g) <-> sender st s = Some g).
Proof.
  intros R. pose proof (r_minv _ _ _ _ R) as I. unfold slots_of. rewrite (listed_is _ _ _ _ _ R). split.
  - apply NoDup_filter. apply (mi_nodup _ _ _ _ _ _ I).
  - intros s. rewrite filter_In. unfold connected_to. split.
    + intros [_ E]. destruct (sender st s) as [k|]; [|discriminate]. apply Nat.eqb_eq in E. congruence.
    + intros E. rewrite E. split; [|apply Nat.eqb_refl]. apply (mi_in _ _ _ _ _ _ I). apply (r_sender _ _ _ _ R).
      rewrite <- sender_is. auto.
Qed.

Lemma order_facts n evs st g : runs (init n) evs st ->
  NoDup (slots_of st g) /\ (forall s, In s (slots_of st g) <-> sender st s = Some g).
Proof. intros Rn. destruct (reach_rel _ _ _ Rn) as (i & L & H & _ & R). eapply slots_of_spec; eauto. Qed.

Lemma count_ok n evs st t g st' k : runs (init n) evs st -> step st t (User (UNumSlots g)) = Next st' (OCount k) ->
  st' = st /\ k = length (slots_of st g).
Proof.
  intros Rn E. destruct (reach_rel _ _ _ Rn) as (i & L & H & _ & R).
  assert (st' = st) as Est.
  { unfold step in E. destruct (nth_error (threads st) t) as [th|]; [|discriminate]. destruct (user_ready th); [|discriminate].
    cbn [user_step] in E. destruct (sig_live (mm st) g); [|discriminate]. unfold lift in E. destruct (num_slots (mm st) g); try discriminate.
    injection E as <- _. auto. }
  split; auto. subst st'. pose proof (step_ok st i L H t (User (UNumSlots g)) R I) as O. unfold outcome_ok in O. rewrite E in O.
  unfold step in E. destruct (nth_error (threads st) t) as [th|] eqn:Et; [|discriminate].
  destruct (user_ready th); [|discriminate]. cbn [user_step] in E. destruct (sig_live (mm st) g) eqn:Eg; [|discriminate].
  pose proof (num_slots_ok _ _ _ _ _ _ g (r_minv _ _ _ _ R) Eg) as En. rewrite En in E. cbn [lift] in E. injection E as <-.
  unfold slots_of. rewrite (listed_is _ _ _ _ _ R). f_equal.
  pose proof (slots_of_is _ _ _ _ g R) as E1. rewrite (r_order _ _ _ _ R) in E1. unfold slots_of in E1. rewrite (listed_is _ _ _ _ _ R) in E1. auto.
Qed.

Lemma connected_ok st t h st' b : step st t (User (UConnected h)) = Next st' (OBool b) ->
  st' = st /\ b = match nth_error (handles st) h with Some (Some s) => is_some (sender st s) | _ => false end.
Proof.
  intros E. unfold step in E. destruct (nth_error (threads st) t) as [th|]; [|discriminate]. destruct (user_ready th); [|discriminate].
  cbn [user_step] in E. destruct (nth_error (handles st) h) as [[s|]|]; try discriminate.
  - unfold lift, get_slot in E. unfold sender. destruct (nth_error (heap (mm st)) s) as [x|]; [|discriminate].
    destruct (s_live x); [|discriminate]. injection E as <- <-. split; auto.
  - injection E as <- <-. auto.
Qed.
