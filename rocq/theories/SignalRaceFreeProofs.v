(** No schedule has a data race. *)
From Coq Require Import List Arith Bool Lia.
From Verif Require Import Base SignalModel SignalSpec SignalMemProofs SignalRelProofs SignalStepProofs SignalRunProofs.
From Verif Require Import SignalRaceModel SignalRaceEraseProofs SignalRaceSpec SignalRaceHbProofs SignalRaceInvProofs SignalRaceLightProofs SignalRaceUserProofs.
From Verif Require Import SignalRaceLockProofs SignalRaceSwapProofs.
Import ListNotations.

Lemma user_sound st st' i i' L L' H H' t th o es r : rel st i L H -> rel st' i' L' H' -> nth_error (threads st) t = Some th -> user_ready th = true ->
  respectful st (User o) -> luser_step kl_orders st t th o = (es, Next st' r) -> sound st st' t es.
Proof.
  intros R R' Et Hu Hr E.
  assert (forall g, (exists k, luser_step kl_orders st t th o = if sig_live (mm st) g then k else silent Disabled) -> glive (mm st) g = true) as Gl.
  { intros g [k Ek]. rewrite Ek in E. unfold glive, sig_view. unfold sig_live in E. destruct (nth_error (sigs (mm st)) g) as [x|]; [destruct (g_live x); [auto|discriminate]|discriminate]. }
  destruct o; cbn in Hr.
  all: try (eapply s_new_signal; eassumption).
  all: try (eapply s_connect; eauto; eapply Gl; eexists; reflexivity).
  all: try (eapply s_copy; eassumption).
  all: try (eapply s_assign; eassumption).
  all: try (eapply s_drop; eassumption).
  all: try (eapply s_disconnect; eassumption).
  all: try (eapply s_connected; eassumption).
  all: try (eapply s_block; eassumption).
  all: try (eapply s_copy_blocker; eassumption).
  all: try (eapply s_move_handle; eassumption).
  all: try (eapply s_swap_handles; eassumption).
  all: try (eapply s_assign_blocker; eassumption).
  all: try (eapply s_move_blocker; eassumption).
  all: try (eapply s_swap_blockers; eassumption).
  all: try (eapply s_drop_blocker; eassumption).
  all: try (eapply s_emit; eauto; eapply Gl; eexists; reflexivity).
  all: try (eapply s_stop; eassumption).
  all: try (eapply s_current; eassumption).
  all: try (eapply s_disconnect_all; eauto; eapply Gl; eexists; reflexivity).
  all: try (eapply s_num_slots; eauto; eapply Gl; eexists; reflexivity).
  all: try (eapply s_swap; eassumption).
  all: try (eapply s_move; eassumption).
  all: try (destruct Hr; eapply s_destroy; eauto; eapply Gl; eexists; reflexivity).
  all: try (eapply s_return; eassumption).
  all: try (eapply s_throw; eassumption).
Qed.

Lemma tau_sound st st' i i' L L' H H' t th es r : rel st i L H -> rel st' i' L' H' -> nth_error (threads st) t = Some th ->
  ltau_step kl_orders st t th = (es, Next st' r) -> sound st st' t es.
Proof.
  intros R R' Et E. destruct (th_stack th) as [|f fs] eqn:Ef.
  { unfold ltau_step in E. rewrite Ef in E. discriminate. }
  assert (forall g, busy_frame g f -> glive (mm st) g = true) as Gl.
  { intros g B. apply (busy_live _ _ _ _ t _ R). exists th, f. rewrite Ef. cbn. auto. }
  destruct f as [e|s [|g|]].
  - assert (glive (mm st) (e_sig e) = true) as Hg by (apply Gl; reflexivity).
    destruct (e_phase e) eqn:Ep.
    all: try (eapply t_last; eassumption).
    all: try (eapply t_finish; eauto; fail).
    all: try (unfold ltau_step in E; rewrite Ef, Ep in E; discriminate).
    all: destruct (e_cur e) as [c|] eqn:Ec; [|unfold ltau_step in E; rewrite Ef, Ep, Ec in E; discriminate].
    all: try (eapply t_blocked; eassumption).
    all: try (eapply t_valid; eassumption).
    all: try (eapply t_call; eassumption).
    all: try (eapply t_release; eassumption).
    destruct (is_slot (e_last e) c || t_stopped (th_tls th)) eqn:El; [eapply t_last_slot; eassumption|].
    eapply t_advance; eauto.
  - eapply t_exchange; eassumption.
  - eapply d_region; eauto. apply Gl. reflexivity.
  - eapply t_disc_release; eassumption.
Qed.

Lemma lstep_sound st st' i i' L L' H H' t l es r : rel st i L H -> rel st' i' L' H' ->
  respectful st l -> lstep kl_orders st t l = (es, Next st' r) -> sound st st' t es.
Proof.
  intros R R' Hr E. unfold lstep in E. destruct (nth_error (threads st) t) as [th|] eqn:Et; [|discriminate].
  destruct l as [o|]; [|eapply tau_sound; eauto]. destruct (user_ready th) eqn:Hu; [|discriminate]. eapply user_sound; eauto.
Qed.

Definition ordered (tr : record) : Prop :=
  forall i j t t' e e', i < j -> at_ tr i t e -> at_ tr j t' e' -> t <> t' -> conflict e e' -> hb tr i j.

Lemma recorded_ordered st tr st' : recorded kl_orders st tr st' -> forall tr0 i L H, rel st i L H -> inv tr0 st -> ordered tr0 -> ordered (tr0 ++ tr).
Proof.
  intros Rc. induction Rc as [st|st t l es st1 r tr st2 Hr E Rc IH]; intros tr0 i L H R I O; [now rewrite app_nil_r|].
  assert (step st t l = Next st1 r) as Es by (rewrite <- (e_step kl_orders), E; reflexivity).
  pose proof (step_ok st i L H t l R Hr) as Ok'. unfold outcome_ok in Ok'. rewrite Es in Ok'. destruct Ok' as (i1 & L1 & H1 & _ & R1).
  destruct (lstep_sound _ _ _ _ _ _ _ _ _ _ _ _ R R1 Hr E) as (begs & locks & body & rl & Ee & Q).
  rewrite app_assoc. eapply IH; eauto.
  - rewrite Ee. eapply inv_step; eauto.
  - intros a b u u' e e' Hl A A' Hn C. destruct (le_lt_dec (length tr0) b) as [lb|lb].
    + assert (u' = t /\ nth_error es (b - length tr0) = Some e') as [-> Eb].
      { unfold at_ in A'. rewrite nth_error_app2 in A' by auto. rewrite nth_error_map in A'. destruct (nth_error es (b - length tr0)) as [x|]; [|discriminate]. injection A' as <- <-. auto. }
      destruct (le_lt_dec (length tr0) a) as [la|la].
      * exfalso. unfold at_ in A. rewrite nth_error_app2 in A by auto. rewrite nth_error_map in A. destruct (nth_error es (a - length tr0)) as [x|]; [|discriminate]. injection A as <- _. auto.
      * apply at_app_inv in A; auto. rewrite Ee in Eb. pose proof (step_conflict _ _ _ _ _ _ _ _ I Q _ _ _ _ _ A Eb C) as Hb. rewrite <- Ee in Hb.
        now replace (length tr0 + (b - length tr0)) with b in Hb by lia.
    + apply hb_app. eapply O; eauto; eapply at_app_inv; eauto. lia.
Qed.

Lemma conflicts_ordered n tr st : recorded kl_orders (init n) tr st ->
  forall i j t t' e e', i < j -> at_ tr i t e -> at_ tr j t' e' -> t <> t' -> conflict e e' -> hb tr i j.
Proof.
  intros Rc. change tr with ([] ++ tr). apply (recorded_ordered _ _ _ Rc [] _ _ _ (init_rel n)).
  - constructor; intros k; intros; match goal with A : at_ [] _ _ _ |- _ => unfold at_ in A; destruct k; discriminate end.
  - intros i j t t' e e' _ A. unfold at_ in A. destruct i; discriminate.
Qed.

Lemma no_race n tr st : recorded kl_orders (init n) tr st -> ~ race tr.
Proof.
  intros Rc (i & j & t & t' & e & e' & Hl & A & A' & Hn & C & Hb). apply Hb. eapply conflicts_ordered; eauto.
Qed.

Lemma hb_strict tr i j : hb tr i j -> i < j.
Proof. intros Hb. now apply hb_lt in Hb. Qed.

Lemma every_run_recorded md st evs st' : runs st evs st' -> exists tr, recorded md st tr st'.
Proof.
  intros Rn. induction Rn as [st|st t l st1 r evs st2 Hr E Rn (tr & IH)]; [exists []; constructor|].
  rewrite <- (e_step md) in E. destruct (lstep md st t l) as [es x] eqn:El. cbn in E. subst x. eexists. eapply RC_step; eauto.
Qed.
Lemma every_record_run md st tr st' : recorded md st tr st' -> exists evs, runs st evs st'.
Proof.
  intros Rc. induction Rc as [st|st t l es st1 r tr st2 Hr E Rc (evs & IH)]; [exists []; constructor|].
  assert (step st t l = Next st1 r) as Es by (rewrite <- (e_step md), E; reflexivity). eexists. eapply R_step; eauto.
Qed.
