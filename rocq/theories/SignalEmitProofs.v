(** Steps of an emission, matched by the ideal machine; then whole runs. *)
From Coq Require Import List Arith Bool Lia.
From Verif Require Import Base XinfoProofs SignalModel SignalSpec SignalMemProofs SignalRelProofs SignalStepProofs SignalFrameProofs SignalTauProofs.
Import ListNotations.
Local Open Scope outcome_scope.

Section Emit.
Variables (st : state) (i : ideal) (L : nat -> list nat) (H : nat -> option nat) (t : nat) (th : thread).
Variables (e : emission) (fs : list frame) (ie : iemission) (js : list iframe).
Hypothesis R : rel st i L H.
Hypothesis Et : nth_error (threads st) t = Some th.
Hypothesis Ei : nth_error (i_threads i) t = Some (IEmit ie :: js).
Hypothesis Rs : stack_rel (world_of (mm st) L) (th_tls th) (FEmit e :: fs) (IEmit ie :: js).
Hypothesis Es : th_stack th = FEmit e :: fs.

Let I0 : minv (mm st) L H (X st) (B st) (A st) := r_minv _ _ _ _ R.

Lemma em_rel : emission_rel (world_of (mm st) L) (t_stopped (th_tls th)) e ie.
Proof. apply Rs. Qed.
Lemma em_live : glive (mm st) (e_sig e) = true.
Proof. apply em_rel. Qed.
Lemma em_below : below fs.
Proof. apply Rs. Qed.
Lemma em_rest : stack_rel (world_of (mm st) L) (e_prev e) fs js.
Proof. apply Rs. Qed.

Lemma em_X k : frame_holds k (FEmit e) <= X st k.
Proof. eapply frame_X; eauto. rewrite Es. left; auto. Qed.

Lemma rs_th : stack_rel (world_of (mm st) L) (th_tls th) (th_stack th) (IEmit ie :: js).
Proof. rewrite Es. exact Rs. Qed.

Lemma i_self : i_set_thread i t (IEmit ie :: js) = i.
Proof. apply set_id; auto. Qed.

Lemma ilt : t < length (i_threads i).
Proof. eapply nth_some_lt; eauto. Qed.

Lemma ie_eta : ie = mkie (ie_id ie) (ie_sig ie) (ie_todo ie) (ie_stop ie) (ie_at ie).
Proof. destruct ie; reflexivity. Qed.

Lemma emit_go m' X' tl e' ie' :
  same (mm st) m' -> minv m' L H X' (B st) (A st) ->
  (forall k, X' k + frame_holds k (FEmit e) = X st k + frame_holds k (FEmit e')) ->
  e_sig e' = e_sig e -> e_prev e' = e_prev e ->
  emission_rel (world_of (mm st) L) (t_stopped tl) e' ie' ->
  (e_phase e' = PInSlot -> t_current tl = e_cur e') ->
  rel (set_thread (set_mem st m') t (mkthread tl (FEmit e' :: fs))) (i_set_thread i t (IEmit ie' :: js)) L H.
Proof.
  intros Sm I HX Esig Ep Er Hc.
  unfold i_set_thread; cbns. rewrite (r_fresh _ _ _ _ R), (r_handles _ _ _ _ R).
  assert (forall k, A (mkstate m' (upd (threads st) t (mkthread tl (FEmit e' :: fs))) (handles st) (blockers st) (lost st) (fresh st)) k = A st k) as HA.
  { intros k. pose proof (A_upd st t th m' tl (FEmit e' :: fs) (handles st) (blockers st) (lost st) (fresh st) k Et) as U.
    rewrite Es in U. cbn [tot frame_emits] in U. rewrite Esig in U. lia. }
  apply (rel_thread st i L H t th); auto.
  - eapply minv_ext; [exact I|auto|auto| |auto|auto]. intros k.
    pose proof (X_upd st t th m' tl (FEmit e' :: fs) k Et) as U. rewrite Es in U. cbn [tot] in U. specialize (HX k). lia.
  - rewrite Es. intros k g [W|W]; [discriminate|right; auto].
  - intros g. rewrite HA. auto.
  - cbn [stack_rel]. split; [|split; [auto|split; [apply em_below|]]].
    + eapply (emission_rel_mono (world_of (mm st) L) _ _ _ _ [FEmit e']); [|left; auto|exact Er].
      apply world_same; auto.
      * intros e0 [W|[]]. injection W as <-. rewrite Esig. apply em_live.
      * intros s g [W|[]]. discriminate.
      * intros g s. eapply minv_bound; eauto.
    + rewrite Ep. eapply world_keep; [exact R|exact rs_th|exact Sm| |apply em_rest]. rewrite Es. apply incl_tl, incl_refl.
Qed.

Lemma emit_same tl e' ie' :
  (forall k, frame_holds k (FEmit e) = frame_holds k (FEmit e')) ->
  e_sig e' = e_sig e -> e_prev e' = e_prev e ->
  emission_rel (world_of (mm st) L) (t_stopped tl) e' ie' ->
  (e_phase e' = PInSlot -> t_current tl = e_cur e') ->
  rel (set_thread (set_mem st (mm st)) t (mkthread tl (FEmit e' :: fs))) (i_set_thread i t (IEmit ie' :: js)) L H.
Proof. intros HX. apply (emit_go _ (X st)); auto using same_refl. Qed.

Lemma emit_go_i m' X' tl e' :
  same (mm st) m' -> minv m' L H X' (B st) (A st) ->
  (forall k, X' k + frame_holds k (FEmit e) = X st k + frame_holds k (FEmit e')) ->
  e_sig e' = e_sig e -> e_prev e' = e_prev e ->
  emission_rel (world_of (mm st) L) (t_stopped tl) e' ie ->
  (e_phase e' = PInSlot -> t_current tl = e_cur e') ->
  rel (set_thread (set_mem st m') t (mkthread tl (FEmit e' :: fs))) i L H.
Proof. intros. rewrite <- i_self. eapply emit_go; eauto. Qed.

Lemma emit_same_i tl e' :
  (forall k, frame_holds k (FEmit e) = frame_holds k (FEmit e')) ->
  e_sig e' = e_sig e -> e_prev e' = e_prev e ->
  emission_rel (world_of (mm st) L) (t_stopped tl) e' ie ->
  (e_phase e' = PInSlot -> t_current tl = e_cur e') ->
  rel (set_thread (set_mem st (mm st)) t (mkthread tl (FEmit e' :: fs))) i L H.
Proof. intros. rewrite <- i_self. eapply emit_same; eauto. Qed.

Lemma cur_refs c : e_cur e = Some c ->
  match e_phase e with PLast | PFinish => False | _ => True end -> 0 < X st c /\ 0 < refs (mm st) c.
Proof.
  intros Ec Hp. assert (0 < X st c) as HX.
  { pose proof (em_X c) as F. cbn in F. rewrite Ec, hold_some in F. destruct (e_phase e); try contradiction; lia. }
  split; auto. eapply X_refs; eauto.
Qed.

Ltac go p := unfold outcome_ok; rewrite (tau_go st t th Et _ eq_refl); unfold tau_step; rewrite Es, p.

Lemma ok_blocked : e_phase e = PBlocked -> outcome_ok st t Tau i.
Proof.
  intros Ep. pose proof em_rel as (E1 & E2 & E3 & E4 & P). rewrite Ep in P.
  destruct P as (Hst & Hat & c & md & la & Ec & El & Sg & Td).
  destruct (cur_refs c Ec) as [HX Hp]; [rewrite Ep; auto|].
  go Ep. rewrite Ec. rewrite (get_slot_ok _ _ (mi_wf _ _ _ _ _ _ I0) Hp). cbn [lift blocked s_block].
  pose proof (blocked_is st i L H R c) as Hb.
  assert (blocked (mkslot true (refs (mm st) c) (conn (mm st) c) (blk (mm st) c) (nxt (mm st) c)) = i_blocked i c) as Hb'.
  { rewrite Hb. reflexivity. }
  rewrite Hb'.
  assert (forall p, match p with PBlocked | PValid | PAdvance => True | _ => False end ->
     forall k, frame_holds k (FEmit e) = frame_holds k (FEmit (at_phase e p))) as FH.
  { intros p Hpp k. cbn. rewrite Ep. destruct p; try contradiction; auto. }
  destruct Td as [Tf Tb]. cbn in Tf.
  destruct (connected (mm st) c) eqn:Ecn.
  - destruct (first_connected (connected (mm st)) c md (ie_todo ie)) as (dead & rest & Etodo & Hd & Hrest); auto.
    { cbn. rewrite Ecn. exact Tf. }
    assert (ideal_runs i [] (i_set_thread i t (IEmit (mkie (ie_id ie) (ie_sig ie) (c :: rest) false ITurn) :: js))) as Sk.
    { rewrite <- i_self at 1. rewrite ie_eta, Hat, E3, Hst, Etodo. apply skip_dead; [apply ilt|].
      intros s Hs. eapply conn_none; eauto. }
    eexists. exists L, H. split.
    { cbn [event_of]. rewrite <- (app_nil_r []). eapply ir_app; [exact Sk|].
      eapply ir_tau; [|constructor]. rewrite itau by apply ilt. cbn [i_tau ie_at ie_stop ie_todo ie_id ie_sig]. 
      change (i_blocked (i_set_thread i t _) c) with (i_blocked i c). reflexivity. }
    rewrite set_set.
    assert (todo_ok (world_of (mm st) L) md rest) as Td.
    { split; auto. intros s Hs. apply Tb. rewrite Etodo. apply in_or_app. right. right. auto. }
    apply emit_same; auto.
    + apply FH. destruct (i_blocked i c); auto.
    + unfold emission_rel. cbn [at_phase e_id e_sig e_cur e_last e_phase ie_id ie_sig ie_todo ie_stop ie_at].
      split; auto. split; auto. split; auto. split; auto. destruct (i_blocked i c).
      * exists c, md, la. auto 10.
      * split; auto. exists c, md, la. auto 10.
    + cbn. destruct (i_blocked i c); discriminate.
  - exists i, L, H. split; [constructor|].
    assert (todo_ok (world_of (mm st) L) md (ie_todo ie)) as Td by (split; auto).
    apply emit_same_i; auto.
    + apply FH. destruct (i_blocked i c); auto.
    + unfold emission_rel. cbn [at_phase e_id e_sig e_cur e_last e_phase].
      split; auto. split; auto. split; auto. split; auto. destruct (i_blocked i c).
      * exists c, md, la. auto 10.
      * split; auto. exists c, md, la. auto 10.
    + cbn. destruct (i_blocked i c); discriminate.
Qed.

Lemma ok_valid : e_phase e = PValid -> outcome_ok st t Tau i.
Proof.
  intros Ep. pose proof em_rel as (E1 & E2 & E3 & E4 & P). rewrite Ep in P.
  destruct P as (Hst & c & md & la & Ec & El & Sg & Td & Hat).
  destruct (cur_refs c Ec) as [HX Hp]; [rewrite Ep; auto|].
  go Ep. rewrite Ec. rewrite (get_slot_ok _ _ (mi_wf _ _ _ _ _ _ I0) Hp). cbn [lift].
  assert (valid (mkslot true (refs (mm st) c) (conn (mm st) c) (blk (mm st) c) (nxt (mm st) c)) = connected (mm st) c) as Hv.
  { unfold valid, connected. cbn. destruct (conn (mm st) c); auto. }
  rewrite Hv.
  assert (forall p, match p with PBlocked | PCall | PAdvance => True | _ => False end ->
     forall k, frame_holds k (FEmit e) = frame_holds k (FEmit (at_phase e p))) as FH.
  { intros p Hpp k. cbn. rewrite Ep. destruct p; try contradiction; auto. }
  destruct Hat as [Hat|[Hat Hn]].
  - eexists. exists L, H. split.
    { cbn [event_of]. eapply ir_tau; [|constructor]. unfold istep. rewrite Ei. cbn [i_tau]. rewrite Hat.
      rewrite (conn_is st i L H R). reflexivity. }
    apply emit_same; auto.
    + apply FH. destruct (connected (mm st) c); auto.
    + unfold emission_rel. cbn [at_phase e_id e_sig e_cur e_last e_phase ie_id ie_sig ie_todo ie_stop ie_at].
      split; auto. split; auto. split; auto. split; auto.
      destruct (connected (mm st) c); exists c, md, la; auto 10.
    + cbn. destruct (connected (mm st) c); discriminate.
  - cbn in Hn. rewrite Hn. exists i, L, H. split; [constructor|]. apply emit_same_i; auto.
    + unfold emission_rel. cbn [at_phase e_id e_sig e_cur e_last e_phase].
      split; auto. split; auto. split; auto. split; auto. exists c, md, la. auto 10.
    + discriminate.
Qed.

Lemma ok_call : e_phase e = PCall -> outcome_ok st t Tau i.
Proof.
  intros Ep. pose proof em_rel as (E1 & E2 & E3 & E4 & P). rewrite Ep in P.
  destruct P as (c & md & la & Ec & El & Sg & Td & Hat).
  destruct (cur_refs c Ec) as [HX Hp]; [rewrite Ep; auto|].
  go Ep. rewrite Ec. rewrite (get_slot_ok _ _ (mi_wf _ _ _ _ _ _ I0) Hp). cbn [lift].
  eexists. exists L, H. split.
  { cbn [event_of]. rewrite <- E1. change [ELib t (OCalled (ie_id ie) c)] with (event_of t Tau (OCalled (ie_id ie) c)).
    apply ir_one. unfold istep. rewrite Ei. cbn [i_tau]. rewrite Hat. reflexivity. }
  apply emit_same; auto.
  - intros k. cbn. rewrite Ep. auto.
  - unfold emission_rel. cbn [at_phase e_id e_sig e_cur e_last e_phase ie_id ie_sig ie_todo ie_stop ie_at t_stopped].
    split; auto. split; auto. split; auto. split; auto. exists c, md, la. auto 10.
Qed.

Lemma last_opt_app a (b : list nat) : b <> [] -> last_opt (a ++ b) = last_opt b.
Proof.
  intros Hb. induction a as [|x a IH]; auto. cbn. destruct (a ++ b) eqn:E; auto.
  destruct a; [contradiction|discriminate].
Qed.

Lemma last_opt_in l x : last_opt l = Some x -> In x l.
Proof.
  induction l as [|y l IH]; [discriminate|]. cbn. destruct l; intros E; [injection E as ->; left; auto|]. right. auto.
Qed.

Lemma ok_advance : e_phase e = PAdvance -> outcome_ok st t Tau i.
Proof.
  intros Ep. pose proof em_rel as (E1 & E2 & E3 & E4 & P). rewrite Ep in P.
  destruct P as (c & md & la & Ec & El & Sg & Td & Hat).
  destruct (cur_refs c Ec) as [HX Hp]; [rewrite Ep; auto|].
  go Ep. rewrite Ec, El. cbn [is_slot].
  pose proof Sg as (pre & post & EL & Hla). cbn in EL.
  assert (NoDup (c :: md)) as Nd.
  { pose proof (mi_nodup _ _ _ _ _ _ I0 (e_sig e)) as N. rewrite EL in N.
    change (NoDup (pre ++ (c :: md) ++ post)) in N. clear - N.
    induction pre as [|x pre IH]; cbn in N.
    - inversion N as [|? ? N1 N2]; subst. constructor; [intros W; apply N1, in_or_app; auto|].
      clear - N2. induction md as [|y md IH]; [constructor|]. inversion N2 as [|? ? N1 N3]; subst.
      constructor; auto. intros W; apply N1, in_or_app; auto.
    - inversion N; auto. }
  destruct (Nat.eqb_spec la c) as [Elc|Nlc]; cbn [orb].
  - assert (md = []) as Emd.
    { subst la. destruct md as [|d md]; auto. change (last_opt (d :: md) = Some c) in Hla. apply last_opt_in in Hla.
      inversion Nd; contradiction. }
    exists i, L, H. split; [constructor|]. apply emit_same_i; auto.
    + intros k. cbn. rewrite Ep. change (hold k None) with 0. lia.
    + unfold emission_rel. cbn [at_phase e_id e_sig e_cur e_last e_phase].
      split; auto. split; auto. split; auto. split; auto. split; auto. exists c, la. split; auto. split; auto. split; auto.
      right. now rewrite <- Emd.
    + discriminate.
  - destruct (t_stopped (th_tls th)) eqn:Est.
    + exists i, L, H. split; [constructor|]. apply emit_same_i; auto.
      * intros k. cbn. rewrite Ep. change (hold k None) with 0. lia.
      * unfold emission_rel. cbn [at_phase e_id e_sig e_cur e_last e_phase].
        split; auto. split; auto. split; [congruence|]. split; auto. split; auto. exists c, la. auto 10.
      * discriminate.
    + rewrite (get_sig_ok _ _ em_live), (get_slot_ok _ _ (mi_wf _ _ _ _ _ _ I0) Hp). cbn [lift s_next].
      pose proof (mi_chain _ _ _ _ _ _ I0 (e_sig e)) as Ch. rewrite EL in Ch. apply chain_next in Ch. destruct Ch as [En _].
      assert (md <> []) as Nm by (intros ->; cbn in Hla; congruence).
      assert (hd_opt (md ++ post) = hd_opt md) as Eh by (destruct md; [contradiction|auto]).
      rewrite En, Eh.
      destruct (add_ref_opt_ok _ _ _ _ _ _ (hd_opt md) I0) as (m' & E & I & Sm).
      { intros s Hs. eapply minv_in_refs; eauto. eapply (seg_in _ _ _ _ _ Sg). right.
        destruct md; [discriminate|]. injection Hs as ->. left; auto. }
      rewrite E. cbn [lift]. exists i, L, H. split; [constructor|]. 
      eapply emit_go_i; eauto.
      * intros k. cbn. rewrite Ep. rewrite !hold_eq. destruct (is_slot (hd_opt md) k); cbn [b2n]; lia.
      * cbn [th_tls t_stopped]. unfold emission_rel. cbn [at_phase e_id e_sig e_cur e_last e_phase].
        split; auto. split; auto. split; [congruence|]. split; auto. split; auto. exists c, la. split; auto. split; auto.
        exists md. auto 10.
      * discriminate.
Qed.

Lemma ok_prelease nx brk : e_phase e = PRelease nx brk -> outcome_ok st t Tau i.
Proof.
  intros Ep. pose proof em_rel as (E1 & E2 & E3 & E4 & P). rewrite Ep in P.
  destruct P as (Hat & c & la & Ec & El & Q).
  destruct (cur_refs c Ec) as [HX Hp]; [rewrite Ep; auto|].
  go Ep. rewrite Ec.
  destruct (release_ok _ _ _ _ _ _ c I0 HX) as (m' & E & I & Sm). rewrite E. cbn [lift].
  exists i, L, H. split; [constructor|]. 
  eapply emit_go_i; eauto.
  - intros k. cbn beta. cbn [frame_holds e_phase e_cur e_last]. rewrite Ep, Ec. rewrite (hold_eq k (Some c)). cbn [is_slot].
    assert (X st k >= b2n (Nat.eqb c k) + hold k nx + hold k (e_last e)) as F.
    { pose proof (em_X k) as F. cbn [frame_holds] in F. rewrite Ep, Ec, (hold_eq k (Some c)) in F. exact F. }
    rewrite (Nat.eqb_sym c k) in *.
    assert (brk = true -> nx = None) as Hb by (destruct brk; [intros _; apply Q|discriminate]).
    assert (hold k None = 0) as H0 by reflexivity.
    destruct brk; cbn [orb].
    + rewrite (Hb eq_refl) in *. destruct (Nat.eqb k c); cbn [b2n] in *; lia.
    + destruct nx as [x|]; cbn [is_some negb]; destruct (Nat.eqb k c); cbn [b2n] in *; lia.
  - unfold emission_rel. cbn [e_id e_sig e_cur e_last e_phase].
    split; auto. split; auto. split; auto. split; auto. destruct brk; cbn [orb].
    + right. split; auto. apply Q.
    + destruct Q as (md & Hst & Nm & Sg & En & Td). destruct md as [|d md]; [contradiction|]. cbn [hd_opt] in En. subst nx.
      cbn [is_some negb]. split; auto. split; auto. exists d, md, la. split; auto. split; auto. split; auto.
      destruct Sg as (pre & post & EL & Hla). exists (pre ++ [c]), post. rewrite <- app_assoc. split; auto.
  - cbn. destruct (brk || negb (is_some nx)); discriminate.
Qed.

Lemma ok_last : e_phase e = PLast -> outcome_ok st t Tau i.
Proof.
  intros Ep. pose proof em_rel as (E1 & E2 & E3 & E4 & P). rewrite Ep in P.
  go Ep.
  destruct (release_opt_ok _ _ _ _ _ _ (e_last e) I0) as (m' & E & I & Sm).
  { intros s Hs. pose proof (em_X s) as F. cbn in F. rewrite Ep, Hs, hold_some in F. lia. }
  assert (forall B0 (x y : B0), match e_cur e with Some _ => x | None => x end = x) as Hm by (intros; destruct (e_cur e); auto).
  assert (exists i' L' H', ideal_runs i (event_of t Tau ONone) i' /\
    rel (set_thread (set_mem st m') t (mkthread (th_tls th) (FEmit (at_phase e PFinish) :: fs))) i' L' H') as G.
  { exists i, L, H. split; [constructor|]. eapply emit_go_i; eauto.
    - intros k. cbn beta. cbn [frame_holds at_phase e_phase]. rewrite Ep.
      pose proof (em_X k) as F. cbn [frame_holds] in F. rewrite Ep in F. rewrite hold_eq in *.
      destruct (is_slot (e_last e) k); cbn [b2n] in *; lia.
    - unfold emission_rel. cbn [at_phase e_id e_sig e_cur e_last e_phase]. repeat (split; auto).
    - discriminate. }
  destruct (e_cur e); rewrite E; exact G.
Qed.

Lemma finish_ideal : e_phase e = PFinish -> ideal_runs i [ELib t (OEnded (e_id e))] (i_set_thread i t js).
Proof.
  intros Ep. pose proof em_rel as (E1 & E2 & E3 & E4 & P). rewrite Ep in P.
  assert (forall todo, ideal_runs (i_set_thread i t (IEmit (mkie (ie_id ie) (ie_sig ie) todo (ie_stop ie) IEnding) :: js)) [ELib t (OEnded (e_id e))] (i_set_thread i t js)) as Fin.
  { intros todo. change [ELib t (OEnded (e_id e))] with (event_of t Tau (OEnded (e_id e))). apply ir_one.
    rewrite itau by apply ilt. cbn [i_tau ie_at]. rewrite set_set. cbn [ie_id]. now rewrite E1. }
  destruct P as [P|[P [Q|Q]]].
  - rewrite <- i_self at 1. rewrite ie_eta, P. apply Fin.
  - rewrite <- i_self at 1. eapply ir_tau; [|apply (Fin (ie_todo ie))].
    rewrite itau by apply ilt. cbn [i_tau]. rewrite P, E3, Q, set_set. reflexivity.
  - destruct (t_stopped (th_tls th)) eqn:Est.
    + rewrite <- i_self at 1. eapply ir_tau; [|apply (Fin (ie_todo ie))].
      rewrite itau by apply ilt. cbn [i_tau]. rewrite P, E3, set_set. reflexivity.
    + rewrite <- i_self at 1. rewrite ie_eta, P, E3. rewrite <- (app_nil_l [ELib t (OEnded (e_id e))]).
      eapply ir_app.
      { rewrite <- (app_nil_r (ie_todo ie)). apply skip_dead; [apply ilt|]. intros s Hs.
        eapply conn_none; eauto. destruct Q as [Q _]. cbn in Q. symmetry in Q. eapply filter_nil_all; eauto. }
      eapply ir_tau; [|apply (Fin [])].
      rewrite itau by apply ilt. cbn [i_tau ie_at ie_stop ie_todo ie_id ie_sig]. rewrite set_set, E3. reflexivity.
Qed.

Lemma ok_finish : e_phase e = PFinish -> outcome_ok st t Tau i.
Proof.
  intros Ep. pose proof (finish_ideal Ep) as IR. set (g := e_sig e) in *.
  pose proof em_live as Hg. fold g in Hg.
  pose proof (mi_act _ _ _ _ _ _ I0 g) as Ha.
  assert (0 < A st g) as HAp.
  { apply A_pos. exists t, th, e. split; auto. rewrite Es. split; [left; auto|auto]. }
  destruct (set_active_ok _ _ _ _ _ _ g (gact (mm st) g - 1) I0 Hg) as (m1 & E1 & I1 & S1).
  assert (glive m1 g = true) as Hg1 by (rewrite (sm_glive _ _ S1); auto).
  assert (gact m1 g = gact (mm st) g - 1) as Ha1 by (rewrite (mi_act _ _ _ _ _ _ I1), fupd_same; auto).
  set (A' := fupd (A st) g (gact (mm st) g - 1)) in *.
  (* what happens to memory, whether or not dead slots are dropped *)
  assert (exists m' L' H', (if Nat.eqb (gact (mm st) g) 1 then cleanup m1 g else Ok m1) = Ok m' /\
            minv m' L' H' (X st) (B st) A' /\
            (forall k, conn m' k = conn (mm st) k) /\
            (forall k, glive m' k = glive (mm st) k) /\
            length (heap m') = length (heap (mm st)) /\ length (sigs m') = length (sigs (mm st)) /\
            (forall k, 0 < A' k -> L' k = L k) /\
            (forall k, filter (connected (mm st)) (L' k) = filter (connected (mm st)) (L k)) /\
            (forall k j, H' k = Some j -> H k = Some j) /\
            (forall k j, conn (mm st) k = Some j -> H' k = Some j) /\
            (forall k, L k = [] -> L' k = []) /\
            (forall k, gdfr m' k = true -> gdfr (mm st) k = true /\ (k = g -> gact (mm st) g <> 1)) /\
            (forall k j, H' k = Some j -> conn (mm st) k = None -> gdfr (mm st) j = true -> gdfr m' j = true)) as
    (m' & L' & H' & E2 & I & Sc & Sg & Sh & Ss & SL & SF & SH & SC & SN & D1 & D2).
  { assert (exists m' L' H', Ok m1 = Ok m' /\ minv m' L' H' (X st) (B st) A' /\ L' = L /\ H' = H /\ m' = m1) as (mx & Lx & Hx & _ & Ix & -> & -> & ->)
      by (exists m1, L, H; auto).
    destruct (Nat.eqb_spec (gact (mm st) g) 1) as [e1|n1].
    - destruct (gdfr m1 g) eqn:Ed.
      + destruct (cleanup_ok _ _ _ _ _ _ g I1 Hg1 ltac:(rewrite Ha1, e1; auto) Ed) as (m2 & E2 & I2 & [Sc Sd Sg Sh Ss]).
        assert (forall k, connected m1 k = connected (mm st) k) as Cn by (intros k; apply connected_eq, (sm_conn _ _ S1)).
        exists m2, (fupd L g (filter (connected m1) (L g))), (drop_dead m1 g H). split; auto. split; [exact I2|].
        split; [intros k; rewrite Sc; apply (sm_conn _ _ S1)|].
        split; [intros k; rewrite Sg; apply (sm_glive _ _ S1)|].
        split; [rewrite Sh; apply (sm_hlen _ _ S1)|]. split; [rewrite Ss; apply (sm_slen _ _ S1)|].
        split.
        { intros k Hk. unfold fupd. destruct (Nat.eqb_spec k g) as [Ekg|n]; auto. unfold A' in Hk. rewrite Ekg, fupd_same in Hk. lia. }
        split.
        { intros k. unfold fupd. destruct (Nat.eqb_spec k g) as [Ekg|n]; auto. rewrite (filter_ext _ _ Cn), filter_idem. now rewrite Ekg. }
        split.
        { intros k j. unfold drop_dead. destruct (H k) as [h|]; [|discriminate]. destruct (Nat.eqb h g && negb (connected m1 k)); [discriminate|auto]. }
        split.
        { intros k j Ek. pose proof (r_sender _ _ _ _ R _ _ Ek) as Hk. unfold drop_dead. rewrite Hk. rewrite Cn. unfold connected. rewrite Ek. cbn.
          now rewrite andb_false_r. }
        split.
        { intros k Ek. unfold fupd. destruct (Nat.eqb_spec k g) as [Ekg|n]; auto. rewrite <- Ekg, Ek. auto. }
        split.
        { intros k. rewrite Sd. unfold fupd. destruct (Nat.eqb_spec k g) as [Ekg|n]; [discriminate|]. rewrite (sm_dfr _ _ S1). split; auto; contradiction. }
        { intros k j E3 E4 E5. rewrite Sd. unfold fupd. destruct (Nat.eqb_spec j g) as [Ejg|n]; [|rewrite (sm_dfr _ _ S1); auto].
          exfalso. unfold drop_dead in E3. destruct (H k) as [h|]; [|discriminate].
          rewrite Cn in E3. unfold connected in E3. rewrite E4 in E3. cbn in E3. destruct (Nat.eqb_spec h g); cbn in E3; [discriminate|congruence]. }
      + rewrite (cleanup_nop _ _ Hg1 Ed). exists m1, L, H. split; auto. split; [exact Ix|].
        split; [apply (sm_conn _ _ S1)|]. split; [apply (sm_glive _ _ S1)|]. split; [apply (sm_hlen _ _ S1)|]. split; [apply (sm_slen _ _ S1)|].
        do 3 (split; [auto|]). split; [apply (r_sender _ _ _ _ R)|]. split; [auto|]. split.
        { intros k Ek. split; [rewrite <- (sm_dfr _ _ S1); auto|]. intros ->. congruence. }
        { intros k j _ _ Ek. rewrite (sm_dfr _ _ S1); auto. }
    - exists m1, L, H. split; auto. split; [exact Ix|].
      split; [apply (sm_conn _ _ S1)|]. split; [apply (sm_glive _ _ S1)|]. split; [apply (sm_hlen _ _ S1)|]. split; [apply (sm_slen _ _ S1)|].
      do 3 (split; [auto|]). split; [apply (r_sender _ _ _ _ R)|]. split; [auto|]. split.
      { intros k Ek. split; [rewrite <- (sm_dfr _ _ S1); auto|]. auto. }
      { intros k j _ _ Ek. rewrite (sm_dfr _ _ S1); auto. } }
  assert (forall hs bs lo fr k, A (mkstate m' (upd (threads st) t (mkthread (e_prev e) fs)) hs bs lo fr) k = A' k) as HA.
  { intros hs bs lo fr k. pose proof (A_upd st t th m' (e_prev e) fs hs bs lo fr k Et) as U.
    rewrite Es in U. cbn [tot frame_emits] in U. fold g in U. unfold A', fupd. rewrite (Nat.eqb_sym g k) in U.
    destruct (Nat.eqb_spec k g) as [Ekg|n]; cbn [b2n] in U; [rewrite Ekg in *|]; lia. }
  assert (forall k, emitting (mkstate m' (upd (threads st) t (mkthread (e_prev e) fs)) (handles st) (blockers st) (lost st) (fresh st)) k -> 0 < A' k) as Hem.
  { intros k Hk. apply A_pos in Hk. now rewrite HA in Hk. }
  assert (forall k, connected m' k = connected (mm st) k) as Cn by (intros k; apply connected_eq; auto).
  assert (mem_ok (others st t) L m' L') as M.
  { constructor; cbn; [lia| | |intros k _; now rewrite Sg].
    - intros k _. now rewrite Cn.
    - intros k (j & th' & e0 & Ej & Hi & Eg). exists [], []. rewrite app_nil_r. cbn. apply SL, Hem. exists j, th', e0. split; auto.
      cbn in Ej. cbns. destruct (Nat.eq_dec j t) as [Ejt|n].
      + subst j. rewrite nth_upd_same in Ej by (eapply nth_some_lt; eauto). injection Ej as <-. destruct Hi.
      + rewrite nth_upd_other in * by auto. auto. }
  assert (stack_rel (world_of m' L') (e_prev e) fs js) as Rs'.
  { eapply stack_rel_mono; [|apply em_rest]. split; [cbn; lia|]. split; [cbn; intros k _; now rewrite Cn|].
    split; [|split]; cbn.
    - intros e0 He. split.
      + exists [], []. rewrite app_nil_r. cbn. apply SL, Hem. exists t, (mkthread (e_prev e) fs), e0. cbns.
        rewrite nth_upd_same by (eapply nth_some_lt; eauto). auto.
      + rewrite Sg. change (w_live (world_of (mm st) L) (e_sig e0) = true). eapply stack_rel_emit; [apply em_rest|auto].
    - intros s k Hk. rewrite Sg. change (w_live (world_of (mm st) L) k = true). eapply stack_rel_disc; [apply em_rest|eauto].
    - intros k s. eapply minv_bound; eauto. }
  pose proof (threads_upd_others _ _ _ _ _ _ _ _ _ _ R M (nth_some_lt _ _ _ Et) Rs') as Th.
  assert (step st t Tau = Next (set_thread (set_mem st m') t (mkthread (e_prev e) fs)) (OEnded (e_id e))) as Step.
  { rewrite (tau_go st t th Et _ eq_refl). unfold tau_step. rewrite Es, Ep.
    fold g. destruct (e_cur e); rewrite (get_sig_ok _ _ Hg); cbn [lift g_active]; rewrite E1; cbn [lift]; rewrite E2; reflexivity. }
  unfold outcome_ok. rewrite Step. cbn [event_of].
  exists (i_set_thread i t js), L', H'. split; [exact IR|].
  clear IR Step E2 M Rs' E1 Hem.
  destruct R as [r_minv0 r_sender0 r_dead0 r_dfr0 r_gone0 r_handles0 r_blockers0 r_fresh0 r_slen0 r_slots0 r_olen0 r_order0 r_llen0 r_live0 r_threads0].
  constructor; unfold i_set_thread; cbns; auto.
  - eapply minv_ext; [exact I|auto|auto| |auto|auto]. intros k.
    pose proof (X_upd st t th m' (e_prev e) fs k Et) as U. rewrite Es in U. cbn [tot frame_holds] in U. rewrite Ep in U. lia.
  - intros k j Ek. rewrite Sc in Ek. auto.
  - intros k j E1 E2. rewrite Sc in E2. destruct (r_dead0 k j (SH _ _ E1) E2) as [D|D]; [left; eauto|].
    right. eapply mid_upd; eauto. rewrite Es. destruct (region_dec k j fs) as [Y|Y]; [left; auto|].
    right. intros [W|W]; [congruence|contradiction].
  - intros k Ek. rewrite HA. destruct (D1 k Ek) as [Dk Dg]. unfold A', fupd. destruct (Nat.eqb_spec k g) as [Ekg|n]; auto.
    specialize (Dg Ekg). lia.
  - intros k Ek. rewrite Sg in Ek. auto.
  - congruence.
  - intros k. rewrite Sc. auto.
  - congruence.
  - intros k. rewrite r_order0. rewrite (filter_ext _ _ Cn). symmetry. apply SF.
  - congruence.
  - intros k. rewrite Sg. auto.
Qed.

End Emit.
