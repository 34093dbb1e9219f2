(** Emissions and disconnects end when their thread keeps running. *)
From Coq Require Import List Arith Bool Lia.
From Verif Require Import Base XinfoProofs SignalModel SignalSpec SignalMemProofs SignalRelProofs SignalStepProofs SignalFrameProofs SignalTauProofs SignalEmitProofs SignalRunProofs SignalDeadProofs SignalTraceProofs SignalCallProofs.
Import ListNotations.
Local Open Scope outcome_scope.

Definition same_links (m m' : mem) : Prop :=
  sigs m' = sigs m /\ length (heap m') = length (heap m) /\
  forall k, option_map s_next (nth_error (heap m') k) = option_map s_next (nth_error (heap m) k).

Lemma links_refl m : same_links m m.
Proof. split; auto. Qed.
Lemma links_trans a b c : same_links a b -> same_links b c -> same_links a c.
Proof. intros (A1 & A2 & A3) (B1 & B2 & B3). split; [|split]; congruence. Qed.

Lemma put_links m s x y : nth_error (heap m) s = Some x -> s_next y = s_next x -> same_links m (put_slot m s y).
Proof.
  intros E H. split; [|split]; auto; cbn; [apply length_upd|]. intros k. rewrite nth_upd by (apply nth_error_Some; congruence).
  destruct (Nat.eqb_spec k s) as [-> | n]; auto. rewrite E. cbn. congruence.
Qed.

Lemma add_ref_links m s m' : add_ref m s = Ok m' -> same_links m m'.
Proof.
  unfold add_ref, get_slot. destruct (nth_error (heap m) s) as [x|] eqn:E; [|discriminate]. destruct (s_live x); [|discriminate].
  cbn. intros W. injection W as <-. eapply put_links; eauto.
Qed.
Lemma release_links m s m' : release m s = Ok m' -> same_links m m'.
Proof.
  unfold release, get_slot. destruct (nth_error (heap m) s) as [x|] eqn:E; [|discriminate]. destruct (s_live x); [|discriminate].
  cbn. destruct (s_refs x); [discriminate|]. intros W. injection W as <-. eapply put_links; eauto.
Qed.
Lemma add_ref_opt_links m o m' : add_ref_opt m o = Ok m' -> same_links m m'.
Proof. destruct o; cbn; [apply add_ref_links|]. intros W. injection W as <-. apply links_refl. Qed.

Lemma walk_links m m' : same_links m m' -> forall fuel o, walk (heap m') fuel o = walk (heap m) fuel o.
Proof.
  intros (_ & _ & H). induction fuel as [|f IH]; intros [s|]; cbn; auto. specialize (H s).
  destruct (nth_error (heap m') s), (nth_error (heap m) s); cbn in H; try discriminate; auto. injection H as ->. now rewrite IH.
Qed.
Lemma listed_links st st' g : same_links (mm st) (mm st') -> listed st' g = listed st g.
Proof.
  intros Hl. pose proof Hl as (H1 & H2 & _). unfold listed. rewrite H1, H2. destruct (nth_error (sigs (mm st)) g); auto.
  apply walk_links; auto.
Qed.

Fixpoint after (c : nat) (l : list nat) : list nat :=
  match l with [] => [] | x :: l' => if Nat.eqb x c then l' else after c l' end.

Lemma after_seg pre c l : NoDup (pre ++ c :: l) -> after c (pre ++ c :: l) = l.
Proof.
  induction pre as [|x pre IH]; cbn; intros N.
  - now rewrite Nat.eqb_refl.
  - inversion N; subst. destruct (Nat.eqb_spec x c) as [-> | n]; auto. exfalso. apply H1. apply in_or_app. right; left; auto.
Qed.

Definition rank (p : phase) : nat :=
  match p with
  | PBlocked => 7 | PValid => 6 | PCall => 5 | PInSlot => 4 | PAdvance => 3 | PRelease _ _ => 2 | PLast => 1 | PFinish => 0
  end.
Definition dist (st : state) (em : emission) : nat :=
  match e_phase em, e_cur em with
  | PLast, _ | PFinish, _ => 0
  | _, Some c => length (after c (listed st (e_sig em)))
  | _, None => 0
  end.
Definition meas (st : state) (em : emission) : nat := 10 * dist st em + rank (e_phase em).

Lemma alone_runs t st evs st' : alone t st evs st' -> runs st evs st'.
Proof.
  intros A. induction A as [|st l st1 r evs st2 Hl E A IH]; [constructor|]. econstructor; eauto. destruct Hl as [-> | ->]; exact I.
Qed.
Lemma alone_app t st evs st' evs' st'' : alone t st evs st' -> alone t st' evs' st'' -> alone t st (evs ++ evs') st''.
Proof.
  intros A. induction A as [|st l st1 r evs st2 Hl E A IH]; intros B; auto. rewrite <- app_assoc. econstructor; eauto.
Qed.

Lemma dist_keep st st' em em' : same_links (mm st) (mm st') -> e_cur em' = e_cur em -> e_sig em' = e_sig em ->
  e_phase em <> PLast -> e_phase em <> PFinish -> rank (e_phase em') < rank (e_phase em) -> meas st' em' < meas st em.
Proof.
  intros Hl Hc Hs N1 N2 Hr. assert (dist st' em' <= dist st em); [|unfold meas; lia].
  unfold dist. rewrite Hc, Hs, (listed_links _ _ _ Hl).
  destruct (e_phase em); try congruence; destruct (e_phase em'), (e_cur em); lia.
Qed.

Lemma emit_progress n evs st t th em fs :
  runs (init n) evs st -> nth_error (threads st) t = Some th -> th_stack th = FEmit em :: fs ->
  exists l st' r th', (l = Tau \/ l = User UReturn) /\ step st t l = Next st' r /\ nth_error (threads st') t = Some th' /\
    (e_phase em = PFinish /\ r = OEnded (e_id em) /\ th_stack th' = fs /\ th_tls th' = e_prev em \/
     exists em', th_stack th' = FEmit em' :: fs /\ e_id em' = e_id em /\ e_prev em' = e_prev em /\ meas st' em' < meas st em).
Proof.
  intros Rn Et Es. assert (t < length (threads st)) as Ht by (apply nth_error_Some; congruence).
  assert (forall th', nth_error (upd (threads st) t th') t = Some th') as Here by (intros; apply nth_upd_same; auto).
  destruct (e_phase em) eqn:Ep.
  4: { exists (User UReturn). assert (user_ready th = true) as Hu by (unfold user_ready; now rewrite Es, Ep).
       eexists. eexists. eexists. split; [auto|]. unfold step. rewrite Et, Hu. cbn [user_step]. rewrite Es. split; [reflexivity|].
       split; [apply Here|]. right. eexists. split; [reflexivity|]. split; [reflexivity|]. split; [reflexivity|].
       apply dist_keep; try (rewrite Ep; discriminate); auto; [apply links_refl|]. rewrite Ep. cbn. lia. }
  all: assert (user_ready th = false) as Hu by (unfold user_ready; now rewrite Es, Ep).
  all: destruct (safe _ _ _ t Tau Rn I) as (_ & _ & Hsafe); destruct (Hsafe th Et Hu) as (st' & r & E).
  all: exists Tau, st', r; pose proof E as E0; unfold step in E; rewrite Et in E; unfold tau_step, lift in E; rewrite Es, Ep in E.
  5: { destruct (e_cur em) as [c|] eqn:Ec; [|discriminate]. destruct (release (mm st) c) as [m'| |] eqn:Er; try discriminate. inj E.
       eexists. split; [auto|]. split; [exact E0|]. split; [apply Here|]. right. eexists. split; [reflexivity|]. split; [reflexivity|].
       split; [reflexivity|].
       destruct (reach_rel _ _ _ Rn) as (i & L & H & _ & R).
       destruct (Forall2_nth _ _ _ _ _ (r_threads _ _ _ _ R) Et) as (is & Ei & Rs). cbn beta in Rs. rewrite Es in Rs.
       destruct is as [|[ie|k fin] js]; cbn [stack_rel] in Rs; try contradiction.
       destruct Rs as ((_ & _ & _ & _ & P) & _). rewrite Ep in P. destruct P as (_ & c' & la & Hc & Hla & P).
       destruct (brk || negb (is_some next)) eqn:Eb.
       { unfold meas. cbn. rewrite Ep. cbn. lia. }
       destruct brk; [discriminate|]. destruct P as (md & _ & Hmd & Sg & Hnx & _). assert (c' = c) as -> by congruence.
       destruct Sg as (pre & post & EL & _). destruct md as [|x md]; [congruence|]. cbn in Hnx. subst next.
       pose proof (mi_nodup _ _ _ _ _ _ (r_minv _ _ _ _ R) (e_sig em)) as N. cbn [world_of w_list] in EL. rewrite EL in N.
       unfold meas, dist. cbn [e_phase e_cur e_sig]. rewrite Ep, Ec.
       rewrite (listed_links st) by (cbn; eapply release_links; eauto). rewrite (listed_is _ _ _ _ (e_sig em) R), EL.
       cbn [app] in *. rewrite (after_seg pre c) by auto.
       replace (pre ++ c :: x :: md ++ post) with ((pre ++ [c]) ++ x :: md ++ post) in * by (rewrite <- app_assoc; auto).
       rewrite after_seg by auto. cbn. lia. }
  all: break E.
  all: inj E.
  all: eexists.
  all: (split; [auto|]).
  all: (split; [exact E0|]).
  all: (split; [apply Here|]).
  all: try solve [left; auto].
  all: right; eexists.
  all: (split; [reflexivity|]).
  all: (split; [reflexivity|]).
  all: (split; [reflexivity|]).
  all: try solve [apply dist_keep; try (rewrite Ep; discriminate); auto; [apply links_refl|]; rewrite Ep; cbn; lia].
  all: try solve [unfold meas, dist; rewrite Ep; cbn; lia].
  all: apply dist_keep; try (rewrite Ep; discriminate); auto; [|rewrite Ep; cbn; lia]; cbn; eapply add_ref_opt_links; eauto.
Qed.

Lemma emission_ends n : forall k evs st t th em fs,
  runs (init n) evs st -> nth_error (threads st) t = Some th -> th_stack th = FEmit em :: fs -> meas st em <= k ->
  exists evs' st' th', alone t st evs' st' /\ nth_error (threads st') t = Some th' /\ th_stack th' = fs /\ th_tls th' = e_prev em /\
    In (ELib t (OEnded (e_id em))) evs'.
Proof.
  induction k as [|k IH]; intros evs st t th em fs Rn Et Es Hm.
  all: destruct (emit_progress _ _ _ _ _ _ _ Rn Et Es) as (l & st' & r & th' & Hl & E & Et' & [(Hp & -> & Hf & Htl)|(em' & Hf & Hid & Hpr & Hm')]); [|try lia].
  1,2: exists (event_of t l (OEnded (e_id em)) ++ []), st', th'; split; [eapply AL_step; eauto; constructor|]; split; [auto|]; split; [auto|]; split; [auto|].
  1,2: destruct Hl as [-> | ->]; [left; auto|]; unfold step in E; rewrite Et in E; destruct (user_ready th); [|discriminate]; cbn [user_step] in E; rewrite Es in E; discriminate.
  assert (respectful st l) as Hr by (destruct Hl as [-> | ->]; exact I).
  destruct (IH (evs ++ event_of t l r) st' t th' em' fs) as (evs' & st2 & th2 & A & E2 & S2 & T2 & I2); auto; [|lia|].
  - eapply runs_app; eauto. eapply runs_one; eauto.
  - exists (event_of t l r ++ evs'), st2, th2. split; [eapply AL_step; eauto|]. split; auto. split; auto. split; [congruence|].
    apply in_or_app. right. rewrite <- Hid. auto.
Qed.

Lemma disc_progress n evs st t th s d fs :
  runs (init n) evs st -> nth_error (threads st) t = Some th -> th_stack th = FDisc s d :: fs ->
  exists evs' st' th', alone t st evs' st' /\ nth_error (threads st') t = Some th' /\ th_stack th' = fs /\ th_tls th' = th_tls th.
Proof.
  set (rk := fun d => match d with DExchange => 2 | DRegion _ => 1 | DRelease => 0 end).
  remember (rk d) as k eqn:Hk. revert evs st th d Hk. induction k as [k IH] using lt_wf_ind. intros evs st th d -> Rn Et Es.
  assert (t < length (threads st)) as Ht by (apply nth_error_Some; congruence).
  assert (forall th', nth_error (upd (threads st) t th') t = Some th') as Here by (intros; apply nth_upd_same; auto).
  assert (user_ready th = false) as Hu by (unfold user_ready; now rewrite Es).
  destruct (safe _ _ _ t Tau Rn I) as (_ & _ & Hsafe). destruct (Hsafe th Et Hu) as (st' & r & E). pose proof E as E0.
  assert (forall th' d', nth_error (threads st') t = Some th' -> th_stack th' = FDisc s d' :: fs -> rk d' < rk d -> th_tls th' = th_tls th ->
    exists evs' st' th', alone t st evs' st' /\ nth_error (threads st') t = Some th' /\ th_stack th' = fs /\ th_tls th' = th_tls th) as Go.
  { intros th' d' Et' Es' Hlt Htl. destruct (IH _ Hlt (evs ++ event_of t Tau r) st' th' d' eq_refl) as (evs' & st2 & th2 & A & E2 & S2 & T2); auto.
    - eapply runs_app; eauto. apply runs_one; auto. exact I.
    - exists (event_of t Tau r ++ evs'), st2, th2. split; [eapply AL_step; eauto|]. split; auto. split; auto. congruence. }
  unfold step in E. rewrite Et in E. unfold tau_step, lift in E. rewrite Es in E. destruct d as [|g|]; break E; inj E.
  - eapply Go; [apply Here|reflexivity| |reflexivity]. cbn. lia.
  - eapply Go; [apply Here|reflexivity| |reflexivity]. cbn. lia.
  - eapply Go; [apply Here|reflexivity| |reflexivity]. cbn. lia.
  - eexists. eexists. eexists. split; [eapply AL_step; [left; reflexivity|exact E0|constructor]|]. split; [apply Here|]. auto.
Qed.

(** Any thread can come back to its outermost user code by itself. *)
Lemma thread_ends n evs st t th :
  runs (init n) evs st -> nth_error (threads st) t = Some th ->
  exists evs' st' th', alone t st evs' st' /\ nth_error (threads st') t = Some th' /\ th_stack th' = [].
Proof.
  remember (th_stack th) as fs eqn:Es. revert evs st th Es. induction fs as [|f fs IH]; intros evs st th Es Rn Et.
  - exists [], st, th. split; [constructor|auto].
  - assert (exists evs' st' th', alone t st evs' st' /\ nth_error (threads st') t = Some th' /\ th_stack th' = fs) as (evs' & st' & th' & A & E & S).
    { destruct f as [em|s d].
      - destruct (emission_ends n (meas st em) _ _ _ _ _ _ Rn Et (eq_sym Es) (le_n _)) as (a & b & c & A & E & S & _). eauto 10.
      - destruct (disc_progress _ _ _ _ _ _ _ _ Rn Et (eq_sym Es)) as (a & b & c & A & E & S & _). eauto 10. }
    destruct (IH (evs ++ evs') st' th' (eq_sym S)) as (e2 & st2 & th2 & A2 & E2 & S2); auto.
    { eapply runs_app; eauto. eapply alone_runs; eauto. }
    exists (evs' ++ e2), st2, th2. split; [eapply alone_app; eauto|auto].
Qed.
