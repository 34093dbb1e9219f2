(** Blockers, references, released slots; swapped, moved, destroyed signals. *)
From Coq Require Import List Arith Bool Lia.
From Verif Require Import Base XinfoProofs SignalModel SignalSpec SignalMemProofs SignalRelProofs SignalStepProofs SignalFrameProofs SignalTauProofs SignalEmitProofs SignalRunProofs SignalDeadProofs SignalTraceProofs SignalCallProofs SignalEndProofs.
Import ListNotations.
Local Open Scope outcome_scope.

(* --------------------------------------------------------------- blockers *)

Lemma block_count n evs st s x : runs (init n) evs st -> nth_error (heap (mm st)) s = Some x -> s_block x = blockers_on st s.
Proof. intros Rn E. destruct (reach_rel _ _ _ Rn) as (i & L & H & _ & R). eapply blk_count; eauto. Qed.

Lemma skip_exact n evs st t th em fs s :
  runs (init n) evs st -> nth_error (threads st) t = Some th -> th_stack th = FEmit em :: fs -> e_phase em = PBlocked -> e_cur em = Some s ->
  exists st' th', step st t Tau = Next st' ONone /\ nth_error (threads st') t = Some th' /\
    th_stack th' = FEmit (at_phase em (if Nat.eqb (blockers_on st s) 0 then PValid else PAdvance)) :: fs.
Proof.
  intros Rn Et Es Ep Ec. destruct (reach_rel _ _ _ Rn) as (i & L & H & _ & R).
  assert (In (FEmit em) (th_stack th)) as Hi by (rewrite Es; left; auto).
  destruct (frame_cur_exists _ _ _ _ _ _ _ _ R Et Hi Ep Ec) as [x Ex].
  assert (user_ready th = false) as Hu by (unfold user_ready; now rewrite Es, Ep).
  destruct (safe _ _ _ t Tau Rn I) as (_ & _ & Hsafe). destruct (Hsafe th Et Hu) as (st' & r & E). pose proof E as E0.
  unfold step in E. rewrite Et in E. unfold tau_step, lift in E. rewrite Es, Ep, Ec in E. unfold get_slot in E. rewrite Ex in E.
  destruct (s_live x); [|discriminate]. inj E. eexists. eexists. split; [exact E0|].
  split; [apply nth_upd_same; apply nth_error_Some; cbn; congruence|]. cbn. unfold blocked. rewrite (blk_count _ _ _ _ _ _ R Ex).
  destruct (Nat.eqb (blockers_on st s) 0); auto.
Qed.

(* --------------------------------------------------------------- references *)

Lemma tot_exists {T} (f : T -> nat) (p : T -> bool) l : (forall a, p a = true <-> 0 < f a) -> (existsb p l = true <-> 0 < tot f l).
Proof.
  intros Hp. induction l as [|a l IH]; cbn; [split; [discriminate|lia]|]. rewrite orb_true_iff, IH, Hp. lia.
Qed.
Lemma refers_hold s o : refers s o = true <-> 0 < hold s o.
Proof. unfold refers, hold, is_slot. destruct o as [k|]; cbn; [|split; [discriminate|lia]]. destruct (Nat.eqb k s); cbn; split; auto; try discriminate; lia. Qed.
Lemma frame_refers_hold s f : frame_refers s f = true <-> 0 < frame_holds s f.
Proof.
  pose proof (refers_hold s) as Q. destruct f as [e|k d]; cbn.
  - destruct (e_phase e); rewrite ?orb_true_iff, ?Q; split; try lia; try discriminate.
  - destruct (Nat.eqb k s); cbn; split; auto; try discriminate; lia.
Qed.

Lemma referenced_X st s : referenced st s = true <-> 0 < X st s.
Proof.
  unfold referenced, X. rewrite !orb_true_iff.
  rewrite (tot_exists (hold s) (refers s)) by apply refers_hold. rewrite (tot_exists (hold s) (refers s)) by apply refers_hold.
  rewrite (tot_exists (thread_holds s) (fun th => existsb (frame_refers s) (th_stack th))).
  2: { intros th. unfold thread_holds. apply tot_exists. apply frame_refers_hold. }
  rewrite (tot_exists (fun k => b2n (Nat.eqb k s)) (Nat.eqb s)).
  2: { intros k. rewrite (Nat.eqb_sym s k). destruct (Nat.eqb k s); cbn; split; auto; try discriminate; lia. }
  lia.
Qed.

Lemma live_exact n evs st s x : runs (init n) evs st -> nth_error (heap (mm st)) s = Some x ->
  (s_live x = true <-> (exists g, In s (listed st g)) \/ referenced st s = true).
Proof.
  intros Rn E. destruct (reach_rel _ _ _ Rn) as (i & L & H & _ & R). pose proof (r_minv _ _ _ _ R) as I.
  rewrite referenced_X. pose proof (mi_wf _ _ _ _ _ _ I s x E) as W. pose proof (mi_refs _ _ _ _ _ _ I s) as K.
  unfold refs, slot_view in K. rewrite E in K. rewrite W.
  assert ((exists g, In s (listed st g)) <-> 0 < held H s) as ->.
  { unfold held. split.
    - intros [g Hg]. rewrite (listed_is _ _ _ _ _ R) in Hg. apply (mi_in _ _ _ _ _ _ I) in Hg. rewrite Hg. lia.
    - destruct (H s) as [g|] eqn:Eh; [|lia]. intros _. exists g. rewrite (listed_is _ _ _ _ _ R). now apply (mi_in _ _ _ _ _ _ I). }
  destruct (Nat.eqb_spec (s_refs x) 0); cbn; split; try discriminate; try lia; auto.
Qed.

Lemma refs_exact n evs st s x : runs (init n) evs st -> nth_error (heap (mm st)) s = Some x ->
  s_live x = true -> 0 < s_refs x.
Proof.
  intros Rn E Hl. destruct (reach_rel _ _ _ Rn) as (i & L & H & _ & R).
  pose proof (mi_wf _ _ _ _ _ _ (r_minv _ _ _ _ R) s x E) as W. rewrite Hl in W. destruct (s_refs x); [discriminate|lia].
Qed.

Lemma active_exact n evs st g r : runs (init n) evs st -> nth_error (sigs (mm st)) g = Some r -> g_active r = running st g.
Proof.
  intros Rn E. destruct (reach_rel _ _ _ Rn) as (i & L & H & _ & R).
  pose proof (mi_act _ _ _ _ _ _ (r_minv _ _ _ _ R) g) as K. unfold gact, sig_view in K. rewrite E in K. rewrite K.
  unfold A, running. induction (threads st) as [|th ths IH]; cbn; auto. rewrite filter_app, app_length, <- IH. f_equal.
  unfold thread_emits. induction (th_stack th) as [|f fs IHf]; cbn; auto. rewrite IHf. destruct f as [e|k d]; cbn; auto.
  destruct (Nat.eqb (e_sig e) g); auto.
Qed.

(* ---------------------------------------------------------- nothing dead kept *)

Lemma act_zero st i L H g : rel st i L H -> ~ emitting st g -> gact (mm st) g = 0.
Proof. intros R He. rewrite (mi_act _ _ _ _ _ _ (r_minv _ _ _ _ R)). rewrite <- A_pos in He. lia. Qed.

Lemma no_dead_listed n evs st g s : runs (init n) evs st -> ~ emitting st g -> ~ disconnecting st g ->
  In s (listed st g) -> sender st s = Some g.
Proof.
  intros Rn He Hd Hs. destruct (reach_rel _ _ _ Rn) as (i & L & H & _ & R). rewrite (listed_is _ _ _ _ _ R) in Hs. rewrite sender_is.
  eapply all_connected; eauto. eapply act_zero; eauto.
Qed.

Lemma dead_freed n evs st s x : runs (init n) evs st -> (forall g, ~ emitting st g /\ ~ disconnecting st g) ->
  nth_error (heap (mm st)) s = Some x -> sender st s = None -> referenced st s = false -> s_live x = false.
Proof.
  intros Rn Hq E Hs Hr. destruct (s_live x) eqn:Hl; auto. apply (live_exact _ _ _ _ _ Rn E) in Hl. destruct Hl as [[g Hg]|Hl]; [|congruence].
  destruct (Hq g) as [He Hd]. rewrite (no_dead_listed _ _ _ _ _ Rn He Hd Hg) in Hs. discriminate.
Qed.

(* --------------------------------------------------------------- leaks *)

Lemma lost_step st t l st' r : step st t l = Next st' r -> l <> User UThrow -> lost st' = lost st.
Proof.
  intros E Hl. unfold step in E. destruct (nth_error (threads st) t) as [th|]; [|discriminate]. destruct l as [o|].
  - destruct (user_ready th); [|discriminate]. destruct o; cbn [user_step] in E; unfold lift in E; break E; inj E; auto. congruence.
  - unfold tau_step, lift in E. destruct (th_stack th) as [|[e|s d] fs]; [discriminate| |].
    + destruct (e_phase e); break E; try discriminate E; inj E; auto.
    + break E; inj E; auto.
Qed.

Lemma lost_keeps st t l st' r s : step st t l = Next st' r -> In s (lost st) -> In s (lost st').
Proof.
  intros E Hi. assert (l = User UThrow \/ l <> User UThrow) as [-> | n].
  { destruct l as [o|]; [destruct o; auto; right; discriminate|right; discriminate]. }
  - unfold step in E. destruct (nth_error (threads st) t) as [th|]; [|discriminate]. destruct (user_ready th); [|discriminate].
    cbn [user_step] in E. break E; inj E; cbn; auto.
  - now rewrite (lost_step _ _ _ _ _ E n).
Qed.

Lemma leaked_forever n evs st evs' st' s : runs (init n) evs st -> In s (lost st) -> runs st evs' st' ->
  exists x, nth_error (heap (mm st')) s = Some x /\ s_live x = true.
Proof.
  intros Rn Hi Rn'. assert (In s (lost st')) as Hi'.
  { clear Rn. induction Rn' as [|st t l st1 r evs' st2 Hr E Rn' IH]; auto. apply IH. eapply lost_keeps; eauto. }
  pose proof (runs_app _ _ _ _ _ Rn Rn') as Ra. destruct (reach_rel _ _ _ Ra) as (i & L & H & _ & R). pose proof (r_minv _ _ _ _ R) as I.
  assert (0 < X st' s) as Hx.
  { unfold X. pose proof (tot_in (fun k => b2n (Nat.eqb k s)) _ _ Hi') as T. cbn in T. rewrite Nat.eqb_refl in T. cbn in T. lia. }
  pose proof (mi_refs _ _ _ _ _ _ I s) as K. assert (0 < refs (mm st') s) as Hr by lia. pose proof (refs_range _ _ Hr) as Hl.
  apply nth_error_Some in Hl. destruct (nth_error (heap (mm st')) s) as [x|] eqn:E; [|congruence].
  exists x. split; auto. rewrite (mi_wf _ _ _ _ _ _ I s x E). unfold refs, slot_view in Hr. rewrite E in Hr. destruct (s_refs x); [lia|auto].
Qed.

Lemma no_leak n evs st s x : runs (init n) evs st -> ~ throws evs -> all_gone st -> nth_error (heap (mm st)) s = Some x -> s_live x = false.
Proof.
  intros Rn Ht (G1 & G2 & G3 & G4) E. destruct (s_live x) eqn:Hl; auto. exfalso.
  assert (forall st0 evs0 st1, runs st0 evs0 st1 -> ~ throws evs0 -> lost st1 = lost st0) as Lo.
  { clear. intros st0 evs0 st1 Rn. induction Rn as [|st t l st1 r evs' st2 Hr E Rn' IH]; intros Ht; auto. rewrite IH.
    - eapply lost_step; eauto. intros ->. apply Ht. exists t, r. left; auto.
    - intros (u & r' & Hi). apply Ht. exists u, r'. apply in_or_app. auto. }
  pose proof (Lo _ _ _ Rn Ht) as El. cbn in El.
  apply (live_exact _ _ _ _ _ Rn E) in Hl. destruct Hl as [[g Hg]|Hl].
  - destruct (reach_rel _ _ _ Rn) as (i & L & H & _ & R). rewrite (listed_is _ _ _ _ _ R) in Hg.
    rewrite (r_gone _ _ _ _ R g) in Hg; [destruct Hg|]. unfold glive, sig_view. destruct (nth_error (sigs (mm st)) g) as [r|] eqn:Er; auto.
    apply G4. eapply nth_error_In; eauto.
  - unfold referenced in Hl. rewrite El in Hl. cbn in Hl. rewrite orb_false_r in Hl. apply orb_true_iff in Hl. destruct Hl as [Hl|Hl].
    + apply orb_true_iff in Hl. destruct Hl as [Hl|Hl]; apply existsb_exists in Hl; destruct Hl as (o & Ho & Hr).
      * rewrite (G1 _ Ho) in Hr. discriminate.
      * rewrite (G2 _ Ho) in Hr. discriminate.
    + apply existsb_exists in Hl. destruct Hl as (th & Hth & Hr). rewrite (G3 _ Hth) in Hr. discriminate.
Qed.

(* ------------------------------------------------------------ swap and move *)

Lemma listed_minv m L H X B A g th hs bs lo fr : minv m L H X B A -> listed (mkstate m th hs bs lo fr) g = L g.
Proof.
  intros I. unfold listed. cbn [mm]. destruct (nth_error (sigs m) g) as [r|] eqn:E.
  - apply chain_walk.
    + pose proof (mi_chain _ _ _ _ _ _ I g) as C. unfold ghead, sig_view in C. rewrite E in C. exact C.
    + intros s Hs. eapply minv_bound; eauto.
    + pose proof (list_bound _ _ _ _ _ _ g I). lia.
  - apply nth_error_None in E. destruct (minv_out _ _ _ _ _ _ g I E) as [EL _]. auto.
Qed.

Definition exchange (a b k : nat) : nat := if Nat.eqb k a then b else if Nat.eqb k b then a else k.

Lemma swap_effect n evs st t a b st' r : runs (init n) evs st -> respectful st (User (USwap a b)) ->
  step st t (User (USwap a b)) = Next st' r ->
  (forall s, sender st' s = option_map (fun k => if Nat.eqb k a then b else if Nat.eqb k b then a else k) (sender st s)) /\
  slots_of st' a = slots_of st b /\ slots_of st' b = slots_of st a /\
  (forall g, g <> a -> g <> b -> slots_of st' g = slots_of st g).
Proof.
  intros Rn Hd E. destruct (reach_rel _ _ _ Rn) as (i & L & H & _ & R). cbn [respectful] in Hd.
  unfold step in E. destruct (nth_error (threads st) t) as [th|]; [|discriminate]. destruct (user_ready th); [|discriminate].
  cbn [user_step] in E. destruct (sig_live (mm st) a) eqn:Ea; [|discriminate]. destruct (sig_live (mm st) b) eqn:Eb; [|discriminate]. cbn [andb] in E.
  assert (glive (mm st) a = true) as Ha by exact Ea. assert (glive (mm st) b = true) as Hb by exact Eb.
  destruct (Nat.eq_dec a b) as [<- | nab].
  - unfold swap_sigs in E. rewrite Nat.eqb_refl in E. cbn in E. inj E.
    assert (forall s, sender (set_mem st (mm st)) s = sender st s) as Es by reflexivity.
    split; [|auto]. intros s. rewrite Es. destruct (sender st s) as [k|]; auto. cbn. destruct (Nat.eqb_spec k a); congruence.
  - destruct (Hd nab) as [Hda Hdb].
    assert (gact (mm st) a = 0 /\ gact (mm st) b = 0) as [e1 e2].
    { unfold swap_sigs in E. destruct (Nat.eqb_spec a b) as [|_]; [contradiction|].
      rewrite (get_sig_ok _ _ Ha), (get_sig_ok _ _ Hb) in E. cbn [obind g_active] in E.
      destruct (Nat.eqb_spec (gact (mm st) a) 0) as [e1|e1]; cbn in E; [|discriminate].
      destruct (Nat.eqb_spec (gact (mm st) b) 0) as [e2|e2]; cbn in E; [auto|discriminate]. }
    assert (gdfr (mm st) a = false) as Da by (eapply not_dfr; eauto). assert (gdfr (mm st) b = false) as Db by (eapply not_dfr; eauto).
    destruct (swap_ok _ _ _ _ _ _ a b (r_minv _ _ _ _ R) nab Ha Hb e1 e2 Da Db) as (m' & Em & I & [Sc Sd Sg Sh Ss]).
    rewrite Em in E. cbn [lift] in E. inj E.
    assert (forall s, In s (L a) -> conn (mm st) s = Some a) as Ca by (eapply all_connected; eauto).
    assert (forall s, In s (L b) -> conn (mm st) s = Some b) as Cb by (eapply all_connected; eauto).
    assert (forall s, conn m' s = option_map (fun k => if Nat.eqb k a then b else if Nat.eqb k b then a else k) (conn (mm st) s)) as Cm.
    { intros s. rewrite Sc. unfold resend. destruct (in_dec Nat.eq_dec s (L a)) as [Ia|Ia].
      - rewrite (Ca s Ia). cbn. now rewrite Nat.eqb_refl.
      - destruct (in_dec Nat.eq_dec s (L b)) as [Ib|Ib].
        + rewrite (Cb s Ib). cbn. destruct (Nat.eqb_spec b a); [congruence|]. now rewrite Nat.eqb_refl.
        + destruct (conn (mm st) s) as [k|] eqn:Ek; auto. apply (r_sender _ _ _ _ R) in Ek. apply (mi_in _ _ _ _ _ _ (r_minv _ _ _ _ R)) in Ek. cbn.
          destruct (Nat.eqb_spec k a) as [-> | n1]; [contradiction|]. destruct (Nat.eqb_spec k b) as [-> | n2]; [contradiction|auto]. }
    assert (forall s, sender (set_mem st m') s = option_map (fun k => if Nat.eqb k a then b else if Nat.eqb k b then a else k) (sender st s)) as Cs.
    { intros s. rewrite !sender_is. apply Cm. }
    split; [exact Cs|]. unfold slots_of.
    assert (forall g, listed (set_mem st m') g = swap_fn L a b g) as Li by (intros g; unfold set_mem; eapply listed_minv; eauto).
    assert (forall g, listed st g = L g) as Li0 by (intros g; eapply listed_is; eauto).
    assert (forall g h, (forall s, sender st s = Some g <-> sender (set_mem st m') s = Some h) ->
      forall l, filter (connected_to (set_mem st m') h) l = filter (connected_to st g) l) as Fl.
    { intros g h Hgh l. apply filter_ext. intros s. unfold connected_to. specialize (Hgh s).
      destruct (sender st s) as [p|], (sender (set_mem st m') s) as [q|]; auto.
      - destruct (Nat.eqb_spec p g), (Nat.eqb_spec q h); auto; subst; exfalso.
        + destruct Hgh as [Hgh _]. specialize (Hgh eq_refl). congruence.
        + destruct Hgh as [_ Hgh]. specialize (Hgh eq_refl). congruence.
      - destruct (Nat.eqb_spec p g); auto. subst. destruct Hgh as [Hgh _]. specialize (Hgh eq_refl). discriminate.
      - destruct (Nat.eqb_spec q h); auto. subst. destruct Hgh as [_ Hgh]. specialize (Hgh eq_refl). discriminate. }
    assert (forall s k h, sender st s = Some k -> (if Nat.eqb k a then b else if Nat.eqb k b then a else k) = h -> sender (set_mem st m') s = Some h) as Cs1.
    { intros s k h E1 E2. rewrite Cs, E1. cbn. congruence. }
    rewrite !Li, !Li0. unfold swap_fn, fupd. rewrite !Nat.eqb_refl. destruct (Nat.eqb_spec a b); [congruence|]. split; [|split].
    + apply Fl. intros s. rewrite Cs. destruct (sender st s) as [k|]; cbn; [|split; discriminate].
      destruct (Nat.eqb_spec k a), (Nat.eqb_spec k b); subst; split; congruence.
    + apply Fl. intros s. rewrite Cs. destruct (sender st s) as [k|]; cbn; [|split; discriminate].
      destruct (Nat.eqb_spec k a), (Nat.eqb_spec k b); subst; split; congruence.
    + intros g N1 N2. rewrite Li, Li0. unfold swap_fn, fupd. destruct (Nat.eqb_spec g b); [congruence|]. destruct (Nat.eqb_spec g a); [congruence|].
      apply Fl. intros s. rewrite Cs. destruct (sender st s) as [k|]; cbn; [|split; discriminate].
      destruct (Nat.eqb_spec k a), (Nat.eqb_spec k b); subst; split; congruence.
Qed.

Lemma rename_slots st st' (f : nat -> nat) g h :
  (forall s, sender st' s = option_map f (sender st s)) -> (forall k, f k = h <-> k = g) ->
  forall l, filter (connected_to st' h) l = filter (connected_to st g) l.
Proof.
  intros Hs Hf l. apply filter_ext. intros s. unfold connected_to. rewrite Hs. destruct (sender st s) as [k|]; cbn; auto.
  destruct (Nat.eqb_spec (f k) h) as [E|E], (Nat.eqb_spec k g) as [E'|E']; auto; exfalso; [apply E'|apply E]; apply Hf; auto.
Qed.

Lemma move_effect n evs st t a st' r : runs (init n) evs st -> respectful st (User (UMove a)) ->
  step st t (User (UMove a)) = Next st' r ->
  let new := length (sigs (mm st)) in
  (forall s, sender st' s = option_map (fun k => if Nat.eqb k a then new else k) (sender st s)) /\
  slots_of st' new = slots_of st a /\ slots_of st' a = [] /\
  (forall g, g <> a -> g <> new -> slots_of st' g = slots_of st g).
Proof.
  intros Rn Hd E new. destruct (reach_rel _ _ _ Rn) as (i & L & H & _ & R). cbn [respectful] in Hd.
  unfold step in E. destruct (nth_error (threads st) t) as [th|]; [|discriminate]. destruct (user_ready th); [|discriminate].
  cbn [user_step] in E. destruct (sig_live (mm st) a) eqn:Ea; [|discriminate].
  assert (glive (mm st) a = true) as Ha by exact Ea. pose proof (glive_range _ _ Ha) as La.
  assert (gact (mm st) a = 0) as e1.
  { unfold move_sig in E. rewrite (get_sig_ok _ _ Ha) in E. cbn [obind g_active] in E.
    destruct (Nat.eqb_spec (gact (mm st) a) 0) as [e1|e1]; cbn in E; [auto|discriminate]. }
  assert (gdfr (mm st) a = false) as Da by (eapply not_dfr; eauto).
  destruct (move_ok _ _ _ _ _ _ a (r_minv _ _ _ _ R) Ha e1 Da) as (m' & Em & I & [Sc Sd Sg Sh Ss]). fold new in I, Sc.
  rewrite Em in E. cbn [lift] in E. inj E.
  assert (forall s, In s (L a) -> conn (mm st) s = Some a) as Ca by (eapply all_connected; eauto).
  assert (forall s, sender (set_mem st m') s = option_map (fun k => if Nat.eqb k a then new else k) (sender st s)) as Cs.
  { intros s. rewrite !sender_is. cbn [mm set_mem]. rewrite Sc. unfold resend. destruct (in_dec Nat.eq_dec s (L a)) as [Ia|Ia].
    - rewrite (Ca s Ia). cbn. now rewrite Nat.eqb_refl.
    - destruct (conn (mm st) s) as [k|] eqn:Ek; auto. apply (r_sender _ _ _ _ R) in Ek. apply (mi_in _ _ _ _ _ _ (r_minv _ _ _ _ R)) in Ek. cbn.
      destruct (Nat.eqb_spec k a) as [-> | n1]; [contradiction|auto]. }
  split; [exact Cs|].
  assert (forall g, listed (set_mem st m') g = fupd (fupd L a []) new (L a) g) as Li by (intros g; unfold set_mem; eapply listed_minv; eauto).
  assert (forall g, listed st g = L g) as Li0 by (intros g; eapply listed_is; eauto).
  destruct (minv_out _ _ _ _ _ _ new (r_minv _ _ _ _ R) (le_n _)) as [Ln An].
  assert (forall s k, sender st s = Some k -> k < new) as Bd.
  { intros s k Es. rewrite sender_is in Es. apply (r_sender _ _ _ _ R) in Es. apply (mi_in _ _ _ _ _ _ (r_minv _ _ _ _ R)) in Es.
    destruct (Nat.lt_ge_cases k new) as [W|W]; auto. destruct (minv_out _ _ _ _ _ _ k (r_minv _ _ _ _ R) W) as [E0 _]. rewrite E0 in Es. destruct Es. }
  unfold slots_of. split; [|split].
  - rewrite Li, Li0. rewrite fupd_same. apply filter_ext. intros s. unfold connected_to. rewrite Cs.
    destruct (sender st s) as [k|] eqn:Ek; cbn; auto. apply Bd in Ek. destruct (Nat.eqb_spec k a) as [-> | n1]; [apply Nat.eqb_refl|].
    destruct (Nat.eqb_spec k new); [lia|auto].
  - rewrite Li. rewrite fupd_other by (unfold new; lia). now rewrite fupd_same.
  - intros g N1 N2. rewrite Li, Li0, !fupd_other by auto. apply filter_ext. intros s. unfold connected_to. rewrite Cs.
    destruct (sender st s) as [k|] eqn:Ek; cbn; auto. apply Bd in Ek. destruct (Nat.eqb_spec k a) as [-> | n1]; auto.
    destruct (Nat.eqb_spec new g), (Nat.eqb_spec a g); congruence.
Qed.

Lemma drop_effect n evs st t g st' r o : runs (init n) evs st -> respectful st (User o) -> o = UDisconnectAll g \/ o = UDestroy g ->
  step st t (User o) = Next st' r ->
  (forall s, sender st' s = match sender st s with Some k => if Nat.eqb k g then None else Some k | None => None end) /\
  slots_of st' g = [] /\ (forall k, k <> g -> slots_of st' k = slots_of st k).
Proof.
  intros Rn Hd Ho E. destruct (reach_rel _ _ _ Rn) as (i & L & H & _ & R).
  assert (forall s, resend L g None (conn (mm st)) s = match conn (mm st) s with Some k => if Nat.eqb k g then None else Some k | None => None end) as Cs.
  { intros s. unfold resend. destruct (in_dec Nat.eq_dec s (L g)) as [Ia|Ia].
    - apply (mi_in _ _ _ _ _ _ (r_minv _ _ _ _ R)) in Ia. destruct (conn (mm st) s) as [k|] eqn:Ek; auto.
      apply (r_sender _ _ _ _ R) in Ek. assert (k = g) as -> by congruence. now rewrite Nat.eqb_refl.
    - destruct (conn (mm st) s) as [k|] eqn:Ek; auto. apply (r_sender _ _ _ _ R) in Ek. apply (mi_in _ _ _ _ _ _ (r_minv _ _ _ _ R)) in Ek.
      destruct (Nat.eqb_spec k g) as [-> | n1]; [contradiction|auto]. }
  assert (forall m' L' H' X' B' A', minv m' L' H' X' B' A' -> (forall s, conn m' s = resend L g None (conn (mm st)) s) -> (forall k, k <> g -> L' k = L k) ->
    (forall s, sender (set_mem st m') s = match sender st s with Some k => if Nat.eqb k g then None else Some k | None => None end) /\
    slots_of (set_mem st m') g = [] /\ (forall k, k <> g -> slots_of (set_mem st m') k = slots_of st k)) as Fin.
  { intros m' L' H' X' B' A' I Hc HL. assert (forall s, sender (set_mem st m') s = match sender st s with Some k => if Nat.eqb k g then None else Some k | None => None end) as Cs'.
    { intros s. rewrite !sender_is. cbn [mm set_mem]. now rewrite Hc, Cs. }
    split; [exact Cs'|]. unfold slots_of. split.
    - apply filter_false. intros s _. unfold connected_to. rewrite Cs'. destruct (sender st s) as [k|]; auto.
      destruct (Nat.eqb_spec k g) as [-> | n1]; auto. apply Nat.eqb_neq; auto.
    - intros k Hk. rewrite (listed_is _ _ _ _ k R). unfold set_mem at 2. rewrite (listed_minv m' L' H' X' B' A' k) by auto. rewrite HL by auto.
      apply filter_ext. intros s. unfold connected_to. rewrite Cs'. destruct (sender st s) as [j|]; auto.
      destruct (Nat.eqb_spec j g) as [-> | n1]; auto. symmetry. apply Nat.eqb_neq. auto. }
  unfold step in E. destruct (nth_error (threads st) t) as [th|]; [|discriminate]. destruct (user_ready th); [|discriminate].
  destruct Ho as [-> | ->]; cbn [user_step] in E; destruct (sig_live (mm st) g) eqn:Eg; try discriminate;
    assert (glive (mm st) g = true) as Hg by exact Eg.
  - destruct (disconnect_all_ok _ _ _ _ _ _ g (r_minv _ _ _ _ R) Hg) as (m' & Em & Z1 & Z2). rewrite Em in E. cbn [lift] in E. inj E.
    destruct (Nat.eq_dec (gact (mm st) g) 0) as [e|e].
    + destruct (Z1 e) as [I [Sc _ _ _ _]]. eapply Fin; eauto. intros k Hk. now rewrite fupd_other.
    + destruct (Z2 e) as [I [Sc _ _ _ _]]. eapply Fin; eauto.
  - cbn [respectful] in Hd. destruct Hd as [Hd1 Hd2]. pose proof (act_zero _ _ _ _ _ R Hd2) as Ha.
    destruct (destroy_ok _ _ _ _ _ _ g (r_minv _ _ _ _ R) Hg Ha) as (m' & Em & I & [Sc _ _ _ _]). rewrite Em in E. cbn [lift] in E. inj E.
    eapply Fin; eauto. intros k Hk. now rewrite fupd_other.
Qed.
