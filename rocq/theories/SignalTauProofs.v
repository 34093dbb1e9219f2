(** Steps of library calls, matched by the ideal machine. *)
From Coq Require Import List Arith Bool Lia.
From Verif Require Import Base XinfoProofs SignalModel SignalSpec SignalMemProofs SignalRelProofs SignalStepProofs SignalFrameProofs.
Import ListNotations.
Local Open Scope outcome_scope.

(* --------------------------------------------------- turns the ideal machine skips *)

Lemma skip_dead i t id g js : t < length (i_threads i) -> forall dead rest,
  (forall s, In s dead -> i_conn i s = None) ->
  ideal_runs (i_set_thread i t (IEmit (mkie id g (dead ++ rest) false ITurn) :: js)) []
             (i_set_thread i t (IEmit (mkie id g rest false ITurn) :: js)).
Proof.
  intros Ht. induction dead as [|s dead IH]; intros rest Hd; [constructor|].
  set (i0 := i_set_thread i t _).
  assert (forall fs, istep (i_set_thread i t fs) t Tau = i_tau (i_set_thread i t fs) t fs) as It by (intros; apply itau; auto).
  destruct (i_blocked i s) eqn:Eb.
  - eapply ir_tau.
    + unfold i0. rewrite It. cbn [i_tau ie_at ie_stop ie_todo app].
      change (i_blocked (i_set_thread i t _) s) with (i_blocked i s). rewrite Eb. cbn [ie_id ie_sig]. reflexivity.
    + rewrite set_set. apply IH. intros k Hk. apply Hd. right; auto.
  - eapply ir_tau.
    + unfold i0. rewrite It. cbn [i_tau ie_at ie_stop ie_todo app].
      change (i_blocked (i_set_thread i t _) s) with (i_blocked i s). rewrite Eb. cbn [ie_id ie_sig]. reflexivity.
    + rewrite set_set. eapply ir_tau.
      * rewrite It. cbn [i_tau ie_at].
        change (i_conn (i_set_thread i t _) s) with (i_conn i s). rewrite (Hd s) by (left; auto).
        cbn [is_some ie_id ie_sig ie_todo ie_stop]. reflexivity.
      * rewrite set_set. apply IH. intros k Hk. apply Hd. right; auto.
Qed.

(** Splitting a todo list at its first connected slot. *)
Lemma first_connected (f : nat -> bool) c mid : forall todo, filter f (c :: mid) = filter f todo -> f c = true ->
  exists dead rest, todo = dead ++ c :: rest /\ (forall s, In s dead -> f s = false) /\ filter f mid = filter f rest.
Proof.
  induction todo as [|x todo IH]; cbn; intros E Hc; rewrite Hc in E; [discriminate|].
  destruct (f x) eqn:Ex.
  - injection E as <- E. exists [], todo. repeat split; auto. intros s [].
  - destruct IH as (dead & rest & -> & Hd & Hr); [cbn; rewrite Hc; auto|auto|].
    exists (x :: dead), rest. repeat split; auto. intros s [-> | Hs]; auto.
Qed.

Lemma filter_nil_all {T} (f : T -> bool) l : filter f l = [] -> forall x, In x l -> f x = false.
Proof.
  induction l as [|x l IH]; cbn; intros E y []; destruct (f x) eqn:Ex; try discriminate; subst; auto.
Qed.

Section Tau.
Variables (st : state) (i : ideal) (L : nat -> list nat) (H : nat -> option nat) (t : nat) (th : thread) (is : list iframe).
Hypothesis R : rel st i L H.
Hypothesis Et : nth_error (threads st) t = Some th.
Hypothesis Ei : nth_error (i_threads i) t = Some is.
Hypothesis Rs : stack_rel (world_of (mm st) L) (th_tls th) (th_stack th) is.

Lemma tau_go res : tau_step st t th = res -> step st t Tau = res.
Proof. unfold step. rewrite Et. auto. Qed.

Lemma conn_none s : connected (mm st) s = false -> i_conn i s = None.
Proof. unfold i_conn. rewrite (r_slots _ _ _ _ R). unfold connected. destruct (conn (mm st) s); auto. discriminate. Qed.

Lemma conn_is s : is_some (i_conn i s) = connected (mm st) s.
Proof. unfold i_conn. rewrite (r_slots _ _ _ _ R). unfold connected. destruct (conn (mm st) s); auto. Qed.

Lemma it_len : t < length (i_threads i).
Proof. eapply nth_some_lt; eauto. Qed.

Lemma ist fs : istep (i_set_thread i t fs) t Tau = i_tau (i_set_thread i t fs) t fs.
Proof. apply itau, it_len. Qed.

Lemma blocked_is c : i_blocked i c = negb (Nat.eqb (blk (mm st) c) 0).
Proof.
  unfold i_blocked. rewrite (r_blockers _ _ _ _ R), (mi_blk _ _ _ _ _ _ (r_minv _ _ _ _ R)). unfold B.
  induction (blockers st) as [|b l IH]; cbn; auto. rewrite IH. unfold hold. destruct b as [k|]; cbn; auto.
  destruct (Nat.eqb_spec k c) as [-> | n]; cbn; auto.
Qed.

(* -------------------------------------------------------------- disconnect *)

Section Disc.
Variables (s : nat) (fs : list frame) (js : list iframe).

Lemma disc_X d : th_stack th = FDisc s d :: fs -> 0 < X st s.
Proof.
  intros Es. pose proof (frame_X st t th (FDisc s d) s Et) as F. rewrite Es in F. specialize (F (or_introl eq_refl)).
  cbn in F. rewrite Nat.eqb_refl in F. cbn in F. lia.
Qed.

Lemma ok_exchange : th_stack th = FDisc s DExchange :: fs -> is = IDisc s false :: js -> outcome_ok st t Tau i.
Proof.
  intros Es Eis. pose proof (disc_X _ Es) as HX. pose proof (r_minv _ _ _ _ R) as I0.
  pose proof (X_refs _ _ _ _ _ R HX) as Hp. pose proof (refs_range _ _ Hp) as Hlen.
  unfold outcome_ok. rewrite (tau_go _ eq_refl). unfold tau_step. rewrite Es.
  rewrite (get_slot_ok _ _ (mi_wf _ _ _ _ _ _ I0) Hp). cbn [lift s_sender].
  destruct (rebind_ok _ _ _ _ _ _ s None I0 Hp) as (m' & E & I & [Sc Sd Sg Sh Ss]). rewrite E. cbn [lift].
  set (d' := match conn (mm st) s with Some g => DRegion g | None => DRelease end).
  pose proof Rs as Rs0. rewrite Es, Eis in Rs0. cbn [stack_rel] in Rs0. destruct Rs0 as (_ & _ & _ & _ & Hb & Rf).
  assert (forall k, connected m' k = negb (Nat.eqb k s) && connected (mm st) k) as Cn.
  { intros k. unfold connected. rewrite Sc. unfold fupd. destruct (Nat.eqb k s); auto. }
  assert (mem_ok st L m' L) as M.
  { constructor; [lia| | |intros g _; now rewrite Sg].
    - intros k _. rewrite Cn. intros E1. apply andb_prop in E1. apply E1.
    - intros g _. exists [], []. now rewrite app_nil_r. }
  assert (world_ok (world_of (mm st) L) (world_of m' L) fs) as Wf.
  { pose proof (mem_ok_world st i L H m' L t th is R M Et Rs) as (a & b & c & d & e0). rewrite Es in *.
    split; [auto|]. split; [auto|]. split; [|split]; auto; intros; [apply c|eapply d]; right; eauto. }
  eexists. exists L, H. split.
  { change (event_of t Tau ONone) with (@nil event).
    eapply ir_tau; [|constructor]. unfold istep. rewrite Ei, Eis. cbn [i_tau]. reflexivity. }
  assert (stack_rel (world_of m' L) (th_tls th) (FDisc s d' :: fs) (IDisc s true :: js)) as Rs'.
  { cbn [stack_rel]. split; auto. split; [unfold d'; destruct (conn (mm st) s); auto|]. split.
    - intros g Eg. unfold d' in Eg. destruct (conn (mm st) s) as [k|] eqn:Ek; [|discriminate]. injection Eg as ->.
      cbn. rewrite Sg. destruct (glive (mm st) g) eqn:El; auto.
      apply (r_gone _ _ _ _ R) in El. apply (r_sender _ _ _ _ R) in Ek. apply (mi_in _ _ _ _ _ _ I0) in Ek. rewrite El in Ek. destruct Ek.
    - split.
      + intros _. cbn. split; [lia|]. rewrite Cn, Nat.eqb_refl. auto.
      + split; auto. eapply stack_rel_mono; eauto. }
  pose proof (threads_upd_others _ _ _ _ _ _ _ _ _ _ R (mem_ok_others _ t _ _ _ M) (nth_some_lt _ _ _ Et) Rs') as Th.
  assert (forall g, A (mkstate m' (upd (threads st) t (mkthread (th_tls th) (FDisc s d' :: fs))) (handles st) (blockers st) (lost st) (fresh st)) g = A st g) as HA.
  { intros g. pose proof (A_upd st t th m' (th_tls th) (FDisc s d' :: fs) (handles st) (blockers st) (lost st) (fresh st) g Et) as U.
    rewrite Es in U. cbn [tot frame_emits] in U. lia. }
  unfold i_set_thread, i_disconnect; cbns.
  destruct R as [r_minv0 r_sender0 r_dead0 r_dfr0 r_gone0 r_handles0 r_blockers0 r_fresh0 r_slen0 r_slots0 r_olen0 r_order0 r_llen0 r_live0 r_threads0].
  constructor; cbns; auto.
  - eapply minv_ext; [exact I|auto|auto| |auto|auto]. intros k.
    pose proof (X_upd st t th m' (th_tls th) (FDisc s d' :: fs) k Et) as U. rewrite Es in U. cbn [tot frame_holds] in U. lia.
  - intros k g Ek. rewrite Sc in Ek. unfold fupd in Ek. destruct (Nat.eqb k s); [discriminate|auto].
  - intros k g E1 E2. rewrite Sd. rewrite Sc in E2. unfold fupd in E2. destruct (Nat.eqb_spec k s) as [Eks|n].
    + subst k. destruct (conn (mm st) s) as [g'|] eqn:Ec.
      * right. apply r_sender0 in Ec. assert (g' = g) as -> by congruence.
        exists t, (mkthread (th_tls th) (FDisc s d' :: fs)). cbns. rewrite nth_upd_same by (eapply nth_some_lt; eauto).
        split; auto. left. unfold d'. auto.
      * destruct (r_dead0 s g E1 Ec) as [D|D]; auto. right. eapply mid_upd; eauto.
        rewrite Es. destruct (region_dec s g fs) as [Y|Y]; [left; right; auto|].
        right. intros [W|W]; [discriminate|contradiction].
    + destruct (r_dead0 k g E1 E2) as [D|D]; auto. right. eapply mid_upd; eauto.
      rewrite Es. destruct (region_dec k g fs) as [Y|Y]; [left; right; auto|].
      right. intros [W|W]; [discriminate|contradiction].
  - intros g Eg. rewrite Sd in Eg. rewrite HA. auto.
  - intros g Eg. rewrite Sg in Eg. auto.
  - rewrite length_put. congruence.
  - intros k. rewrite nth_put by lia. rewrite Sc. unfold fupd. destruct (Nat.eqb k s); auto.
  - rewrite map_length. congruence.
  - intros g. change (@nil nat) with (without s []). rewrite map_nth. rewrite r_order0. unfold without.
    clear - Cn. induction (L g) as [|x l IH]; cbn; auto. rewrite Cn. destruct (connected (mm st) x); cbn.
    + destruct (Nat.eqb x s); cbn; [auto|now rewrite IH].
    + rewrite andb_false_r. auto.
  - congruence.
  - intros g. rewrite Sg. auto.
Qed.

Lemma ok_region g : th_stack th = FDisc s (DRegion g) :: fs -> is = IDisc s true :: js -> outcome_ok st t Tau i.
Proof.
  intros Es Eis. pose proof (r_minv _ _ _ _ R) as I0.
  unfold outcome_ok. rewrite (tau_go _ eq_refl). unfold tau_step. rewrite Es.
  pose proof Rs as Rs0. rewrite Es, Eis in Rs0. cbn [stack_rel] in Rs0. destruct Rs0 as (_ & _ & Hv & Hn & Hb & Rf).
  specialize (Hv g eq_refl). cbn in Hv. destruct (Hn ltac:(discriminate)) as [Hlen Hcs]. cbn in Hlen, Hcs.
  destruct (disconnect_ok _ _ _ _ _ _ g s I0 Hv) as (m' & E & Z1 & Z2 & Z3). rewrite E. cbn [lift].
  assert (conn (mm st) s = None) as Hc0 by (unfold connected in Hcs; destruct (conn (mm st) s); auto; discriminate).
  assert (forall k, fupd (conn (mm st)) s None k = conn (mm st) k) as Fc.
  { intros k. unfold fupd. destruct (Nat.eqb_spec k s) as [-> | n]; auto. }
  set (fs' := FDisc s DRelease :: fs).
  assert (forall m'' k, A (mkstate m'' (upd (threads st) t (mkthread (th_tls th) fs')) (handles st) (blockers st) (lost st) (fresh st)) k = A st k) as HA.
  { intros m'' k. pose proof (A_upd st t th m'' (th_tls th) fs' (handles st) (blockers st) (lost st) (fresh st) k Et) as U.
    rewrite Es in U. unfold fs' in U at 2. cbn [tot frame_emits] in U. lia. }
  assert (forall m'' k, X (mkstate m'' (upd (threads st) t (mkthread (th_tls th) fs')) (handles st) (blockers st) (lost st) (fresh st)) k = X st k) as HX.
  { intros m'' k. pose proof (X_upd st t th m'' (th_tls th) fs' k Et) as U. rewrite Es in U. unfold fs' in U at 2. cbn [tot frame_holds] in U. lia. }
  (* the ideal machine does nothing *)
  assert (exists L' H', minv m' L' H' (X st) (B st) (A st) /\
            (forall k, conn m' k = conn (mm st) k) /\
            (forall k, glive m' k = glive (mm st) k) /\
            length (heap m') = length (heap (mm st)) /\ length (sigs m') = length (sigs (mm st)) /\
            (forall k, emitting st k -> L' k = L k) /\
            (forall k, filter (connected (mm st)) (L' k) = filter (connected (mm st)) (L k)) /\
            (forall k j, H' k = Some j -> H k = Some j) /\
            (forall k j, conn (mm st) k = Some j -> H' k = Some j) /\
            (forall k, L k = [] -> L' k = []) /\
            (forall k, gdfr m' k = true -> gdfr (mm st) k = true \/ 0 < A st k) /\
            (forall k, gdfr (mm st) k = true -> gdfr m' k = true) /\
            (H' s = Some g -> gdfr m' g = true)) as
    (L' & H' & I & Sc & Sg & Sh & Ss & SL & SF & SH & SC & SN & D1 & D2 & D3).
  { destruct (H s) as [k|] eqn:Ehs.
    2: { rewrite (Z1 ltac:(discriminate)). exists L, H. split; [exact I0|]. repeat split; auto; intros; try (apply (r_sender _ _ _ _ R)); auto; congruence. }
    destruct (Nat.eq_dec k g) as [-> | nk].
    2: { rewrite (Z1 ltac:(congruence)). exists L, H. split; [exact I0|]. repeat split; auto; intros; try (apply (r_sender _ _ _ _ R)); auto; congruence. }
    destruct (Nat.eq_dec (gact (mm st) g) 0) as [e|e].
    - destruct (Z2 eq_refl e) as (p & q & EL & I & [Sc Sd Sg Sh Ss]).
      exists (fupd L g (p ++ q)), (fupd H s None). split; [exact I|]. repeat split; auto.
      + intros k. rewrite Sc. apply Fc.
      + intros k Hk. apply A_pos in Hk. rewrite (mi_act _ _ _ _ _ _ I0) in e. unfold fupd. destruct (Nat.eqb_spec k g) as [-> | n]; auto. lia.
      + intros k. unfold fupd. destruct (Nat.eqb_spec k g) as [-> | n]; auto. rewrite EL, !filter_app. cbn. now rewrite Hcs.
      + intros k j. unfold fupd. destruct (Nat.eqb k s); auto. discriminate.
      + intros k j Ek. unfold fupd. destruct (Nat.eqb_spec k s) as [-> | n]; [congruence|]. apply (r_sender _ _ _ _ R); auto.
      + intros k Ek. unfold fupd. destruct (Nat.eqb_spec k g) as [-> | n]; auto. rewrite EL in Ek. destruct p; discriminate.
      + intros k. rewrite Sd. auto.
      + intros k. rewrite Sd. auto.
      + rewrite fupd_same. discriminate.
    - destruct (Z3 eq_refl e) as (I & [Sc Sd Sg Sh Ss]).
      exists L, H. split; [exact I|]. repeat split; auto.
      + intros k. rewrite Sc. apply Fc.
      + intros; apply (r_sender _ _ _ _ R); auto.
      + intros k. rewrite Sd. unfold fupd. destruct (Nat.eqb_spec k g) as [-> | n]; auto. intros _. right.
        rewrite (mi_act _ _ _ _ _ _ I0) in e. lia.
      + intros k. rewrite Sd. unfold fupd. destruct (Nat.eqb k g); auto.
      + intros _. rewrite Sd. apply fupd_same. }
  assert (forall k, connected m' k = connected (mm st) k) as Cn by (intros k; apply connected_eq; auto).
  assert (mem_ok st L m' L') as M.
  { constructor; [lia| | |intros k _; now rewrite Sg].
    - intros k _. now rewrite Cn.
    - intros k Hk. exists [], []. rewrite app_nil_r. cbn. auto. }
  assert (world_ok (world_of (mm st) L) (world_of m' L') fs) as Wf.
  { pose proof (mem_ok_world st i L H m' L' t th is R M Et Rs) as (a & b & c & d & e0). rewrite Es in *.
    split; [auto|]. split; [auto|]. split; [|split]; auto; intros; [apply c|eapply d]; right; eauto. }
  exists i, L', H'. split; [constructor|].
  assert (stack_rel (world_of m' L') (th_tls th) fs' is) as Rs'.
  { rewrite Eis. unfold fs'. cbn [stack_rel]. split; auto. split; auto. split; [discriminate|].
    split; [intros _; cbn; split; [lia|now rewrite Cn]|]. split; auto. eapply stack_rel_mono; eauto. }
  pose proof (threads_upd_others _ _ _ _ _ _ _ _ _ _ R (mem_ok_others _ t _ _ _ M) (nth_some_lt _ _ _ Et) Rs') as Th.
  rewrite (put_id (i_threads i) t is Ei) in Th.
  destruct R as [r_minv0 r_sender0 r_dead0 r_dfr0 r_gone0 r_handles0 r_blockers0 r_fresh0 r_slen0 r_slots0 r_olen0 r_order0 r_llen0 r_live0 r_threads0].
  constructor; cbns; auto.
  - eapply minv_ext; [exact I|auto|auto|auto|auto|auto].
  - intros k j Ek. rewrite Sc in Ek. auto.
  - intros k j E1 E2. rewrite Sc in E2. destruct (r_dead0 k j (SH _ _ E1) E2) as [D|D]; auto.
    destruct (Nat.eq_dec k s) as [Eks|nk].
    + destruct (Nat.eq_dec j g) as [Ejg|nj].
      * subst. left. auto.
      * right. eapply mid_upd; eauto. rewrite Es. unfold fs'. destruct (region_dec k j fs) as [Y|Y]; [left; right; auto|].
        right. intros [W|W]; [congruence|contradiction].
    + right. eapply mid_upd; eauto. rewrite Es. unfold fs'. destruct (region_dec k j fs) as [Y|Y]; [left; right; auto|].
      right. intros [W|W]; [congruence|contradiction].
  - intros k Ek. rewrite HA. destruct (D1 k Ek); auto.
  - intros k Ek. rewrite Sg in Ek. auto.
  - congruence.
  - intros k. rewrite Sc. auto.
  - congruence.
  - intros k. rewrite r_order0. rewrite (filter_ext _ _ Cn). symmetry. apply SF.
  - congruence.
  - intros k. rewrite Sg. auto.
Qed.

Lemma ok_release : th_stack th = FDisc s DRelease :: fs -> is = IDisc s true :: js -> outcome_ok st t Tau i.
Proof.
  intros Es Eis. pose proof (disc_X _ Es) as HX. pose proof (r_minv _ _ _ _ R) as I0.
  unfold outcome_ok. rewrite (tau_go _ eq_refl). unfold tau_step. rewrite Es.
  pose proof Rs as Rs0. rewrite Es, Eis in Rs0. cbn [stack_rel] in Rs0. destruct Rs0 as (_ & _ & _ & _ & Hb & Rf).
  destruct (release_ok _ _ _ _ _ _ s I0 HX) as (m' & E & I & Sm). rewrite E. cbn [lift].
  eexists. exists L, H. split.
  { change (event_of t Tau ONone) with (@nil event).
    eapply ir_tau; [|constructor]. unfold istep. rewrite Ei, Eis. cbn [i_tau]. reflexivity. }
  unfold i_set_thread; cbns. rewrite (r_fresh _ _ _ _ R), (r_handles _ _ _ _ R).
  assert (forall k, A (mkstate m' (upd (threads st) t (mkthread (th_tls th) fs)) (handles st) (blockers st) (lost st) (fresh st)) k = A st k) as HA.
  { intros k. pose proof (A_upd st t th m' (th_tls th) fs (handles st) (blockers st) (lost st) (fresh st) k Et) as U.
    rewrite Es in U. cbn [tot frame_emits] in U. lia. }
  apply (rel_thread st i L H t th); auto.
  - eapply minv_ext; [exact I|auto|auto| |auto|auto]. intros k.
    pose proof (X_upd st t th m' (th_tls th) fs k Et) as U. rewrite Es in U. cbn [tot frame_holds] in U. rewrite (Nat.eqb_sym s k) in U.
    cbn beta. destruct (Nat.eqb_spec k s) as [Eks|n]; [rewrite Eks in *|]; cbn [b2n] in U; lia.
  - rewrite Es. intros k g [W|W]; [discriminate|auto].
  - intros g. rewrite HA. auto.
  - eapply world_keep; eauto. rewrite Es. apply incl_tl, incl_refl.
Qed.

End Disc.
End Tau.
