(** Steps that change a thread's stack, matched by the ideal machine. *)
From Coq Require Import List Arith Bool Lia.
From Verif Require Import Base XinfoProofs SignalModel SignalSpec SignalMemProofs SignalRelProofs SignalStepProofs.
Import ListNotations.
Local Open Scope outcome_scope.

Ltac cbns := unfold set_mem, set_handles, set_blockers, set_thread; cbn [mm threads handles blockers lost fresh i_slots i_order i_live i_threads i_handles i_blockers i_fresh].

Lemma nth_put_same {T} (l : list T) k v : k < length l -> nth_error (put l k v) k = Some v.
Proof. apply nth_upd_same. Qed.

Lemma put_put {T} (l : list T) k v w : put (put l k v) k w = put l k w.
Proof. revert k. induction l as [|x l IH]; intros [|k]; cbn; auto. now rewrite IH. Qed.

Lemma put_id {T} (l : list T) k v : nth_error l k = Some v -> put l k v = l.
Proof.
  revert k. induction l as [|x l IH]; intros [|k] E; try discriminate; cbn in *.
  - now injection E as ->.
  - now rewrite IH.
Qed.

Lemma set_set i t a b : i_set_thread (i_set_thread i t a) t b = i_set_thread i t b.
Proof. unfold i_set_thread; cbn. now rewrite put_put. Qed.

Lemma set_id i t fs : nth_error (i_threads i) t = Some fs -> i_set_thread i t fs = i.
Proof. intros E. unfold i_set_thread. rewrite put_id by auto. destruct i; reflexivity. Qed.

Lemma itau i t fs : t < length (i_threads i) -> istep (i_set_thread i t fs) t Tau = i_tau (i_set_thread i t fs) t fs.
Proof. intros Ht. unfold istep. cbn. now rewrite nth_put_same. Qed.

Lemma ready_ideal w : forall fs tl is, stack_rel w tl fs is ->
  (match fs with [] => true | FEmit e :: _ => match e_phase e with PInSlot => true | _ => false end | FDisc _ _ :: _ => false end) = true ->
  i_ready is = true.
Proof.
  intros [|f fs] tl [|j is] S E; cbn in *; auto; try contradiction; try (destruct f; contradiction).
  destruct f as [e|s d], j as [ie|s' fin]; try contradiction; try discriminate.
  destruct S as ((_ & _ & _ & _ & S) & _). destruct (e_phase e); try discriminate.
  destruct S as (c & md & la & _ & _ & _ & _ & ->). auto.
Qed.

(* ------------------------------------------------------------- bookkeeping *)

Lemma X_upd st t th m tl fs k :
  nth_error (threads st) t = Some th ->
  X (mkstate m (upd (threads st) t (mkthread tl fs)) (handles st) (blockers st) (lost st) (fresh st)) k
    + tot (frame_holds k) (th_stack th) = X st k + tot (frame_holds k) fs.
Proof.
  intros E. pose proof (tot_upd (thread_holds k) _ _ _ (mkthread tl fs) E) as U. unfold thread_holds in U at 2 4. cbn in U.
  unfold X; cbns. lia.
Qed.

Lemma A_upd st t th m tl fs hs bs lo fr g :
  nth_error (threads st) t = Some th ->
  A (mkstate m (upd (threads st) t (mkthread tl fs)) hs bs lo fr) g + tot (frame_emits g) (th_stack th) = A st g + tot (frame_emits g) fs.
Proof.
  intros E. pose proof (tot_upd (thread_emits g) _ _ _ (mkthread tl fs) E) as U. unfold thread_emits in U at 2 4. cbn in U.
  unfold A; cbns. lia.
Qed.

(** Signals some other thread is using. *)
Definition others (st : state) (t : nat) : state := set_thread st t (mkthread (mktls false None) []).

Lemma others_emitting st t g : emitting (others st t) g -> emitting st g.
Proof.
  intros (j & th & e & Ej & Hi & Eg). cbn in Ej. destruct (Nat.eq_dec j t) as [-> | n].
  - destruct (Nat.lt_ge_cases t (length (threads st))) as [Hl|Hl].
    + rewrite nth_upd_same in Ej by auto. injection Ej as <-. destruct Hi.
    + exfalso. assert (nth_error (upd (threads st) t (mkthread (mktls false None) [])) t <> None) as Hn by congruence.
      apply nth_error_Some in Hn. rewrite length_upd in Hn. lia.
  - rewrite nth_upd_other in Ej by auto. exists j, th, e. auto.
Qed.

Lemma others_disconnecting st t g : disconnecting (others st t) g -> disconnecting st g.
Proof.
  intros (j & th & s & Ej & Hi). cbn in Ej. destruct (Nat.eq_dec j t) as [-> | n].
  - destruct (Nat.lt_ge_cases t (length (threads st))) as [Hl|Hl].
    + rewrite nth_upd_same in Ej by auto. injection Ej as <-. destruct Hi.
    + exfalso. assert (nth_error (upd (threads st) t (mkthread (mktls false None) [])) t <> None) as Hn by congruence.
      apply nth_error_Some in Hn. rewrite length_upd in Hn. lia.
  - rewrite nth_upd_other in Ej by auto. exists j, th, s. auto.
Qed.

Lemma mem_ok_others st t L m' L' : mem_ok st L m' L' -> mem_ok (others st t) L m' L'.
Proof.
  intros [a b c d]. constructor; auto.
  - intros g Hg. apply c. eapply others_emitting; eauto.
  - intros g Hg. apply d. destruct Hg; [left; eapply others_emitting|right; eapply others_disconnecting]; eauto.
Qed.

Lemma threads_upd_others st i L H m' L' t tl' fs' is' :
  rel st i L H -> mem_ok (others st t) L m' L' -> t < length (threads st) ->
  stack_rel (world_of m' L') tl' fs' is' ->
  Forall2 (fun th is => stack_rel (world_of m' L') (th_tls th) (th_stack th) is)
    (upd (threads st) t (mkthread tl' fs')) (put (i_threads i) t is').
Proof.
  intros R [Hl Hc He Hv] Ht Rs. change (@put) with (@upd). eapply Forall2_upd; [apply (r_threads _ _ _ _ R)|auto| |exact Rs].
  intros j th is Hj Et _ Rj; cbn beta in Rj. eapply stack_rel_mono; [|exact Rj].
  assert (nth_error (threads (others st t)) j = Some th) as Eo by (cbn; rewrite nth_upd_other; auto).
  split; [exact Hl|]. split; [exact Hc|]. split; [|split]; cbn.
  - intros e Hi. assert (emitting (others st t) (e_sig e)) as Hm by (exists j, th, e; auto). split; auto.
    apply Hv; auto. change (w_live (world_of (mm st) L) (e_sig e) = true). eapply stack_rel_emit; eauto.
  - intros s g Hi. apply Hv.
    + right. exists j, th, s. auto.
    + change (w_live (world_of (mm st) L) g = true). eapply stack_rel_disc; eauto.
  - intros g s Hi. eapply minv_bound; eauto. apply (r_minv _ _ _ _ R).
Qed.

Lemma mid_upd st t th m tl fs hs bs lo fr s g :
  nth_error (threads st) t = Some th -> mid st s g ->
  In (FDisc s (DRegion g)) fs \/ ~ In (FDisc s (DRegion g)) (th_stack th) ->
  mid (mkstate m (upd (threads st) t (mkthread tl fs)) hs bs lo fr) s g.
Proof.
  intros Et (j & th' & Ej & Hi) Hf. assert (t < length (threads st)) as Hl by (eapply nth_some_lt; eauto).
  destruct (Nat.eq_dec j t) as [-> | n].
  - exists t, (mkthread tl fs). cbn. rewrite nth_upd_same by auto. split; auto. cbn.
    destruct Hf as [|Hf]; auto. assert (th' = th) as -> by congruence. contradiction.
  - exists j, th'. cbn. rewrite nth_upd_other by auto. auto.
Qed.

Lemma region_dec s g fs : In (FDisc s (DRegion g)) fs \/ ~ In (FDisc s (DRegion g)) fs.
Proof.
  induction fs as [|f fs IH]; [right; intros []|].
  assert ({f = FDisc s (DRegion g)} + {f <> FDisc s (DRegion g)}) as [Z|Z].
  { destruct f as [e|s' [|g'|]]; try (right; discriminate).
    destruct (Nat.eq_dec s' s) as [-> | n1]; [|right; congruence].
    destruct (Nat.eq_dec g' g) as [-> | n1]; [left; auto|right; congruence]. }
  - left. left. auto.
  - destruct IH as [IH|IH]; [left; right; auto|]. right. intros [W|W]; auto.
Qed.

(** Memory is only counted differently. *)
Lemma rel_thread st i L H t th m' tl fs is' hs lo fr :
  rel st i L H -> nth_error (threads st) t = Some th -> same (mm st) m' ->
  let st' := mkstate m' (upd (threads st) t (mkthread tl fs)) hs (blockers st) lo fr in
  minv m' L H (X st') (B st) (A st') ->
  (forall s g, In (FDisc s (DRegion g)) (th_stack th) -> In (FDisc s (DRegion g)) fs) ->
  (forall g, A st g <= A st' g) ->
  stack_rel (world_of m' L) tl fs is' ->
  rel st' (mkideal (i_slots i) (i_order i) (i_live i) (put (i_threads i) t is') hs (i_blockers i) fr) L H.
Proof.
  intros R Et Sm st' I Hd HA Rs. pose proof (mem_ok_others _ t _ _ _ (mem_ok_same _ L _ Sm)) as M.
  pose proof (threads_upd_others _ _ _ _ _ _ _ _ _ _ R M (nth_some_lt _ _ _ Et) Rs) as Th.
  destruct Sm as [Sc Sd Sg Sh Ss].
  destruct R as [r_minv0 r_sender0 r_dead0 r_dfr0 r_gone0 r_handles0 r_blockers0 r_fresh0 r_slen0 r_slots0 r_olen0 r_order0 r_llen0 r_live0 r_threads0].
  unfold st' in *. constructor; cbns; auto.
  - intros s g E. rewrite Sc in E. auto.
  - intros s g E1 E2. rewrite Sc in E2. rewrite Sd. destruct (r_dead0 s g E1 E2) as [D|D]; auto.
    right. eapply mid_upd; eauto.
    destruct D as (j & th' & Ej & Hi). destruct (Nat.eq_dec j t) as [-> | n].
    + left. apply Hd. congruence.
    + destruct (region_dec s g (th_stack th)) as [Y|Y].
      * left. auto.
      * right. auto.
  - intros g E. rewrite Sd in E. apply r_dfr0 in E. specialize (HA g). lia.
  - intros g E. rewrite Sg in E. auto.
  - congruence.
  - intros s. rewrite Sc. auto.
  - congruence.
  - intros g. rewrite r_order0. apply filter_ext. intros s. unfold connected. now rewrite Sc.
  - congruence.
  - intros g. rewrite Sg. auto.
Qed.

Section Frames.
Variables (st : state) (i : ideal) (L : nat -> list nat) (H : nat -> option nat) (t : nat) (th : thread) (is : list iframe).
Hypothesis R : rel st i L H.
Hypothesis Et : nth_error (threads st) t = Some th.
Hypothesis Ei : nth_error (i_threads i) t = Some is.
Hypothesis Rs : stack_rel (world_of (mm st) L) (th_tls th) (th_stack th) is.

Lemma t_lt : t < length (threads st).
Proof. eapply nth_some_lt; eauto. Qed.
Lemma it_lt : t < length (i_threads i).
Proof. eapply nth_some_lt; eauto. Qed.

Lemma world_keep m' : same (mm st) m' -> forall fs tl is',
  incl fs (th_stack th) -> stack_rel (world_of (mm st) L) tl fs is' -> stack_rel (world_of m' L) tl fs is'.
Proof.
  intros S fs tl is' Hi. apply stack_rel_mono. apply world_same; auto.
  - intros e He. change (w_live (world_of (mm st) L) (e_sig e) = true). eapply stack_rel_emit; eauto.
  - intros s g He. change (w_live (world_of (mm st) L) g = true). eapply stack_rel_disc; eauto.
  - intros g s. eapply minv_bound. apply (r_minv _ _ _ _ R).
Qed.

Section User.
Hypothesis Hr : user_ready th = true.

Lemma ir : i_ready is = true.
Proof. eapply ready_ideal; eauto. Qed.

Ltac start o := unfold outcome_ok; rewrite (user_go st t th Et Hr o _ eq_refl); cbn [user_step].

Lemma below_user : below (th_stack th).
Proof.
  unfold user_ready in Hr. destruct (th_stack th) as [|[e|s d] fs]; cbn; auto; try discriminate.
  destruct (e_phase e); try discriminate; auto.
Qed.

Lemma ok_stop : outcome_ok st t (User UStop) i.
Proof.
  start UStop.
  assert (exists is', i_user i t is UStop = Some (i_set_thread i t is', ONone) /\
     stack_rel (world_of (mm st) L) (mktls true (t_current (th_tls th))) (th_stack th) is') as (is' & E & Rs').
  { pose proof Hr as Hr'. unfold user_ready in Hr'. revert Rs. cbn [i_user].
    destruct (th_stack th) as [|[e|s d] fs], is as [|[ie|s' fin] js]; cbn [stack_rel]; try contradiction; try discriminate.
    - intros C. exists []. split; [rewrite set_id; auto|auto].
    - destruct (e_phase e) eqn:Ep; try discriminate. intros ((E1 & E2 & E3 & E4 & E5) & C & B & S).
      eexists. split; [reflexivity|]. cbn [stack_rel t_stopped t_current].
      rewrite Ep in E5. destruct E5 as (c & md & la & Q1 & Q2 & Q3 & Q4 & Q5).
      split; [|split; [|split]]; auto. unfold emission_rel. cbn. split; auto. split; auto. split; auto. split; auto.
      rewrite Ep. exists c, md, la. auto 10. }
  exists (i_set_thread i t is'), L, H. split.
  { eapply iuser_go; eauto. apply ir. }
  pose proof (rel_thread st i L H t th (mm st) (mktls true (t_current (th_tls th))) (th_stack th) is' (handles st) (lost st) (fresh st) R Et (same_refl _)) as Z.
  cbn zeta in Z. unfold i_set_thread. rewrite (r_handles _ _ _ _ R), (r_fresh _ _ _ _ R). apply Z; auto.
  - eapply minv_ext; [apply (r_minv _ _ _ _ R)|auto|auto| |auto|].
    + intros k. pose proof (X_upd st t th (mm st) (mktls true (t_current (th_tls th))) (th_stack th) k Et). lia.
    + intros g. pose proof (A_upd st t th (mm st) (mktls true (t_current (th_tls th))) (th_stack th) (handles st) (blockers st) (lost st) (fresh st) g Et). lia.
  - intros g. pose proof (A_upd st t th (mm st) (mktls true (t_current (th_tls th))) (th_stack th) (handles st) (blockers st) (lost st) (fresh st) g Et). lia.
Qed.

Lemma ok_current : outcome_ok st t (User UCurrent) i.
Proof.
  start UCurrent. pose proof Hr as Hr'. unfold user_ready in Hr'. pose proof ir as Hir. pose proof Rs as Rs0.
  destruct (th_stack th) as [|[e|s d] fs] eqn:Es, is as [|[ie|s' fin] js] eqn:Eis; cbn [stack_rel] in Rs0; try contradiction; try discriminate.
  - rewrite Rs0. eexists. exists L, H. split.
    + eapply iuser_go; eauto. reflexivity.
    + unfold i_set_handles, set_handles. rewrite (r_handles _ _ _ _ R).
      replace (i_blockers i) with (blockers st) by (symmetry; apply (r_blockers _ _ _ _ R)).
      apply (ok_same_tables st i L H R); auto. intros k. rewrite tot_app. cbn. lia.
  - destruct (e_phase e) eqn:Ep; try discriminate. destruct Rs0 as ((E1 & E2 & E3 & E4 & E5) & C & B & S).
    rewrite Ep in E5. destruct E5 as (c & md & la & Q1 & Q2 & Q3 & Q4 & Q5). rewrite (C eq_refl), Q1.
    assert (0 < X st c) as Hc.
    { pose proof (frame_X st t th (FEmit e) c Et) as F. rewrite Es in F. specialize (F (or_introl eq_refl)). cbn in F.
      rewrite Ep, Q1, hold_some in F. lia. }
    destruct (add_ref_ok _ _ _ _ _ _ c (r_minv _ _ _ _ R) (X_refs _ _ _ _ _ R Hc)) as (m' & E & I & Sm).
    rewrite E. cbn [lift]. eexists. exists L, H. split.
    + eapply iuser_go; eauto. cbn [i_user]. rewrite Q5. reflexivity.
    + unfold i_set_handles, set_handles, set_mem. cbn [mm threads handles blockers lost fresh]. rewrite (r_handles _ _ _ _ R), (r_blockers _ _ _ _ R).
      apply (rel_tables st i L H); auto. eapply minv_ext; eauto. intros k.
      unfold X at 1; cbns. rewrite tot_app. cbn [tot]. rewrite (hold_eq k (Some c)). cbn [is_slot]. rewrite (Nat.eqb_sym c k).
      unfold X. destruct (Nat.eqb k c); cbn [b2n]; lia.
Qed.

Lemma ok_disconnect h : outcome_ok st t (User (UDisconnect h)) i.
Proof.
  start (UDisconnect h). destruct (nth_error (handles st) h) as [[s|]|] eqn:Eh; [| |discriminate].
  -
    eexists. exists L, H. split.
    { eapply iuser_go; eauto; [apply ir|]. cbn [i_user]. rewrite (r_handles _ _ _ _ R), Eh. reflexivity. }
    unfold i_set_thread, i_set_handles; cbns. rewrite (r_fresh _ _ _ _ R).
    assert (forall g, A (mkstate (mm st) (upd (threads st) t (mkthread (th_tls th) (FDisc s DExchange :: th_stack th))) (upd (handles st) h None) (blockers st) (lost st) (fresh st)) g = A st g) as HA.
    { intros g. pose proof (A_upd st t th (mm st) (th_tls th) (FDisc s DExchange :: th_stack th) (upd (handles st) h None) (blockers st) (lost st) (fresh st) g Et) as U.
      cbn [tot frame_emits] in U. lia. }
    apply (rel_thread st i L H t th); auto.
    + apply same_refl.
    + eapply minv_ext; [apply (r_minv _ _ _ _ R)|auto|auto| |auto|auto]. intros k.
      pose proof (X_upd st t th (mm st) (th_tls th) (FDisc s DExchange :: th_stack th) k Et) as U.
      pose proof (tot_upd (hold k) _ _ _ None Eh) as V. cbn [tot frame_holds] in U.
      unfold X in *; cbns. cbn [mm threads handles blockers lost fresh] in U. rewrite (hold_eq k (Some s)) in V. cbn [is_slot] in V.
      change (hold k None) with 0 in V. change (@put) with (@upd). lia.
    + intros s' g Hi. right. auto.
    + intros g. rewrite HA. auto.
    + cbn [stack_rel]. split; auto. split; auto. split; [intros g E; discriminate|].
      split; [intros E; congruence|]. split; auto. apply below_user.
  - exists i, L, H. split; auto. eapply iuser_go; eauto; [apply ir|]. cbn [i_user]. rewrite (r_handles _ _ _ _ R), Eh. reflexivity.
Qed.

Lemma ok_return : outcome_ok st t (User UReturn) i.
Proof.
  start UReturn. pose proof Hr as Hr'. unfold user_ready in Hr'. pose proof ir as Hir. pose proof Rs as Rs0.
  destruct (th_stack th) as [|[e|s d] fs] eqn:Es, is as [|[ie|s' fin] js] eqn:Eis; cbn [stack_rel] in Rs0; try contradiction; try discriminate.
  destruct (e_phase e) eqn:Ep; try discriminate. destruct Rs0 as ((E1 & E2 & E3 & E4 & E5) & C & B & S).
  rewrite Ep in E5. destruct E5 as (c & md & la & Q1 & Q2 & Q3 & Q4 & Q5).
  eexists. exists L, H. split.
  { eapply iuser_go; eauto. reflexivity. }
  unfold i_set_thread; cbns. rewrite (r_fresh _ _ _ _ R), (r_handles _ _ _ _ R).
  assert (forall g, A (mkstate (mm st) (upd (threads st) t (mkthread (th_tls th) (FEmit (at_phase e PAdvance) :: fs))) (handles st) (blockers st) (lost st) (fresh st)) g = A st g) as HA.
  { intros g. pose proof (A_upd st t th (mm st) (th_tls th) (FEmit (at_phase e PAdvance) :: fs) (handles st) (blockers st) (lost st) (fresh st) g Et) as U.
    rewrite Es in U. cbn [tot frame_emits at_phase e_sig] in U. lia. }
  apply (rel_thread st i L H t th); auto.
  - apply same_refl.
  - eapply minv_ext; [apply (r_minv _ _ _ _ R)|auto|auto| |auto|auto]. intros k.
    pose proof (X_upd st t th (mm st) (th_tls th) (FEmit (at_phase e PAdvance) :: fs) k Et) as U.
    rewrite Es in U. cbn [tot frame_holds at_phase e_cur e_last e_phase] in U. rewrite Ep in U. lia.
  - rewrite Es. intros s g [Hi|Hi]; [discriminate|right; auto].
  - intros g. rewrite HA. auto.
  - cbn [stack_rel]. split; [|split; [intros E; discriminate|auto]].
    unfold emission_rel. cbn [at_phase e_phase e_id e_sig e_cur e_last ie_id ie_sig ie_todo ie_stop ie_at].
    split; auto. split; auto. split; auto. split; auto. exists c, md, la. auto 10.
Qed.

Lemma ok_throw : outcome_ok st t (User UThrow) i.
Proof.
  start UThrow. pose proof Hr as Hr'. unfold user_ready in Hr'. pose proof ir as Hir. pose proof Rs as Rs0.
  destruct (th_stack th) as [|[e|s d] fs] eqn:Es, is as [|[ie|s' fin] js] eqn:Eis; cbn [stack_rel] in Rs0; try contradiction; try discriminate.
  destruct (e_phase e) eqn:Ep; try discriminate. destruct Rs0 as ((E1 & E2 & E3 & E4 & E5) & C & B & S).
  rewrite Ep in E5. destruct E5 as (c & md & la & Q1 & Q2 & Q3 & Q4 & Q5). rewrite Q1.
  eexists. exists L, H. split.
  { eapply iuser_go; eauto. reflexivity. }
  unfold i_set_thread; cbns. rewrite (r_fresh _ _ _ _ R), (r_handles _ _ _ _ R).
  set (fs' := FEmit _ :: fs).
  assert (forall g, A (mkstate (mm st) (upd (threads st) t (mkthread (th_tls th) fs')) (handles st) (blockers st) (c :: lost st) (fresh st)) g = A st g) as HA.
  { intros g. pose proof (A_upd st t th (mm st) (th_tls th) fs' (handles st) (blockers st) (c :: lost st) (fresh st) g Et) as U.
    rewrite Es in U. unfold fs' in U at 2. cbn [tot frame_emits e_sig] in U. lia. }
  apply (rel_thread st i L H t th); auto.
  - apply same_refl.
  - eapply minv_ext; [apply (r_minv _ _ _ _ R)|auto|auto| |auto|auto]. intros k.
    pose proof (X_upd st t th (mm st) (th_tls th) fs' k Et) as U. rewrite Es in U. unfold fs' in U at 2.
    cbn [tot frame_holds at_phase e_cur e_last e_phase] in U. rewrite Ep, Q1 in U. rewrite (hold_eq k (Some c)) in U. cbn [is_slot] in U.
    unfold X in *; cbn [mm threads handles blockers lost fresh] in *. cbn [tot]. lia.
  - rewrite Es. intros s g [Hi|Hi]; [discriminate|right; auto].
  - intros g. rewrite HA. auto.
  - unfold fs'. cbn [stack_rel]. split; [|split; [intros E; discriminate|auto]].
    unfold emission_rel. cbn [at_phase e_phase e_id e_sig e_cur e_last ie_id ie_sig ie_todo ie_stop ie_at].
    repeat (split; auto).
Qed.

Lemma filter_idem {T} (f : T -> bool) l : filter f (filter f l) = filter f l.
Proof. induction l as [|x l IH]; cbn; auto. destruct (f x) eqn:E; cbn; rewrite ?E, IH; auto. Qed.

Lemma ok_emit g : outcome_ok st t (User (UEmit g)) i.
Proof.
  start (UEmit g). destruct (sig_live (mm st) g) eqn:Eg; [|discriminate].
  assert (glive (mm st) g = true) as Hg by exact Eg. pose proof (r_minv _ _ _ _ R) as I0.
  rewrite (get_sig_ok _ _ Hg). cbn [lift g_active g_head g_tail].
  rewrite (chain_hd _ _ _ (mi_chain _ _ _ _ _ _ I0 g)), (mi_tail _ _ _ _ _ _ I0).
  destruct (set_active_ok _ _ _ _ _ _ g (gact (mm st) g + 1) I0 Hg) as (m1 & E1 & I1 & S1).
  rewrite E1. cbn [lift].
  assert (forall s, In s (L g) -> 0 < refs m1 s) as Hp1 by (intros s Hs; eapply minv_in_refs; eauto).
  assert (forall s, last_opt (L g) = Some s -> In s (L g)) as Hla.
  { intros s Hs. clear - Hs. induction (L g) as [|x l IH]; [discriminate|]. cbn in Hs. destruct l; [injection Hs as ->; left; auto|].
    right. apply IH. exact Hs. }
  assert (forall s, hd_opt (L g) = Some s -> In s (L g)) as Hhd.
  { intros s Hs. destruct (L g); [discriminate|]. injection Hs as ->. left; auto. }
  destruct (add_ref_opt_ok _ _ _ _ _ _ (last_opt (L g)) I1) as (m2 & E2 & I2 & S2); [intros s Hs; auto|].
  rewrite E2. cbn [lift].
  destruct (add_ref_opt_ok _ _ _ _ _ _ (hd_opt (L g)) I2) as (m3 & E3 & I3 & S3).
  { intros s Hs. eapply minv_in_refs; eauto. }
  rewrite E3. cbn [lift].
  pose proof (same_trans _ _ _ S1 (same_trans _ _ _ S2 S3)) as Sm.
  eexists. exists L, H. split.
  { eapply iuser_go; eauto; [apply ir|]. cbn [i_user]. unfold i_alive. rewrite (r_live _ _ _ _ R), Hg. rewrite (r_fresh _ _ _ _ R). reflexivity. }
  cbns. rewrite (r_handles _ _ _ _ R).
  set (e := mkem _ _ _ _ _ _).
  assert (forall k, A (mkstate m3 (upd (threads st) t (mkthread (mktls false (t_current (th_tls th))) (FEmit e :: th_stack th))) (handles st) (blockers st) (lost st) (S (fresh st))) k
            = fupd (A st) g (gact (mm st) g + 1) k) as HA.
  { intros k. pose proof (A_upd st t th m3 (mktls false (t_current (th_tls th))) (FEmit e :: th_stack th) (handles st) (blockers st) (lost st) (S (fresh st)) k Et) as U.
    cbn [tot frame_emits e e_sig] in U. unfold fupd. rewrite (mi_act _ _ _ _ _ _ I0). rewrite (Nat.eqb_sym g k) in U. destruct (Nat.eqb_spec k g) as [Ekg|n]; cbn [b2n] in U; try (rewrite Ekg in *); lia. }
  apply (rel_thread st i L H t th); auto.
  - eapply minv_ext; [exact I3|auto|auto| |auto|auto]. intros k.
    pose proof (X_upd st t th m3 (mktls false (t_current (th_tls th))) (FEmit e :: th_stack th) k Et) as U.
    assert (tot (frame_holds k) (FEmit e :: th_stack th) = hold k (hd_opt (L g)) + hold k (last_opt (L g)) + tot (frame_holds k) (th_stack th)) as V.
    { cbn [tot frame_holds e e_phase e_cur e_last]. destruct (L g); cbn [hd_opt is_some]; auto. }
    rewrite V in U. unfold X in *; cbn [mm threads handles blockers lost fresh] in *. rewrite !hold_eq in U.
    destruct (is_slot (hd_opt (L g)) k), (is_slot (last_opt (L g)) k); cbn [b2n] in U; lia.
  - intros s k Hi. right. auto.
  - intros k. rewrite HA. unfold fupd. rewrite (mi_act _ _ _ _ _ _ I0). destruct (Nat.eqb_spec k g) as [-> | n]; lia.
  - cbn [stack_rel e e_prev]. split; [|split].
    + unfold emission_rel. cbn [e_id e_sig e_phase e_cur e_last ie_id ie_sig ie_todo ie_stop ie_at t_stopped].
      split; auto. split; auto. split; auto. split; [cbn; rewrite (sm_glive _ _ Sm); auto|].
      rewrite (r_order _ _ _ _ R).
      assert (forall s, In s (L g) -> s < w_len (world_of m3 L)) as Hb.
      { intros s Hs. cbn. rewrite (sm_hlen _ _ Sm). eapply minv_bound; eauto. }
      assert (todo_ok (world_of m3 L) (L g) (filter (connected (mm st)) (L g))) as Ht.
      { split.
        - cbn. assert (forall l, filter (connected m3) l = filter (connected (mm st)) l) as Ef.
          { intros l. apply filter_ext. intros s. unfold connected. now rewrite (sm_conn _ _ Sm). }
          now rewrite !Ef, filter_idem.
        - intros s Hs. apply filter_In in Hs. apply Hb, Hs. }
      destruct (L g) as [|c md] eqn:EL; cbn [hd_opt is_some].
      * right. split; auto.
      * split; auto. split; auto.
        destruct (last_opt (c :: md)) as [la|] eqn:Ela.
        -- exists c, md, la. split; auto. split; auto. split; auto. cbn. rewrite EL. exists [], []. rewrite app_nil_r. auto.
        -- exfalso. clear - Ela. revert c Ela. induction md as [|d md IH]; intros c E; [discriminate|]. cbn in E. eapply IH, E.
    + destruct (L g); intros E; discriminate.
    + split; [apply below_user|]. eapply world_keep; eauto. apply incl_refl.
Qed.

End User.
End Frames.
