(** Emissions in the signal machine: order, completeness, end. *)
From Coq Require Import List Arith Bool Lia.
From Verif Require Import Base XinfoProofs SignalModel SignalSpec SignalMemProofs SignalRelProofs SignalStepProofs SignalFrameProofs SignalTauProofs SignalEmitProofs SignalRunProofs SignalDeadProofs SignalTraceProofs.
Import ListNotations.
Local Open Scope outcome_scope.

Lemma emission_calls n evs st t g st1 e evs' st' :
  runs (init n) evs st -> step st t (User (UEmit g)) = Next st1 (OStarted e) -> runs st1 evs' st' ->
  part_of (calls e evs') (slots_of st g).
Proof.
  intros Rn E Rn'. destruct (reach_ids _ _ _ Rn) as (i & L & H & IR & R & Ok).
  pose proof (step_ok st i L H t (User (UEmit g)) R I) as O. unfold outcome_ok in O. rewrite E in O.
  destruct O as (i1 & L1 & H1 & IR1 & R1). cbn [event_of] in IR1.
  destruct (start_order _ _ _ _ _ IR1 Ok) as (He & Hf & P). destruct (ids_runs _ _ _ IR1 Ok) as [Ok1 _].
  destruct (runs_rel _ _ _ Rn' _ _ _ R1) as (i2 & L2 & H2 & IR2 & R2).
  rewrite (slots_of_is _ _ _ _ _ R). eapply part_of_trans; [exact P|].
  pose proof (rest_runs _ _ _ e IR2 Ok1 Hf) as Q. eapply part_of_trans; [exact Q|].
  clear. generalize (rest e i2). induction (calls e evs') as [|x l IH]; intros k; cbn; [apply part_of_nil|apply po_take; auto].
Qed.

Lemma blocked_ideal st i L H s : rel st i L H -> blockers_on st s = 0 -> i_blocked i s = false.
Proof.
  intros R. unfold blockers_on, i_blocked. rewrite (r_blockers _ _ _ _ R). induction (blockers st) as [|[k|] l IH]; cbn; auto.
  destruct (Nat.eqb k s); [discriminate|auto].
Qed.

Lemma conn_ideal st i L H s : rel st i L H -> i_conn i s = sender st s.
Proof. intros R. unfold i_conn. rewrite (r_slots _ _ _ _ R). now rewrite sender_is. Qed.

Lemma ideal_len i evs i' s : ideal_runs i evs i' -> s < length (i_slots i) -> s < length (i_slots i').
Proof.
  intros R. induction R as [|i u l j r evs k E R IH]; intros Hs; auto. apply IH. apply (istep_conn _ _ _ _ _ s E Hs).
Qed.

Definition steady (s : nat) (st : state) : Prop := sender st s <> None /\ blockers_on st s = 0.

Lemma pend_with t e s st evs st' : runs_with (steady s) (cut t e) st evs st' ->
  forall i L H, rel st i L H -> ids_ok i -> s < length (i_slots i) -> pend i t e s ->
  exists i' L' H', ideal_runs i evs i' /\ rel st' i' L' H' /\ (In s (calls e evs) \/ pend i' t e s).
Proof.
  intros Rn. induction Rn as [st Hst|st u l st1 r evs st2 [P1 P2] Hn Hr E Rn IH]; intros i L H R Ok Hl Hp.
  - exists i, L, H. split; [constructor|auto].
  - pose proof (step_ok st i L H u l R Hr) as O. unfold outcome_ok in O. rewrite E in O.
    destruct O as (i1 & L1 & H1 & IR1 & R1). destruct (ids_runs _ _ _ IR1 Ok) as [Ok1 _].
    assert (steady s st1) as [Q1 Q2] by (inversion Rn; subst; auto).
    pose proof (ideal_len _ _ _ _ IR1 Hl) as Hl1.
    destruct (pend_runs _ _ _ t e s IR1 Ok Hl) as [W|W]; auto.
    + rewrite (conn_ideal _ _ _ _ _ R1). auto.
    + eapply blocked_ideal; eauto.
    + eapply blocked_ideal; eauto.
    + destruct l; cbn; auto. destruct r; cbn; auto.
    + intros o r' Hi Ho. destruct l as [o'|].
      2: { exfalso. destruct r; cbn in Hi; try contradiction; destruct Hi as [W|[]]; discriminate. }
      destruct Hi as [W|[]]. injection W as -> -> ->.
      unfold step in E. destruct (nth_error (threads st) t) as [th|] eqn:Et; [|discriminate].
      destruct (user_ready th) eqn:Hu; [|discriminate].
      destruct (Forall2_nth _ _ _ _ _ (r_threads _ _ _ _ R) Et) as (is & Ei & Rs). cbn beta in Rs.
      exists is. split; auto. split; [eapply ir; eauto|]. intros ie rs -> Hie.
      apply Hn. split; auto. split. { destruct Ho as [-> | ->]; auto. }
      unfold innermost. rewrite Et. destruct (th_stack th) as [|[em|k d] fs]; cbn in Rs; try contradiction.
      destruct Rs as ((R2 & _) & _). congruence.
    + destruct (runs_rel st1 evs st2) with (i := i1) (L := L1) (H := H1) as (i2 & L2 & H2 & IR2 & R2); auto.
      { clear - Rn. induction Rn; [constructor|econstructor; eauto]. }
      exists i2, L2, H2. split; [eapply ir_app; eauto|]. split; auto. left. rewrite calls_app. apply in_or_app. auto.
    + destruct (IH _ _ _ R1 Ok1 Hl1 W) as (i2 & L2 & H2 & IR2 & R2 & D). exists i2, L2, H2. split; [eapply ir_app; eauto|].
      split; auto. rewrite calls_app. destruct D as [D|D]; auto. left. apply in_or_app. auto.
Qed.

Lemma runs_with_start P N st evs st' : runs_with P N st evs st' -> P st.
Proof. intros R. inversion R; auto. Qed.

Lemma emission_complete n evs st t g st1 e evs' st' s :
  runs (init n) evs st -> step st t (User (UEmit g)) = Next st1 (OStarted e) -> In s (slots_of st g) ->
  runs_with (fun st => sender st s <> None /\ blockers_on st s = 0) (cut t e) st1 evs' st' ->
  In (ELib t (OEnded e)) evs' -> In s (calls e evs').
Proof.
  intros Rn E Hs Rw Hend. change (runs_with (steady s) (cut t e) st1 evs' st') in Rw.
  destruct (reach_ids _ _ _ Rn) as (i & L & H & IR & R & Ok).
  pose proof (step_ok st i L H t (User (UEmit g)) R I) as O. unfold outcome_ok in O. rewrite E in O.
  destruct O as (i1 & L1 & H1 & IR1 & R1). cbn [event_of] in IR1.
  destruct (start_order _ _ _ _ _ IR1 Ok) as (He & Hf & _). destruct (ids_runs _ _ _ IR1 Ok) as [Ok1 _].
  destruct (runs_with_start _ _ _ _ _ Rw) as [Q1 Q2].
  destruct (slots_of_spec _ _ _ _ g R) as [_ Hin].
  assert (s < length (i_slots i)) as Hl.
  { apply Hin in Hs. rewrite <- (conn_ideal _ _ _ _ _ R) in Hs. unfold i_conn in Hs.
    destruct (Nat.lt_ge_cases s (length (i_slots i))) as [W|W]; auto. rewrite nth_overflow in Hs by auto. discriminate. }
  rewrite (slots_of_is _ _ _ _ _ R) in Hs.
  destruct (start_pend _ _ _ _ _ s IR1 Ok Hs Hl) as (k & Pk & IRk & Okk & Hlk).
  { rewrite (conn_ideal _ _ _ _ _ R1). auto. }
  destruct (pend_runs _ _ _ t e s IRk Okk Hlk) as [W|W]; auto.
  - rewrite (conn_ideal _ _ _ _ _ R1). auto.
  - unfold i_blocked. rewrite <- (no_users_blockers _ _ _ IRk) by auto. eapply blocked_ideal; eauto.
  - eapply blocked_ideal; eauto.
  - intros o r [].
  - destruct W.
  - destruct (pend_with _ _ _ _ _ _ Rw _ _ _ R1 Ok1) as (i2 & L2 & H2 & IR2 & R2 & D); auto.
    { eapply ideal_len; eauto. }
    destruct D as [D|(fs & ie & Et & Hi & Hid & _)]; auto. exfalso.
    pose proof (ended_gone _ _ _ _ _ IR2 Ok1 Hf Hend) as Z. unfold nids in Z.
    pose proof (tot_pos (tot (is_id e)) _ _ _ Et) as T1. pose proof (tot_in (is_id e) _ _ Hi) as T2. cbn in T2.
    rewrite Hid, Nat.eqb_refl in T2. cbn in T2. lia.
Qed.

(* -------------------------------------------- only connected, unblocked slots *)

Definition found_unblocked (st : state) (t e s : nat) : Prop :=
  exists th em, nth_error (threads st) t = Some th /\ In (FEmit em) (th_stack th) /\ e_id em = e /\ e_phase em = PValid /\ e_cur em = Some s.

Lemma frames_step st t l st' r th : step st t l = Next st' r -> nth_error (threads st) t = Some th ->
  forall t' th' em, nth_error (threads st') t' = Some th' -> In (FEmit em) (th_stack th') ->
  (exists th0, nth_error (threads st) t' = Some th0 /\ In (FEmit em) (th_stack th0)) \/
  t' = t /\ (e_phase em = PValid -> exists em0, In (FEmit em0) (th_stack th) /\ e_id em0 = e_id em /\ e_cur em0 = e_cur em /\ e_phase em0 = PBlocked /\
               (forall s x, e_cur em = Some s -> nth_error (heap (mm st)) s = Some x -> s_block x = 0)) /\
            (e_phase em = PCall -> exists em0, In (FEmit em0) (th_stack th) /\ e_id em0 = e_id em /\ e_cur em0 = e_cur em /\ e_phase em0 = PValid /\
               (forall s, e_cur em = Some s -> sender st s <> None)).
Proof.
  intros E Et t' th' em Et' Hi.
  assert (nth_error (threads st) t' = Some th' -> exists th0, nth_error (threads st) t' = Some th0 /\ In (FEmit em) (th_stack th0)) as Keep.
  { intros Ek. exists th'. auto. }
  unfold step in E. rewrite Et in E.
  assert (forall (C : Prop) m hs bs lo fr tl fs, st' = mkstate m (upd (threads st) t (mkthread tl fs)) hs bs lo fr ->
     (In (FEmit em) fs -> In (FEmit em) (th_stack th) \/ C) ->
     (exists th0, nth_error (threads st) t' = Some th0 /\ In (FEmit em) (th_stack th0)) \/ (t' = t /\ C)) as Upd.
  { intros C m hs bs lo fr tl fs -> Hf. cbn in Et'. apply upd_nth in Et'. destruct Et' as [[-> ->]|[_ Ek]]; auto.
    cbn in Hi. destruct (Hf Hi) as [W|W]; auto. left. exists th. auto. }
  destruct l as [o|].
  - destruct (user_ready th) eqn:Hr; [|discriminate].
    destruct o; cbn [user_step] in E; unfold lift in E; break E; inj E; cbn in Et'; try (left; apply Keep; exact Et').
    all: (eapply Upd; [reflexivity|]).
    all: intros W.
    all: try (left; exact W).
    all: destruct W as [W|W]; [|left; first [exact W|right; exact W]].
    all: try discriminate W.
    all: injection W as W; right; rewrite <- W; cbn; split; try (intros Q; discriminate Q).
    all: intros Q; break Q.
  - unfold tau_step in E. unfold lift in E. destruct (th_stack th) as [|f fs] eqn:Es; [discriminate|].
    destruct f as [e0|s0 d].
    + destruct (e_phase e0) eqn:Ep.
      1: { destruct (e_cur e0) as [c|] eqn:Ec; [|discriminate]. unfold get_slot in E. destruct (nth_error (heap (mm st)) c) as [x|] eqn:Ex; [|discriminate].
           destruct (s_live x); [|discriminate]. inj E. eapply Upd; [reflexivity|]. intros [W|W]; [|left; right; auto].
           injection W as W. right. rewrite <- W. cbn. split.
           - intros Q. exists e0. split; [left; auto|]. repeat split; auto. intros s y Hs Hy. assert (y = x) as -> by congruence.
             unfold blocked in Q. destruct (s_block x); auto. discriminate.
           - intros Q. destruct (blocked x); discriminate. }
      1: { destruct (e_cur e0) as [c|] eqn:Ec; [|discriminate]. unfold get_slot in E. destruct (nth_error (heap (mm st)) c) as [x|] eqn:Ex; [|discriminate].
           destruct (s_live x); [|discriminate]. inj E. eapply Upd; [reflexivity|]. intros [W|W]; [|left; right; auto].
           injection W as W. right. rewrite <- W. cbn. split.
           - intros Q. destruct (valid x); discriminate.
           - intros Q. exists e0. split; [left; auto|]. repeat split; auto. intros s Hs. assert (s = c) as -> by congruence.
             unfold sender. rewrite Ex. unfold valid in Q. destruct (s_sender x); [discriminate|discriminate]. }
      all: try discriminate E.
      all: break E.
      all: inj E.
      all: (eapply Upd; [reflexivity|]).
      all: intros W.
      all: try (left; right; exact W).
      all: destruct W as [W|W]; [|left; right; exact W].
      all: injection W as W; right; rewrite <- W; cbn; split; try (intros Q; discriminate Q).
      all: intros Q; break Q.
    + break E.
      all: inj E.
      all: (eapply Upd; [reflexivity|]).
      all: intros W; left.
      all: try (right; exact W).
      all: destruct W as [W|W]; [discriminate W|right; exact W].
Qed.

Lemma blk_count st i L H s x : rel st i L H -> nth_error (heap (mm st)) s = Some x -> s_block x = blockers_on st s.
Proof.
  intros R E. pose proof (mi_blk _ _ _ _ _ _ (r_minv _ _ _ _ R) s) as K. unfold blk, slot_view in K. rewrite E in K. rewrite K.
  unfold B, blockers_on. induction (blockers st) as [|b l IH]; cbn; auto. rewrite IH. unfold hold, is_slot.
  destruct b as [k|]; auto. destruct (Nat.eqb k s); auto.
Qed.

Lemma frame_cur_exists st i L H t th em s : rel st i L H -> nth_error (threads st) t = Some th -> In (FEmit em) (th_stack th) ->
  e_phase em = PBlocked -> e_cur em = Some s -> exists x, nth_error (heap (mm st)) s = Some x.
Proof.
  intros R Et Hi Hp Hc. pose proof (mi_refs _ _ _ _ _ _ (r_minv _ _ _ _ R) s) as K.
  assert (0 < X st s) as Hx.
  { unfold X. pose proof (tot_pos (thread_holds s) _ _ _ Et) as T1. unfold thread_holds in T1 at 1.
    pose proof (tot_in (frame_holds s) _ _ Hi) as T2. cbn in T2. rewrite Hp, Hc in T2. unfold hold, is_slot in T2. rewrite Nat.eqb_refl in T2.
    cbn in T2. lia. }
  assert (0 < refs (mm st) s) as Hr by lia. apply refs_range in Hr.
  destruct (nth_error (heap (mm st)) s) as [x|] eqn:E; eauto. apply nth_error_None in E. lia.
Qed.

(** A call is preceded by a moment when the slot is connected, itself preceded
    by one when it is unblocked. *)
Definition justified (st : state) (t e s : nat) (evs : list event) (st' : state) : Prop :=
  exists a b m, evs = a ++ b /\ runs st a m /\ runs m b st' /\ sender m s <> None /\ In (ELib t (OCalled e s)) b.

Lemma calls_justified n evs0 st evs st' t e s : runs (init n) evs0 st -> runs st evs st' -> In (ELib t (OCalled e s)) evs ->
  about_to_call st t e s \/
  (found_unblocked st t e s /\ justified st t e s evs st') \/
  (exists a b m, evs = a ++ b /\ runs st a m /\ runs m b st' /\ blockers_on m s = 0 /\ justified m t e s b st').
Proof.
  intros R0 R. revert evs0 R0. induction R as [|st u l st1 r evs st2 Hr E R IH]; intros evs0 R0 Hi; [destruct Hi|].
  pose proof (runs_one _ _ _ _ _ Hr E) as R1.
  assert (exists th, nth_error (threads st) u = Some th) as [th Et].
  { unfold step in E. destruct (nth_error (threads st) u); [eauto|discriminate]. }
  apply in_app_or in Hi. destruct Hi as [Hi|Hi].
  - left. eapply called_step; eauto.
  - destruct (IH (evs0 ++ event_of u l r)) as [A1|[[A1 A2]|A1]]; auto.
    + eapply runs_app; eauto.
    + destruct A1 as (th' & em & Et' & Hf & Hid & Hp & Hc).
      destruct (frames_step _ _ _ _ _ _ E Et _ _ _ Et' Hf) as [(th0 & Et0 & Hf0)|(-> & _ & Hcall)].
      * left. exists th0, em. auto.
      * destruct (Hcall Hp) as (em0 & Hf0 & Hid0 & Hc0 & Hp0 & Hs0). right. left. split.
        -- exists th, em0. rewrite Hid0, Hc0. auto.
        -- exists [], (event_of u l r ++ evs), st. split; auto. split; [constructor|]. split; [econstructor; eauto|]. split; [auto|].
           apply in_or_app. auto.
    + destruct A1 as (th' & em & Et' & Hf & Hid & Hp & Hc).
      assert (justified st t e s (event_of u l r ++ evs) st2) as J.
      { destruct A2 as (a & b & m & -> & Ra & Rb & Hs & Hb). exists (event_of u l r ++ a), b, m. rewrite app_assoc. split; auto.
        split; [eapply runs_app; eauto|auto]. }
      destruct (frames_step _ _ _ _ _ _ E Et _ _ _ Et' Hf) as [(th0 & Et0 & Hf0)|(-> & Hval & _)].
      * right. left. split; auto. exists th0, em. auto.
      * destruct (Hval Hp) as (em0 & Hf0 & Hid0 & Hc0 & Hp0 & Hs0). right. right.
        exists [], (event_of u l r ++ evs), st. split; auto. split; [constructor|]. split; [econstructor; eauto|]. split; [|auto].
        destruct (reach_rel _ _ _ R0) as (i & L & H & _ & Rr). rewrite Hc in Hc0.
        destruct (frame_cur_exists _ _ _ _ _ _ _ _ Rr Et Hf0 Hp0 Hc0) as [x Ex].
        rewrite <- (blk_count _ _ _ _ _ _ Rr Ex). eapply Hs0; eauto.
    + right. right. destruct A1 as (a & b & m & -> & Ra & Rb & Hb & J). exists (event_of u l r ++ a), b, m. rewrite app_assoc. split; auto.
      split; [eapply runs_app; eauto|auto].
Qed.

Lemma frame_ids w e : forall fs tl is, stack_rel w tl fs is -> forall em, In (FEmit em) fs -> e_id em = e -> 0 < tot (is_id e) is.
Proof.
  induction fs as [|f fs IH]; intros tl is S em Hi He; [destruct Hi|]. destruct is as [|j is]; cbn in S; [destruct f; contradiction|].
  destruct f as [em'|k d], j as [ie|k' fin]; try contradiction.
  - destruct S as ((S1 & _) & _ & _ & S). cbn. destruct Hi as [W|Hi].
    + injection W as ->. rewrite S1, He, Nat.eqb_refl. cbn. lia.
    + specialize (IH _ _ S _ Hi He). lia.
  - destruct S as (_ & _ & _ & _ & _ & S). destruct Hi as [W|Hi]; [discriminate|]. cbn. eapply IH; eauto.
Qed.

Lemma fresh_bound st i L H t th em : rel st i L H -> ids_ok i -> nth_error (threads st) t = Some th -> In (FEmit em) (th_stack th) ->
  e_id em < fresh st.
Proof.
  intros R Ok Et Hi. destruct (Forall2_nth _ _ _ _ _ (r_threads _ _ _ _ R) Et) as (is & Ei & Rs). cbn beta in Rs.
  pose proof (frame_ids _ (e_id em) _ _ _ Rs em Hi eq_refl) as P. pose proof (tot_pos (tot (is_id (e_id em))) _ _ _ Ei) as T.
  destruct (Ok (e_id em)) as [_ O]. rewrite (r_fresh _ _ _ _ R) in O. unfold nids in O.
  destruct (Nat.lt_ge_cases (e_id em) (fresh st)) as [W|W]; auto. specialize (O W). lia.
Qed.

Lemma emit_frames st t g st1 e : step st t (User (UEmit g)) = Next st1 (OStarted e) ->
  e = fresh st /\
  (exists th tl em, nth_error (threads st) t = Some th /\ threads st1 = upd (threads st) t (mkthread tl (FEmit em :: th_stack th)) /\ e_id em = e /\
     e_sig em = g /\ e_prev em = th_tls th /\ (e_phase em = PBlocked \/ e_phase em = PLast)).
Proof.
  intros E. unfold step in E. destruct (nth_error (threads st) t) as [th|] eqn:Et; [|discriminate].
  destruct (user_ready th) eqn:Hr; [|discriminate]. cbn [user_step] in E. unfold lift in E. break E.
  all: injection E as <- <-; split; auto.
  all: cbn; exists th; eexists; eexists; split; [reflexivity|].
  all: split; [reflexivity|].
  all: cbn; auto 10.
Qed.

Lemma called_when n evs st t g st1 e evs' st' u s :
  runs (init n) evs st -> step st t (User (UEmit g)) = Next st1 (OStarted e) -> runs st1 evs' st' ->
  In (ELib u (OCalled e s)) evs' ->
  exists a b c m1 m2, evs' = a ++ b ++ c /\ runs st1 a m1 /\ blockers_on m1 s = 0 /\ runs m1 b m2 /\ sender m2 s <> None /\
    runs m2 c st' /\ In (ELib u (OCalled e s)) c.
Proof.
  intros Rn E Rn' Hi. pose proof (runs_one st t (User (UEmit g)) st1 (OStarted e) I E) as R1.
  destruct (emit_frames _ _ _ _ _ E) as (He & th & tl & em & Et & Eth & Hid & _ & _ & Hph).
  destruct (reach_ids _ _ _ Rn) as (i & L & H & IR & R & Ok).
  assert (forall th' em', nth_error (threads st1) u = Some th' -> In (FEmit em') (th_stack th') -> e_id em' = e -> em' = em) as Only.
  { intros th' em' Et' Hf Hid'. rewrite Eth in Et'. apply upd_nth in Et'. destruct Et' as [[-> ->]|[_ Et']].
    - destruct Hf as [W|Hf]; [congruence|]. pose proof (fresh_bound _ _ _ _ _ _ _ R Ok Et Hf). lia.
    - pose proof (fresh_bound _ _ _ _ _ _ _ R Ok Et' Hf). lia. }
  destruct (calls_justified n _ _ _ _ u e s (runs_app _ _ _ _ _ Rn R1) Rn' Hi) as [A1|[[A1 A2]|A1]].
  - destruct A1 as (th' & em' & Et' & Hf & Hid' & Hp & Hc). rewrite (Only _ _ Et' Hf Hid') in Hp. destruct Hph; congruence.
  - destruct A1 as (th' & em' & Et' & Hf & Hid' & Hp & Hc). rewrite (Only _ _ Et' Hf Hid') in Hp. destruct Hph; congruence.
  - destruct A1 as (a & b & m & -> & Ra & Rb & Hb & (c & d & m2 & -> & Rc & Rd & Hs & Hj)). exists a, c, d, m, m2. auto 10.
Qed.
