(** Disconnected slots; blockers; references. *)
From Coq Require Import List Arith Bool Lia.
From Verif Require Import Base XinfoProofs SignalModel SignalSpec SignalMemProofs SignalRelProofs SignalStepProofs SignalFrameProofs SignalTauProofs SignalEmitProofs SignalRunProofs.
Import ListNotations.
Local Open Scope outcome_scope.

Ltac inj E := injection E as <- <-.

Lemma istep_conn i t l i' r s : istep i t l = Some (i', r) -> s < length (i_slots i) ->
  s < length (i_slots i') /\ (i_conn i s = None -> i_conn i' s = None).
Proof.
  unfold istep. destruct (nth_error (i_threads i) t) as [fs|]; [|discriminate]. unfold i_conn.
  destruct l as [o|].
  - destruct (i_ready fs); [|discriminate]. intros E Hs.
    destruct o; cbn [i_user] in E;
      repeat match type of E with
      | context [match ?x with _ => _ end] => destruct x; try discriminate
      end; inj E; cbn; auto.
    all: try solve [rewrite app_length; split; [lia|]; rewrite app_nth1 by auto; auto].
    all: try solve [unfold i_rename; rewrite map_length; split; auto; intros E;
      match goal with |- nth _ (map ?f _) None = None => rewrite (nth_map_none f) by auto; now rewrite E end].
  - intros E Hs. unfold i_tau in E.
    repeat match type of E with
      | context [match ?x with _ => _ end] => destruct x; try discriminate
      end; inj E; cbn; auto.
    rewrite length_put. split; auto. intros E. destruct (Nat.lt_ge_cases s0 (length (i_slots i))) as [Hl|Hl].
    + rewrite nth_put by auto. destruct (Nat.eqb s s0); auto.
    + replace (put (i_slots i) s0 None) with (i_slots i); auto. clear - Hl. revert s0 Hl.
      induction (i_slots i) as [|x l IH]; intros [|k] Hl; cbn in *; auto; [lia|]. rewrite <- IH; auto. lia.
Qed.

Lemma ideal_dead i evs i' s : ideal_runs i evs i' -> s < length (i_slots i) -> i_conn i s = None ->
  s < length (i_slots i') /\ i_conn i' s = None.
Proof.
  intros IR. induction IR as [|i t l j r evs k E IR IH]; intros Hs Hn; auto.
  destruct (istep_conn _ _ _ _ _ _ E Hs) as [H1 H2]. apply IH; auto.
Qed.

Lemma dead_stays n evs st evs' st' s :
  runs (init n) evs st -> exists_slot st s -> sender st s = None -> runs st evs' st' ->
  exists_slot st' s /\ sender st' s = None.
Proof.
  intros Rn Hs Hn Rn'. destruct (reach_rel _ _ _ Rn) as (i & L & H & _ & R).
  destruct (runs_rel _ _ _ Rn' _ _ _ R) as (i' & L' & H' & IR & R').
  unfold exists_slot in *. rewrite <- (r_slen _ _ _ _ R) in Hs. rewrite sender_is, <- (r_slots _ _ _ _ R) in Hn.
  destruct (ideal_dead _ _ _ _ IR Hs Hn) as [H1 H2]. rewrite sender_is, <- (r_slots _ _ _ _ R'), <- (r_slen _ _ _ _ R'). auto.
Qed.

Definition about_to_call (st : state) (t e s : nat) : Prop :=
  exists th em, nth_error (threads st) t = Some th /\ In (FEmit em) (th_stack th) /\ e_id em = e /\ e_phase em = PCall /\ e_cur em = Some s.

Ltac break E := repeat match type of E with
  | context [match ?x with _ => _ end] => destruct x eqn:?; try discriminate
  end.

Lemma upd_nth {T} (l : list T) k v j x : nth_error (upd l k v) j = Some x -> (j = k /\ x = v) \/ (j <> k /\ nth_error l j = Some x).
Proof.
  intros E. destruct (Nat.eq_dec j k) as [-> | n].
  - left. split; auto. assert (k < length l).
    { assert (k < length (upd l k v)) as Hl by (apply nth_error_Some; congruence). now rewrite length_upd in Hl. }
    rewrite nth_upd_same in E by auto. congruence.
  - right. rewrite nth_upd_other in E by auto. auto.
Qed.

(** A thread comes to be about to call a slot only by finding it connected. *)
Lemma about_step st t l st' r t' e s :
  step st t l = Next st' r -> about_to_call st' t' e s -> sender st s = None -> about_to_call st t' e s.
Proof.
  intros E (th' & em & Et' & Hi & H1 & H2 & H3) Hn.
  assert (nth_error (threads st) t' = Some th' -> about_to_call st t' e s) as Keep.
  { intros Ek. exists th', em. auto. }
  unfold step in E. destruct (nth_error (threads st) t) as [th|] eqn:Et; [|discriminate].
  assert (forall m hs bs lo fr tl fs, st' = mkstate m (upd (threads st) t (mkthread tl fs)) hs bs lo fr ->
     (In (FEmit em) fs -> In (FEmit em) (th_stack th)) -> about_to_call st t' e s) as Upd.
  { intros m hs bs lo fr tl fs -> Hf. cbn in Et'. apply upd_nth in Et'. destruct Et' as [[-> ->]|[_ Ek]]; auto.
    cbn in Hi. exists th, em. auto. }
  assert (forall f fs fs' : list frame, True) as _ by auto.
  destruct l as [o|].
  - destruct (user_ready th) eqn:Hr; [|discriminate].
    destruct o; cbn [user_step] in E; unfold lift in E; break E; inj E; cbn in Et'; try (apply Keep; exact Et').
    all: eapply Upd; [reflexivity|]; intros W;
      first [exact W | destruct W as [W|W]; [try discriminate W; injection W as W; rewrite <- W in H2; discriminate H2|first [exact W|right; exact W]]].
  - unfold tau_step in E. unfold lift in E. destruct (th_stack th) as [|f fs] eqn:Es; [discriminate|].
    destruct f as [e0|s0 d].
    + destruct (e_phase e0) eqn:Ep.
      2: { destruct (e_cur e0) as [c|] eqn:Ec; [|discriminate]. unfold get_slot in E. destruct (nth_error (heap (mm st)) c) as [x|] eqn:Ex; [|discriminate].
           destruct (s_live x); [|discriminate]. inj E. eapply Upd; [reflexivity|]. intros [W|W]; [|right; auto].
           injection W as W. exfalso. rewrite <- W in H2, H3. cbn in H2, H3. destruct (valid x) eqn:Ev; [|discriminate].
           unfold sender in Hn. assert (c = s) as -> by congruence. rewrite Ex in Hn. unfold valid in Ev. now rewrite Hn in Ev. }
      all: try discriminate E.
      all: break E.
      all: inj E.
      all: (eapply Upd; [reflexivity|]).
      all: intros W.
      all: try (right; exact W).
      all: destruct W as [W|W]; [|right; exact W].
      all: injection W as W; rewrite <- W in H2; cbn in H2.
      all: try discriminate H2.
      all: break H2.
    + break E.
      all: inj E.
      all: (eapply Upd; [reflexivity|]).
      all: intros W.
      all: try (right; exact W).
      all: destruct W as [W|W]; [discriminate W|right; exact W].
Qed.

Lemma called_step st t l st' r t' e s : step st t l = Next st' r -> In (ELib t' (OCalled e s)) (event_of t l r) -> about_to_call st t' e s.
Proof.
  intros E Hi. destruct l as [o|]; [cbn in Hi; destruct Hi as [W|[]]; discriminate|].
  assert (t' = t /\ r = OCalled e s) as [-> ->].
  { destruct r; cbn in Hi; try contradiction; destruct Hi as [W|[]]; try discriminate W. injection W; intros; subst; auto. }
  unfold step in E. destruct (nth_error (threads st) t) as [th|] eqn:Et; [|discriminate].
  unfold tau_step, lift in E. destruct (th_stack th) as [|f fs] eqn:Es; [discriminate|]. destruct f as [e0|s0 d].
  - destruct (e_phase e0) eqn:Ep; break E; try discriminate E; try (injection E; discriminate).
    injection E as _ W1 W2. exists th, e0. rewrite Es. repeat split; auto; try (left; auto); try congruence.
  - break E; try discriminate E; injection E; discriminate.
Qed.

Lemma dead_calls n evs st s evs' st' t e :
  runs (init n) evs st -> exists_slot st s -> sender st s = None -> runs st evs' st' ->
  In (ELib t (OCalled e s)) evs' -> about_to_call st t e s.
Proof.
  intros Rn Hs Hn Rn'. revert evs Rn Hs Hn. induction Rn' as [st|st t0 l st1 r evs1 st2 Hr E Rn' IH]; intros evs Rn Hs Hn Hi; [destruct Hi|].
  apply in_app_or in Hi. destruct Hi as [Hi|Hi].
  - eapply called_step; eauto.
  - pose proof (runs_one _ _ _ _ _ Hr E) as R1.
    destruct (dead_stays _ _ _ _ _ _ Rn Hs Hn R1) as [Hs1 Hn1].
    eapply about_step; eauto. eapply IH; eauto. eapply runs_app; eauto.
Qed.

(* ------------------------------------------------------- the thread itself *)

Lemma below_in_slot w : forall fs tl is, stack_rel w tl fs is -> below fs -> forall f, In f fs -> in_slot f.
Proof.
  induction fs as [|f fs IH]; intros tl is S B g Hi; [destruct Hi|]. cbn in B.
  destruct Hi as [<- | Hi]; auto. destruct is as [|j is]; cbn in S; [destruct f; contradiction|].
  destruct f as [e|s d], j as [ie|s' fin]; try contradiction. destruct S as (_ & _ & B' & S). eapply IH; eauto.
Qed.

(** What is known when a disconnect is about to return. *)
Lemma disconnect_done n evs st t th s fs :
  runs (init n) evs st -> nth_error (threads st) t = Some th -> th_stack th = FDisc s DRelease :: fs ->
  exists_slot st s /\ sender st s = None /\ (forall e k, ~ about_to_call st t e k).
Proof.
  intros Rn Et Es. destruct (reach_rel _ _ _ Rn) as (i & L & H & _ & R).
  destruct (Forall2_nth _ _ _ _ _ (r_threads _ _ _ _ R) Et) as (is & Ei & Rs). cbn beta in Rs. rewrite Es in Rs.
  destruct is as [|[ie|s' fin] js]; cbn [stack_rel] in Rs; try contradiction.
  destruct Rs as (_ & _ & _ & Hn & Hb & Rf). destruct (Hn ltac:(discriminate)) as [H1 H2]. cbn in H1, H2.
  split; [exact H1|]. split.
  - rewrite sender_is. unfold connected in H2. destruct (conn (mm st) s); [discriminate|auto].
  - intros e k (th' & em & Et' & Hi & _ & Hp & _). assert (th' = th) as -> by congruence. rewrite Es in Hi.
    destruct Hi as [W|Hi]; [discriminate|]. pose proof (below_in_slot _ _ _ _ Rf Hb _ Hi) as Hf. cbn in Hf. congruence.
Qed.

Lemma own_thread n evs st t th s fs st1 r evs' st' e :
  runs (init n) evs st -> nth_error (threads st) t = Some th -> th_stack th = FDisc s DRelease :: fs ->
  step st t Tau = Next st1 r -> runs st1 evs' st' -> ~ In (ELib t (OCalled e s)) evs'.
Proof.
  intros Rn Et Es E Rn' Hi. destruct (disconnect_done _ _ _ _ _ _ _ Rn Et Es) as (H1 & H2 & H3).
  apply (H3 e s). eapply (dead_calls n evs st s (event_of t Tau r ++ evs') st' t e); eauto.
  - eapply R_step; eauto. exact I.
  - apply in_or_app. auto.
Qed.

Lemma other_threads n evs st t th s fs st1 r evs' st' t' e :
  runs (init n) evs st -> nth_error (threads st) t = Some th -> th_stack th = FDisc s DRelease :: fs ->
  step st t Tau = Next st1 r -> runs st1 evs' st' -> In (ELib t' (OCalled e s)) evs' ->
  t' <> t /\ about_to_call st t' e s.
Proof.
  intros Rn Et Es E Rn' Hi. split.
  - intros ->. eapply own_thread; eauto.
  - destruct (disconnect_done _ _ _ _ _ _ _ Rn Et Es) as (H1 & H2 & H3).
    eapply (dead_calls n evs st s (event_of t Tau r ++ evs') st' t' e); eauto.
    + eapply R_step; eauto. exact I.
    + apply in_or_app. auto.
Qed.
