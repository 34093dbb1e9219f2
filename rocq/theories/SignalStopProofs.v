(** A stopped emission calls nothing more; scripts that drive the machine. *)
From Coq Require Import List Arith Bool Lia.
From Verif Require Import Base XinfoProofs SignalModel SignalSpec SignalMemProofs SignalRelProofs SignalStepProofs SignalRunProofs SignalDeadProofs SignalTraceProofs SignalCallProofs SignalEndProofs.
Import ListNotations.

Definition halting (ie : iemission) : Prop :=
  ie_at ie = IEnding \/ ie_stop ie = true /\ (ie_at ie = ITurn \/ exists s, ie_at ie = IIn s).
Definition halted (e : nat) (i : ideal) : Prop :=
  forall t fs ie, nth_error (i_threads i) t = Some fs -> In (IEmit ie) fs -> ie_id ie = e -> halting ie.

Lemma halted_step i u l i' r e : istep i u l = Some (i', r) -> e < i_fresh i -> halted e i -> halted e i' /\ calls e (event_of u l r) = [].
Proof.
  intros E He Hh. unfold istep in E. destruct (nth_error (i_threads i) u) as [fs|] eqn:Et; [|discriminate].
  assert (forall gs, i_threads i' = put (i_threads i) u gs -> (forall ie, In (IEmit ie) gs -> ie_id ie = e -> halting ie) -> halted e i') as Upd.
  { intros gs ET Hg t ks ie Ek Hi Hid. rewrite ET in Ek. change (@put) with (@upd) in Ek. apply upd_nth in Ek.
    destruct Ek as [[-> ->]|[_ Ek]]; eauto. }
  assert (i_threads i' = i_threads i -> halted e i') as Same.
  { intros ET t ks ie Ek Hi Hid. rewrite ET in Ek. eauto. }
  pose proof (Hh u fs) as Hu. specialize (fun ie => Hu ie Et). destruct l as [o|].
  - destruct (i_ready fs) eqn:Er; [|discriminate]. split; [|reflexivity].
    destruct o; cbn [i_user] in E; break E; inj E; try (apply Same; reflexivity); (eapply Upd; [reflexivity|]); intros ie Hi Hid.
    all: first [ solve [destruct Hi as [W|Hi]; [discriminate W|eauto]] | idtac ].
    + destruct Hi as [W|Hi]; [injection W as <-; cbn in Hid; lia|eauto].
    + destruct Hi as [W|Hi]; [injection W as <-|apply Hu; [right|]; auto]. cbn in Hid. pose proof (Hu e0 (or_introl eq_refl) Hid) as W.
      unfold halting in *. cbn. cbn [i_ready] in Er. destruct (ie_at e0) eqn:Ea; try discriminate. right. split; eauto.
    + destruct Hi as [W|Hi]; [injection W as <-|apply Hu; [right|]; auto]. cbn in Hid. pose proof (Hu e0 (or_introl eq_refl) Hid) as W.
      unfold halting in *. cbn. destruct W as [W|[W _]]; [cbn [i_ready] in Er; rewrite W in Er; discriminate|auto].
    + destruct Hi as [W|Hi]; [injection W as <-|apply Hu; [right|]; auto]. left. reflexivity.
  - assert (forall ie, fs = IEmit ie :: tl fs -> ie_id ie = e -> halting ie) as Ht.
    { intros ie Ef Hid. apply Hu; auto. rewrite Ef. left; auto. }
    unfold i_tau in E. destruct fs as [|[ie|s fin] fs]; [discriminate| |].
    + assert (forall ie', ie_id ie' = ie_id ie -> (ie_id ie = e -> halting ie') -> i_threads i' = put (i_threads i) u (IEmit ie' :: fs) -> halted e i') as Go.
      { intros ie' Hid H2 ET. eapply Upd; [exact ET|]. intros k Hi Hk. destruct Hi as [W|Hi]; [injection W as <-; apply H2; congruence|].
        apply Hu; auto. right; auto. }
      specialize (Ht ie eq_refl). unfold halting in Ht. destruct (ie_at ie) eqn:Ea.
      * break E; inj E; (split; [|reflexivity]); (eapply Go; [| |reflexivity]; [reflexivity|]); intros Hid; unfold halting; cbn; auto.
        exfalso. destruct (Ht Hid) as [W|[W _]]; [discriminate|congruence].
      * inj E. split; [|reflexivity]. eapply Go; [| |reflexivity]; [reflexivity|]. intros Hid. exfalso. destruct (Ht Hid) as [W|[_ [W|[k W]]]]; discriminate.
      * inj E. split.
        -- eapply Go; [| |reflexivity]; [reflexivity|]. intros Hid. exfalso. destruct (Ht Hid) as [W|[_ [W|[k W]]]]; discriminate.
        -- cbn. destruct (Nat.eqb_spec (ie_id ie) e) as [W|W]; auto. exfalso. destruct (Ht W) as [V|[_ [V|[k V]]]]; discriminate.
      * discriminate.
      * inj E. split; [|reflexivity]. eapply Upd; [reflexivity|]. intros k Hi Hk. apply Hu; auto. right; auto.
    + destruct fin; inj E; (split; [|reflexivity]); (eapply Upd; [reflexivity|]); intros k Hi Hk; [apply Hu; auto; right; auto|].
      destruct Hi as [W|Hi]; [discriminate|]. apply Hu; auto. right; auto.
Qed.

Lemma halted_runs i evs j e : ideal_runs i evs j -> e < i_fresh i -> halted e i -> halted e j /\ calls e evs = [].
Proof.
  intros R. induction R as [|i u l k r evs j E R IH]; intros He Hh; auto.
  destruct (halted_step _ _ _ _ _ _ E He Hh) as [H1 H2]. destruct (nids_step _ _ _ _ _ 0 E) as (F & _).
  destruct (IH ltac:(lia) H1) as [H3 H4]. split; auto. now rewrite calls_app, H2, H4.
Qed.

(** An emission that is inside a slot stays so while its thread does nothing. *)
Lemma waits i evs j t ie fs s : ideal_runs i evs j -> evs = [] -> nth_error (i_threads i) t = Some (IEmit ie :: fs) -> ie_at ie = IIn s ->
  nth_error (i_threads j) t = Some (IEmit ie :: fs).
Proof.
  intros R. induction R as [|i u l k r evs j E R IH]; intros Ev Et Ea; auto.
  destruct l as [o|]; [discriminate|]. assert (evs = []) as Ev' by (destruct r; cbn in Ev; auto; discriminate).
  apply IH; auto. destruct (Nat.eq_dec u t) as [-> | n].
  - unfold istep in E. rewrite Et in E. cbn in E. rewrite Ea in E. discriminate.
  - destruct (istep_thread _ _ _ _ _ E) as [gs Eg]. destruct (istep_tstep _ _ _ _ _ _ E Eg) as (fs' & ET & _).
    rewrite ET. change (@put) with (@upd). now rewrite nth_upd_other by auto.
Qed.

Lemma unique_id e (l : list (list iframe)) t ie fs : tot (tot (is_id e)) l <= 1 -> nth_error l t = Some (IEmit ie :: fs) -> ie_id ie = e ->
  forall u gs ie', nth_error l u = Some gs -> In (IEmit ie') gs -> ie_id ie' = e -> ie' = ie.
Proof.
  intros T Et Hid u gs ie' Eu Hi Hid'. assert (is_id e (IEmit ie) = 1) as I1 by (cbn; rewrite Hid, Nat.eqb_refl; auto).
  assert (is_id e (IEmit ie') = 1) as I2 by (cbn; rewrite Hid', Nat.eqb_refl; auto).
  destruct (Nat.eq_dec u t) as [-> | n].
  - assert (gs = IEmit ie :: fs) as -> by congruence. destruct Hi as [W|Hi]; [congruence|]. exfalso.
    pose proof (tot_pos (tot (is_id e)) _ _ _ Et) as W. cbn [tot] in W. pose proof (tot_in (is_id e) _ _ Hi). lia.
  - exfalso. pose proof (tot_upd (tot (is_id e)) _ _ _ [] Et) as U. cbn [tot] in U.
    assert (nth_error (upd l t []) u = Some gs) as E2 by (rewrite nth_upd_other; auto).
    pose proof (tot_pos (tot (is_id e)) _ _ _ E2). pose proof (tot_in (is_id e) _ _ Hi). lia.
Qed.

Lemma stop_enters i t o r j e : ideal_runs i [EUser t o r] j -> o = UStop \/ o = UThrow -> ids_ok i ->
  forall ie fs s, nth_error (i_threads i) t = Some (IEmit ie :: fs) -> ie_at ie = IIn s -> ie_id ie = e -> halted e j /\ e < i_fresh j.
Proof.
  intros R Ho Ok ie fs s Et Ea Hid. destruct (silent_split _ _ _ R _ _ _ eq_refl) as (i1 & i2 & R1 & E & R2).
  pose proof (waits _ _ _ _ _ _ _ R1 eq_refl Et Ea) as Et1. destruct (ids_runs _ _ _ R1 Ok) as [Ok1 F1].
  pose proof (ids_step _ _ _ _ _ E Ok1) as Ok2.
  assert (e < i_fresh i1) as He.
  { destruct (Nat.lt_ge_cases e (i_fresh i1)) as [|Hg]; auto. exfalso. destruct (Ok1 e) as [_ O2]. specialize (O2 Hg). unfold nids in O2.
    pose proof (tot_pos (tot (is_id e)) _ _ _ Et1) as W. cbn [tot is_id] in W. rewrite Hid, Nat.eqb_refl in W. cbn in W. lia. }
  assert (exists ie', nth_error (i_threads i2) t = Some (IEmit ie' :: fs) /\ ie_id ie' = e /\ halting ie' /\ i_fresh i2 = i_fresh i1) as (ie' & Et2 & Hid2 & Hh & F2).
  { unfold istep in E. rewrite Et1 in E. destruct (i_ready _); [|discriminate].
    assert (t < length (i_threads i1)) as Lt by (eapply nth_some_lt; eauto).
    destruct Ho as [-> | ->]; cbn [i_user] in E; inj E; cbn; change (@put) with (@upd); (eexists; split; [apply nth_upd_same; auto|]); cbn;
      (split; [auto|split; auto]); unfold halting; cbn; [right|left]; eauto. }
  assert (halted e i2) as H2.
  { intros u gs k Eu Hi Hk. destruct (Ok2 e) as [O1 _]. unfold nids in O1. rewrite (unique_id _ _ _ _ _ O1 Et2 Hid2 _ _ _ Eu Hi Hk). auto. }
  destruct (ids_runs _ _ _ R2 Ok2) as [_ F3]. destruct (halted_runs _ _ _ e R2 ltac:(lia) H2) as [H3 _]. split; [auto|lia].
Qed.

Lemma stop_ends_calls n evs st t o st1 r e evs' st' : runs (init n) evs st -> innermost st t = Some e -> o = UStop \/ o = UThrow ->
  step st t (User o) = Next st1 r -> runs st1 evs' st' -> calls e evs' = [].
Proof.
  intros Rn Hi Ho E Rn'. destruct (reach_ids _ _ _ Rn) as (i & L & H & IR & R & Ok).
  assert (respectful st (User o)) as Hr by (destruct Ho as [-> | ->]; exact I).
  pose proof (step_ok st i L H t (User o) R Hr) as O. unfold outcome_ok in O. rewrite E in O.
  destruct O as (i1 & L1 & H1 & IR1 & R1). cbn [event_of] in IR1.
  destruct (runs_rel _ _ _ Rn' _ _ _ R1) as (i2 & L2 & H2 & IR2 & R2).
  unfold innermost in Hi. unfold step in E. destruct (nth_error (threads st) t) as [th|] eqn:Et; [|discriminate].
  destruct (user_ready th) eqn:Er; [|discriminate].
  destruct (Forall2_nth _ _ _ _ _ (r_threads _ _ _ _ R) Et) as (is & Ei & Rs). cbn beta in Rs.
  unfold user_ready in Er. destruct (th_stack th) as [|[em|] fs]; try discriminate. injection Hi as Hi.
  destruct is as [|[ie|s' fin] js]; cbn [stack_rel] in Rs; try contradiction. destruct Rs as (Re & _).
  destruct (e_phase em) eqn:Ep; try discriminate.
  assert (ie_id ie = e /\ exists s, ie_at ie = IIn s) as (Hid & s & Ea).
  { destruct Re as (R0 & _ & _ & _ & Re). rewrite Ep in Re. destruct Re as (c & mid & la & _ & _ & _ & _ & Ea). split; [congruence|eauto]. }
  destruct (stop_enters _ _ _ _ _ e IR1 Ho Ok _ _ _ Ei Ea Hid) as [Hh He].
  apply (halted_runs _ _ _ _ IR2 He Hh).
Qed.

(* ----------------------------------------------------------------- scripts *)

Fixpoint script (st : state) (ls : list (nat * label)) : option (list event * state) :=
  match ls with
  | [] => Some ([], st)
  | (t, l) :: ls' =>
      match step st t l with
      | Next st' r => match script st' ls' with Some (evs, st'') => Some (event_of t l r ++ evs, st'') | None => None end
      | _ => None
      end
  end.

Lemma script_any : forall ls st evs st', script st ls = Some (evs, st') -> any_runs st evs st'.
Proof.
  induction ls as [|[t l] ls IH]; intros st evs st' E; cbn in E.
  - injection E as <- <-. constructor.
  - destruct (step st t l) as [|st1 r| |] eqn:E1; try discriminate. destruct (script st1 ls) as [[evs1 st2]|] eqn:E2; [|discriminate].
    injection E as <- <-. econstructor; eauto.
Qed.

(** Steps that are respectful whatever the state, or because no thread is inside the library. *)
Definition tame (st : state) (l : label) : bool :=
  match l with
  | User (USwap _ _) | User (UMove _) | User (UDestroy _) => forallb (fun th => match th_stack th with [] => true | _ => false end) (threads st)
  | _ => true
  end.
Fixpoint tame_script (st : state) (ls : list (nat * label)) : option (list event * state) :=
  match ls with
  | [] => Some ([], st)
  | (t, l) :: ls' =>
      if tame st l then
        match step st t l with
        | Next st' r => match tame_script st' ls' with Some (evs, st'') => Some (event_of t l r ++ evs, st'') | None => None end
        | _ => None
        end
      else None
  end.

Lemma tame_ok st l : tame st l = true -> respectful st l.
Proof.
  intros H. assert (forall th, forallb (fun th => match th_stack th with [] => true | _ => false end) (threads st) = true ->
    forall t, nth_error (threads st) t = Some th -> th_stack th = []) as W.
  { intros th F t Et. rewrite forallb_forall in F. specialize (F th (nth_error_In _ _ Et)). destruct (th_stack th); [auto|discriminate]. }
  assert (forallb (fun th => match th_stack th with [] => true | _ => false end) (threads st) = true -> forall g, ~ disconnecting st g) as D.
  { intros F g (t & th & s & Et & Hi). rewrite (W _ F _ Et) in Hi. destruct Hi. }
  assert (forallb (fun th => match th_stack th with [] => true | _ => false end) (threads st) = true -> forall g, ~ emitting st g) as M.
  { intros F g (t & th & s & Et & Hi & _). rewrite (W _ F _ Et) in Hi. destruct Hi. }
  destruct l as [o|]; [|exact I]. destruct o; cbn in *; auto.
Qed.

Lemma tame_runs : forall ls st evs st', tame_script st ls = Some (evs, st') -> runs st evs st'.
Proof.
  induction ls as [|[t l] ls IH]; intros st evs st' E; cbn in E.
  - injection E as <- <-. constructor.
  - destruct (tame st l) eqn:E0; [|discriminate]. destruct (step st t l) as [|st1 r| |] eqn:E1; try discriminate.
    destruct (tame_script st1 ls) as [[evs1 st2]|] eqn:E2; [|discriminate].
    injection E as <- <-. econstructor; eauto. apply tame_ok; auto.
Qed.
