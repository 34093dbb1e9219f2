(** Concrete schedules that show what the signal does not guarantee. *)
From Coq Require Import List Arith Bool Lia.
From Verif Require Import Base SignalModel SignalSpec SignalDeadProofs SignalTraceProofs SignalCallProofs SignalEndProofs SignalHoldProofs SignalOrderProofs SignalStopProofs SignalRunProofs.
Import ListNotations.

(** One thread has tested the slot and is about to call it while another disconnects it. *)
Definition late_call : list (nat * label) :=
  [(0, User UNewSignal); (0, User (UConnect 0 false)); (1, User (UEmit 0)); (1, Tau); (1, Tau); (0, User (UDisconnect 0)); (0, Tau); (0, Tau)].

Lemma late_call_lemma : exists n evs st t th s fs st1 r evs' st' u e,
  runs (init n) evs st /\ nth_error (threads st) t = Some th /\ th_stack th = FDisc s DRelease :: fs /\
  step st t Tau = Next st1 r /\ runs st1 evs' st' /\ In (ELib u (OCalled e s)) evs'.
Proof.
  destruct (tame_script (init 2) late_call) as [[evs st]|] eqn:E; [|vm_compute in E; discriminate].
  pose proof (tame_runs _ _ _ _ E) as R. vm_compute in E. injection E as <- <-.
  match type of R with runs _ ?evs ?st => 
    exists 2, evs, st, 0, (mkthread (mktls false None) [FDisc 0 DRelease]), 0, [];
    destruct (step st 0 Tau) as [|st1 r| |] eqn:E1; try (vm_compute in E1; discriminate E1);
    destruct (tame_script st1 [(1, Tau)]) as [[evs' st']|] eqn:E2; [|vm_compute in E1; injection E1 as <- <-; vm_compute in E2; discriminate E2]
  end.
  pose proof (tame_runs _ _ _ _ E2) as R2. exists st1, r, evs', st', 1, 0.
  split; [exact R|]. split; [reflexivity|]. split; [reflexivity|]. split; [reflexivity|]. split; [exact R2|].
  vm_compute in E1. injection E1 as <- <-. vm_compute in E2. injection E2 as <- <-. left. reflexivity.
Qed.

(** A slot throws, then everything is destroyed. *)
Definition leak : list (nat * label) :=
  [(0, User UNewSignal); (0, User (UConnect 0 false)); (0, User (UEmit 0)); (0, Tau); (0, Tau); (0, Tau); (0, User UThrow); (0, Tau); (0, Tau);
   (0, User (UDrop 0)); (0, User (UDestroy 0))].

Lemma leak_lemma : exists n evs st s x, runs (init n) evs st /\ all_gone st /\ nth_error (heap (mm st)) s = Some x /\ s_live x = true.
Proof.
  destruct (tame_script (init 1) leak) as [[evs st]|] eqn:E; [|vm_compute in E; discriminate].
  pose proof (tame_runs _ _ _ _ E) as R. vm_compute in E. injection E as <- <-.
  match type of R with runs _ ?evs ?st => exists 1, evs, st, 0, (mkslot true 1 None 0 None) end.
  split; [exact R|]. split; [|split; reflexivity]. unfold all_gone. cbn. split; [|split; [|split]].
  - intros o [<-|[]]. reflexivity.
  - intros o [].
  - intros th [<-|[]]. reflexivity.
  - intros r [<-|[]]. reflexivity.
Qed.

(** Two signals are swapped between the two halves of a disconnect. *)
Definition race_swap : list (nat * label) :=
  [(0, User UNewSignal); (0, User UNewSignal); (0, User (UConnect 0 false)); (0, User (UDisconnect 0)); (0, Tau); (1, User (USwap 0 1)); (0, Tau)].

Lemma race_swap_lemma : exists n evs st t th s fs st1 r evs' st' u e,
  any_runs (init n) evs st /\ nth_error (threads st) t = Some th /\ th_stack th = FDisc s DRelease :: fs /\
  step st t Tau = Next st1 r /\ sender st1 s <> None /\
  any_runs st1 (EUser u (UEmit 1) (OStarted e) :: evs') st' /\ In (ELib u (OCalled e s)) evs'.
Proof.
  destruct (script (init 2) race_swap) as [[evs st]|] eqn:E; [|vm_compute in E; discriminate].
  pose proof (script_any _ _ _ _ E) as R. vm_compute in E. injection E as <- <-.
  match type of R with any_runs _ ?evs ?st => 
    exists 2, evs, st, 0, (mkthread (mktls false None) [FDisc 0 DRelease]), 0, [];
    destruct (step st 0 Tau) as [|st1 r| |] eqn:E1; try (vm_compute in E1; discriminate E1);
    destruct (script st1 [(1, User (UEmit 1)); (1, Tau); (1, Tau); (1, Tau)]) as [[evs' st']|] eqn:E2;
      [|vm_compute in E1; injection E1 as <- <-; vm_compute in E2; discriminate E2]
  end.
  pose proof (script_any _ _ _ _ E2) as R2. exists st1, r, (tl evs'), st', 1, 0.
  split; [exact R|]. split; [reflexivity|]. split; [reflexivity|]. split; [reflexivity|].
  vm_compute in E1. injection E1 as <- <-. vm_compute in E2. injection E2 as <- <-.
  split; [discriminate|]. split; [exact R2|]. left. reflexivity.
Qed.

(** A signal is destroyed between the two halves of a disconnect. *)
Definition race_destroy : list (nat * label) :=
  [(0, User UNewSignal); (0, User (UConnect 0 false)); (0, User (UDisconnect 0)); (0, Tau); (1, User (UDestroy 0))].

Lemma race_destroy_lemma : exists n evs st t, any_runs (init n) evs st /\ step st t Tau = Crash.
Proof.
  destruct (script (init 2) race_destroy) as [[evs st]|] eqn:E; [|vm_compute in E; discriminate].
  pose proof (script_any _ _ _ _ E) as R. vm_compute in E. injection E as <- <-.
  match type of R with any_runs _ ?evs ?st => exists 2, evs, st, 0 end. split; [exact R|]. vm_compute. reflexivity.
Qed.

Lemma ends_lemma n evs st t th em fs :
  runs (init n) evs st -> nth_error (threads st) t = Some th -> th_stack th = FEmit em :: fs ->
  exists evs' st' th', alone t st evs' st' /\ nth_error (threads st') t = Some th' /\ th_stack th' = fs /\ th_tls th' = e_prev em /\
    In (ELib t (OEnded (e_id em))) evs'.
Proof. intros Rn Et Es. eapply emission_ends; eauto. Qed.

Lemma throw_lemma n evs st t th em fs st1 r :
  runs (init n) evs st -> nth_error (threads st) t = Some th -> th_stack th = FEmit em :: fs -> step st t (User UThrow) = Next st1 r ->
  (forall g, slots_of st1 g = slots_of st g) /\ (forall s, sender st1 s = sender st s) /\
  exists evs' st' th', alone t st1 evs' st' /\ nth_error (threads st') t = Some th' /\ th_stack th' = fs /\ th_tls th' = e_prev em /\
    In (ELib t (OEnded (e_id em))) evs' /\ calls (e_id em) evs' = [].
Proof.
  intros Rn Et Es E. split; [|split].
  - intros g. eapply aside_slots; eauto. exact I.
  - intros s. unfold step in E. rewrite Et in E. destruct (user_ready th); [|discriminate]. cbn [user_step] in E. rewrite Es in E.
    injection E as <- _. reflexivity.
  - assert (runs (init n) (evs ++ (event_of t (User UThrow) r ++ [])) st1) as Rn1.
    { eapply runs_app; [exact Rn|]. econstructor; [exact I|exact E|constructor]. }
    assert (exists th1 em1, nth_error (threads st1) t = Some th1 /\ th_stack th1 = FEmit em1 :: fs /\ e_prev em1 = e_prev em /\ e_id em1 = e_id em) as (th1 & em1 & Et1 & Es1 & Ep & Ei).
    { pose proof E as E'. unfold step in E'. rewrite Et in E'. destruct (user_ready th); [|discriminate]. cbn [user_step] in E'. rewrite Es in E'.
      injection E' as <- _. cbn. eexists. eexists. split; [apply XinfoProofs.nth_upd_same; apply nth_error_Some; congruence|]. cbn. auto. }
    destruct (ends_lemma _ _ _ _ _ _ _ Rn1 Et1 Es1) as (evs' & st' & th' & A & B & C & D & F).
    exists evs', st', th'. rewrite Ep in D. rewrite Ei in F. repeat (split; [assumption|]).
    eapply stop_ends_calls; [exact Rn| |right; reflexivity|exact E|eapply alone_runs; exact A].
    unfold innermost. rewrite Et, Es. reflexivity.
Qed.
