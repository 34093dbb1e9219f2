(** C20-C29, C71-C74: signals. [runs] is any interleaving of any number of threads. *)
From Coq Require Import List Arith Bool.
From Verif Require Import SignalModel SignalSpec SignalRunProofs SignalDeadProofs SignalTraceProofs SignalCallProofs SignalEndProofs SignalHoldProofs SignalOrderProofs SignalStopProofs SignalWitnessProofs.
Import ListNotations.

(** C20: every observable history of the lists, counters and flags is one of the
    ideal machine, which only keeps the connected slots of each signal in order. *)
Theorem signal_refines_ideal : forall n evs st, runs (init n) evs st -> exists i, ideal_runs (ideal_init n) evs i.
Proof. exact refines. Qed.
Print Assumptions signal_refines_ideal.

(** C20: an emission calls only slots connected when it started, in their order,
    each at most once. *)
Theorem signal_emission_in_order : forall n evs st t g st1 e evs' st',
  runs (init n) evs st -> step st t (User (UEmit g)) = Next st1 (OStarted e) -> runs st1 evs' st' ->
  part_of (calls e evs') (slots_of st g).
Proof. exact emission_calls. Qed.
Print Assumptions signal_emission_in_order.

(** C20: the slots of a signal are those whose sender it is, without repetition. *)
Theorem signal_slots_are_connected_ones : forall n evs st g, runs (init n) evs st ->
  NoDup (slots_of st g) /\ (forall s, In s (slots_of st g) <-> sender st s = Some g).
Proof. exact order_facts. Qed.
Print Assumptions signal_slots_are_connected_ones.

(** C20: a slot that stays connected and unblocked is called by every emission
    that ends without being stopped. *)
Theorem signal_emission_misses_none : forall n evs st t g st1 e evs' st' s,
  runs (init n) evs st -> step st t (User (UEmit g)) = Next st1 (OStarted e) -> In s (slots_of st g) ->
  runs_with (fun st => sender st s <> None /\ blockers_on st s = 0) (cut t e) st1 evs' st' ->
  In (ELib t (OEnded e)) evs' -> In s (calls e evs').
Proof. exact emission_complete. Qed.
Print Assumptions signal_emission_misses_none.

(** C20: a called slot was first unblocked and then still connected, during the emission. *)
Theorem signal_called_only_if_wanted : forall n evs st t g st1 e evs' st' u s,
  runs (init n) evs st -> step st t (User (UEmit g)) = Next st1 (OStarted e) -> runs st1 evs' st' ->
  In (ELib u (OCalled e s)) evs' ->
  exists a b c m1 m2, evs' = a ++ b ++ c /\ runs st1 a m1 /\ blockers_on m1 s = 0 /\ runs m1 b m2 /\ sender m2 s <> None /\
    runs m2 c st' /\ In (ELib u (OCalled e s)) c.
Proof. exact called_when. Qed.
Print Assumptions signal_called_only_if_wanted.

(** C20, C27: nothing is called after a stop request or an exception. *)
Theorem signal_stop_ends_calls : forall n evs st t o st1 r e evs' st',
  runs (init n) evs st -> innermost st t = Some e -> o = UStop \/ o = UThrow ->
  step st t (User o) = Next st1 r -> runs st1 evs' st' -> calls e evs' = [].
Proof. exact stop_ends_calls. Qed.
Print Assumptions signal_stop_ends_calls.

(** C71: connecting puts the new slot last, or first if asked to. *)
Theorem signal_connect_effect : forall n evs st t g (front : bool) st' r,
  runs (init n) evs st -> step st t (User (UConnect g front)) = Next st' r ->
  let s := length (heap (mm st)) in
  r = OSlot s /\ slots_of st' g = (if front then s :: slots_of st g else slots_of st g ++ [s]) /\
  (forall k, k <> g -> slots_of st' k = slots_of st k) /\ sender st' s = Some g /\ (forall k, k <> s -> sender st' k = sender st k).
Proof. exact connect_slots. Qed.
Print Assumptions signal_connect_effect.

(** C71: a step inside the library changes the slots of a signal only by the
    one that [disconnect] was called for. *)
Theorem signal_library_step_effect : forall n evs st t st' r g,
  runs (init n) evs st -> step st t Tau = Next st' r ->
  slots_of st' g = filter (fun s => negb (is_slot (dropped st t) s)) (slots_of st g).
Proof. exact tau_slots. Qed.
Print Assumptions signal_library_step_effect.

(** C71: all other operations leave the slots of every signal alone. *)
Theorem signal_other_operations_effect : forall st t o st' r,
  step st t (User o) = Next st' r -> aside o -> forall g, slots_of st' g = slots_of st g.
Proof. exact aside_slots. Qed.
Print Assumptions signal_other_operations_effect.

(** C21. *)
Theorem signal_disconnected_not_called : forall n evs st t th s fs st1 r evs' st' e,
  runs (init n) evs st -> nth_error (threads st) t = Some th -> th_stack th = FDisc s DRelease :: fs ->
  step st t Tau = Next st1 r -> runs st1 evs' st' -> ~ In (ELib t (OCalled e s)) evs'.
Proof. exact own_thread. Qed.
Print Assumptions signal_disconnected_not_called.

(** C21: a slot once disconnected stays disconnected. *)
Theorem signal_disconnected_for_good : forall n evs st evs' st' s,
  runs (init n) evs st -> exists_slot st s -> sender st s = None -> runs st evs' st' ->
  exists_slot st' s /\ sender st' s = None.
Proof. exact dead_stays. Qed.
Print Assumptions signal_disconnected_for_good.

(** C22 fails: [late_call]. *)
Theorem signal_late_call_refuted : exists n evs st t th s fs st1 r evs' st' u e,
  runs (init n) evs st /\ nth_error (threads st) t = Some th /\ th_stack th = FDisc s DRelease :: fs /\
  step st t Tau = Next st1 r /\ runs st1 evs' st' /\ In (ELib u (OCalled e s)) evs'.
Proof. exact late_call_lemma. Qed.
Print Assumptions signal_late_call_refuted.

(** C22: only an emission that had already tested the slot can still call it. *)
Theorem signal_late_call_partial : forall n evs st t th s fs st1 r evs' st' t' e,
  runs (init n) evs st -> nth_error (threads st) t = Some th -> th_stack th = FDisc s DRelease :: fs ->
  step st t Tau = Next st1 r -> runs st1 evs' st' -> In (ELib t' (OCalled e s)) evs' ->
  t' <> t /\ about_to_call st t' e s.
Proof. exact other_threads. Qed.
Print Assumptions signal_late_call_partial.

(** C23: nothing freed is touched or freed again; a thread inside the library can
    always go on; only swapping or moving a signal that is being emitted ends the program. *)
Theorem signal_memory_safe : forall n evs st t l, runs (init n) evs st -> respectful st l ->
  step st t l <> Crash /\
  (step st t l = Terminate -> exists a, (exists b, l = User (USwap a b)) \/ l = User (UMove a)) /\
  (forall th, nth_error (threads st) t = Some th -> user_ready th = false -> exists st' r, step st t Tau = Next st' r).
Proof. exact safe. Qed.
Print Assumptions signal_memory_safe.

(** C23: an emission reaches its end, and restores the thread's emission state. *)
Theorem signal_emission_ends : forall n evs st t th em fs,
  runs (init n) evs st -> nth_error (threads st) t = Some th -> th_stack th = FEmit em :: fs ->
  exists evs' st' th', alone t st evs' st' /\ nth_error (threads st') t = Some th' /\ th_stack th' = fs /\ th_tls th' = e_prev em /\
    In (ELib t (OEnded (e_id em))) evs'.
Proof. exact ends_lemma. Qed.
Print Assumptions signal_emission_ends.

(** C23: so does a disconnect. *)
Theorem signal_disconnect_ends : forall n evs st t th s d fs,
  runs (init n) evs st -> nth_error (threads st) t = Some th -> th_stack th = FDisc s d :: fs ->
  exists evs' st' th', alone t st evs' st' /\ nth_error (threads st') t = Some th' /\ th_stack th' = fs /\ th_tls th' = th_tls th.
Proof. exact disc_progress. Qed.
Print Assumptions signal_disconnect_ends.

(** C23: a slot is alive exactly while a signal holds it or something refers to it. *)
Theorem signal_slot_lifetime : forall n evs st s x, runs (init n) evs st -> nth_error (heap (mm st)) s = Some x ->
  (s_live x = true <-> (exists g, In s (listed st g)) \/ referenced st s = true).
Proof. exact live_exact. Qed.
Print Assumptions signal_slot_lifetime.

(** C24. *)
Theorem signal_count_exact : forall n evs st t g st' k, runs (init n) evs st -> step st t (User (UNumSlots g)) = Next st' (OCount k) ->
  st' = st /\ k = length (slots_of st g).
Proof. exact count_ok. Qed.
Print Assumptions signal_count_exact.
Theorem signal_connected_exact : forall st t h st' b, step st t (User (UConnected h)) = Next st' (OBool b) ->
  st' = st /\ b = match nth_error (handles st) h with Some (Some s) => is_some (sender st s) | _ => false end.
Proof. exact connected_ok. Qed.
Print Assumptions signal_connected_exact.

(** C25: the turn of a slot leads to its call exactly if no blocker refers to it. *)
Theorem signal_skips_blocked : forall n evs st t th em fs s,
  runs (init n) evs st -> nth_error (threads st) t = Some th -> th_stack th = FEmit em :: fs -> e_phase em = PBlocked -> e_cur em = Some s ->
  exists st' th', step st t Tau = Next st' ONone /\ nth_error (threads st') t = Some th' /\
    th_stack th' = FEmit (at_phase em (if Nat.eqb (blockers_on st s) 0 then PValid else PAdvance)) :: fs.
Proof. exact skip_exact. Qed.
Print Assumptions signal_skips_blocked.
Theorem signal_blockers_counted : forall n evs st s x, runs (init n) evs st -> nth_error (heap (mm st)) s = Some x -> s_block x = blockers_on st s.
Proof. exact block_count. Qed.
Print Assumptions signal_blockers_counted.

(** C26. *)
Theorem signal_holds_no_dead_slot : forall n evs st g s, runs (init n) evs st -> ~ emitting st g -> ~ disconnecting st g ->
  In s (listed st g) -> sender st s = Some g.
Proof. exact no_dead_listed. Qed.
Print Assumptions signal_holds_no_dead_slot.
Theorem signal_dead_slots_freed : forall n evs st s x, runs (init n) evs st -> (forall g, ~ emitting st g /\ ~ disconnecting st g) ->
  nth_error (heap (mm st)) s = Some x -> sender st s = None -> referenced st s = false -> s_live x = false.
Proof. exact dead_freed. Qed.
Print Assumptions signal_dead_slots_freed.
(** C26: the count that decides when to clean up is the number of running emissions. *)
Theorem signal_active_exact : forall n evs st g r, runs (init n) evs st -> nth_error (sigs (mm st)) g = Some r -> g_active r = running st g.
Proof. exact active_exact. Qed.
Print Assumptions signal_active_exact.

(** C27: an exception ends the emission with no further call, restores the thread's
    emission state and keeps every connection. *)
Theorem signal_throw_partial : forall n evs st t th em fs st1 r,
  runs (init n) evs st -> nth_error (threads st) t = Some th -> th_stack th = FEmit em :: fs -> step st t (User UThrow) = Next st1 r ->
  (forall g, slots_of st1 g = slots_of st g) /\ (forall s, sender st1 s = sender st s) /\
  exists evs' st' th', alone t st1 evs' st' /\ nth_error (threads st') t = Some th' /\ th_stack th' = fs /\ th_tls th' = e_prev em /\
    In (ELib t (OEnded (e_id em))) evs' /\ calls (e_id em) evs' = [].
Proof. exact throw_lemma. Qed.
Print Assumptions signal_throw_partial.
(** C27 fails: everything is destroyed, yet the slot is not freed: [leak]. *)
Theorem signal_throw_releases_refuted : exists n evs st s x,
  runs (init n) evs st /\ all_gone st /\ nth_error (heap (mm st)) s = Some x /\ s_live x = true.
Proof. exact leak_lemma. Qed.
Print Assumptions signal_throw_releases_refuted.
Theorem signal_throw_leaks_forever : forall n evs st evs' st' s, runs (init n) evs st -> In s (lost st) -> runs st evs' st' ->
  exists x, nth_error (heap (mm st')) s = Some x /\ s_live x = true.
Proof. exact leaked_forever. Qed.
Print Assumptions signal_throw_leaks_forever.
(** C72: without exceptions nothing leaks. *)
Theorem signal_no_leak_without_throw : forall n evs st s x,
  runs (init n) evs st -> ~ throws evs -> all_gone st -> nth_error (heap (mm st)) s = Some x -> s_live x = false.
Proof. exact no_leak. Qed.
Print Assumptions signal_no_leak_without_throw.

(** C28. *)
Theorem signal_swap_carries_connections : forall n evs st t a b st' r, runs (init n) evs st -> respectful st (User (USwap a b)) ->
  step st t (User (USwap a b)) = Next st' r ->
  (forall s, sender st' s = option_map (fun k => if Nat.eqb k a then b else if Nat.eqb k b then a else k) (sender st s)) /\
  slots_of st' a = slots_of st b /\ slots_of st' b = slots_of st a /\
  (forall g, g <> a -> g <> b -> slots_of st' g = slots_of st g).
Proof. exact swap_effect. Qed.
Print Assumptions signal_swap_carries_connections.
Theorem signal_move_carries_connections : forall n evs st t a st' r, runs (init n) evs st -> respectful st (User (UMove a)) ->
  step st t (User (UMove a)) = Next st' r ->
  let new := length (sigs (mm st)) in
  (forall s, sender st' s = option_map (fun k => if Nat.eqb k a then new else k) (sender st s)) /\
  slots_of st' new = slots_of st a /\ slots_of st' a = [] /\
  (forall g, g <> a -> g <> new -> slots_of st' g = slots_of st g).
Proof. exact move_effect. Qed.
Print Assumptions signal_move_carries_connections.

(** C73: disconnecting all slots, or destroying the signal, disconnects exactly its slots. *)
Theorem signal_drop_disconnects_all : forall n evs st t g st' r o, runs (init n) evs st -> respectful st (User o) -> o = UDisconnectAll g \/ o = UDestroy g ->
  step st t (User o) = Next st' r ->
  (forall s, sender st' s = match sender st s with Some k => if Nat.eqb k g then None else Some k | None => None end) /\
  slots_of st' g = [] /\ (forall k, k <> g -> slots_of st' k = slots_of st k).
Proof. exact drop_effect. Qed.
Print Assumptions signal_drop_disconnects_all.

(** C29 fails: after [race_swap] the disconnect has returned but the slot is connected
    again and gets called. *)
Theorem signal_disconnect_during_swap_refuted : exists n evs st t th s fs st1 r evs' st' u e,
  any_runs (init n) evs st /\ nth_error (threads st) t = Some th /\ th_stack th = FDisc s DRelease :: fs /\
  step st t Tau = Next st1 r /\ sender st1 s <> None /\
  any_runs st1 (EUser u (UEmit 1) (OStarted e) :: evs') st' /\ In (ELib u (OCalled e s)) evs'.
Proof. exact race_swap_lemma. Qed.
Print Assumptions signal_disconnect_during_swap_refuted.

(** C74 fails: after [race_destroy] the disconnecting thread uses a destroyed signal. *)
Theorem signal_destroy_during_disconnect_refuted : exists n evs st t, any_runs (init n) evs st /\ step st t Tau = Crash.
Proof. exact race_destroy_lemma. Qed.
Print Assumptions signal_destroy_during_disconnect_refuted.

(* ---------------------------------------------------------------- examples *)

Definition taus (t k : nat) : list (nat * label) := repeat (t, Tau) k.
Definition finished (n : nat) (ls : list (nat * label)) : option (list event) :=
  match tame_script (init n) ls with Some (evs, _) => Some evs | None => None end.

(** Three slots; the first one disconnects the second and connects a fourth. *)
Definition ex_script : list (nat * label) :=
  [(0, User UNewSignal); (0, User (UConnect 0 false)); (0, User (UConnect 0 false)); (0, User (UConnect 0 true)); (0, User (UNumSlots 0));
   (0, User (UEmit 0))] ++ taus 0 3 ++ [(0, User (UDisconnect 1))] ++ taus 0 3 ++ [(0, User (UConnect 0 false)); (0, User (UNumSlots 0)); (0, User UReturn)]
   ++ taus 0 5 ++ [(0, User UReturn)] ++ taus 0 8 ++ [(0, User (UNumSlots 0))].
Example ex_history : option_map (fun evs => (calls 0 evs, last evs (ELib 0 ONone))) (finished 1 ex_script)
  = Some ([2; 0], EUser 0 (UNumSlots 0) (OCount 3)).
Proof. vm_compute. reflexivity. Qed.
Example ex_history_events : exists evs, finished 1 ex_script = Some evs /\
  In (EUser 0 (UNumSlots 0) (OCount 3)) evs /\ In (ELib 0 (OEnded 0)) evs.
Proof. eexists. split; [vm_compute; reflexivity|]. cbn. auto 20. Qed.

(** A blocked slot is skipped; a stop request ends the emission. *)
Example ex_blocked : option_map (calls 0) (finished 1
  ([(0, User UNewSignal); (0, User (UConnect 0 false)); (0, User (UConnect 0 false)); (0, User (UConnect 0 false)); (0, User (UBlock 0)); (0, User (UEmit 0))]
   ++ taus 0 6 ++ [(0, User UStop); (0, User UReturn)] ++ taus 0 4)) = Some [1].
Proof. vm_compute. reflexivity. Qed.

(** A nested emission does not disturb the outer one. *)
Example ex_nested : option_map (fun evs => (calls 0 evs, calls 1 evs)) (finished 1
  ([(0, User UNewSignal); (0, User (UConnect 0 false)); (0, User (UConnect 0 false)); (0, User (UEmit 0))]
   ++ taus 0 3 ++ [(0, User (UEmit 0))] ++ taus 0 3 ++ [(0, User UStop); (0, User UReturn)] ++ taus 0 4 ++ [(0, User UReturn)] ++ taus 0 5)) = Some ([0; 1], [0]).
Proof. vm_compute. reflexivity. Qed.

(** Swapping carries the connection along; nothing leaks. *)
Example ex_swap : match tame_script (init 1)
  [(0, User UNewSignal); (0, User UNewSignal); (0, User (UConnect 0 false)); (0, User (USwap 0 1)); (0, User (UNumSlots 1)); (0, User (UMove 1))] with
  | Some (_, st) => (slots_of st 0, slots_of st 1, slots_of st 2, sender st 0) = ([], [], [0], Some 2)
  | None => False
  end.
Proof. vm_compute. reflexivity. Qed.
Example ex_no_leak : match tame_script (init 1)
  ([(0, User UNewSignal); (0, User (UConnect 0 false)); (0, User (UEmit 0))] ++ taus 0 3 ++ [(0, User UReturn)] ++ taus 0 4
   ++ [(0, User (UDrop 0)); (0, User (UDestroy 0))]) with
  | Some (_, st) => map s_live (heap (mm st)) = [false]
  | None => False
  end.
Proof. vm_compute. reflexivity. Qed.
