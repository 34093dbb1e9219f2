(** Functions that own connections: the claims C133 and C134. *)
From Coq Require Import List Arith Bool Lia Relations.
From Verif Require Import CaptModel CaptSpec CaptSamples CaptProofs CaptReleaseProofs CaptSignalProofs CaptOpProofs CaptRunProofs.
Import ListNotations.

(** ** C133: memory *)

Theorem owners_safe os :
  (exists st, run os empty = Done st /\ accounted st /\ unlocked st) \/ run os empty = Deadlock.
Proof. exact (owners_are_safe os). Qed.
Print Assumptions owners_safe.

Theorem live_iff_reachable os st : run os empty = Done st -> acyclic st -> forall s, live_slot st s <-> rooted st s.
Proof. exact (live_iff_rooted os st). Qed.
Print Assumptions live_iff_reachable.

Theorem reachable_kept os st s : run os empty = Done st -> rooted st s -> live_slot st s.
Proof. exact (rooted_kept os st s). Qed.
Print Assumptions reachable_kept.

Theorem all_slots_freed os st : run os empty = Done st -> acyclic st ->
  (forall h, In h (handles st) -> h = None) -> (forall g r, nth_error (sigs st) g = Some r -> g_live r = false) ->
  forall s x, nth_error (slots st) s = Some x -> s_live x = false.
Proof. exact (all_freed os st). Qed.
Print Assumptions all_slots_freed.

Theorem scoped_owned_cut os st s x c :
  run os empty = Done st -> nth_error (slots st) s = Some x -> s_live x = false -> In (true, c) (s_caps x) -> disconnected st c.
Proof. exact (dead_owners_cut os st s x c). Qed.
Print Assumptions scoped_owned_cut.

Theorem own_connection_freed_refuted :
  exists os st, run os empty = Done st /\ (forall h, In h (handles st) -> h = None) /\ (forall g r, nth_error (sigs st) g = Some r -> g_live r = false) /\
    exists x, nth_error (slots st) 0 = Some x /\ s_live x = true.
Proof.
  exists (own_connection true), (final (own_connection true)). split; [vm_compute; reflexivity|]. split; [|split].
  - vm_compute. intros h [<-|[]]. reflexivity.
  - intros [|[|g]] r; vm_compute; [intros [= <-]; reflexivity|discriminate|discriminate].
  - eexists. split; vm_compute; reflexivity.
Qed.
Print Assumptions own_connection_freed_refuted.

Theorem disconnected_function_freed_refuted :
  exists os st x, run os empty = Done st /\ nth_error (slots st) 0 = Some x /\ listed st 0 = 0 /\ s_sender x = None /\ s_live x = true /\
    exists y, nth_error (slots st) 1 = Some y /\ owns st 0 1 /\ s_live y = true.
Proof.
  exists copy_kept, (final copy_kept). eexists. split; [vm_compute; reflexivity|]. split; [vm_compute; reflexivity|].
  split; [vm_compute; reflexivity|]. split; [reflexivity|]. split; [reflexivity|].
  eexists. split; [vm_compute; reflexivity|]. split; [|reflexivity]. eexists. exists false. split; [vm_compute; reflexivity|]. left. reflexivity.
Qed.
Print Assumptions disconnected_function_freed_refuted.

Example one_shot_freed : exists st, run one_shot empty = Done st /\ map s_live (slots st) = [false].
Proof. eexists. split; vm_compute; reflexivity. Qed.
Example levels_freed : exists st, run two_levels empty = Done st /\ map s_live (slots st) = [false; false] /\ map s_caps (slots st) = [[]; [(true, 0)]].
Proof. eexists. split; [|split]; vm_compute; reflexivity. Qed.

(** ** C134: mutexes *)

Theorem handles_never_wait os st o : run os empty = Done st -> quiet o = true -> exists st', run_op o st = Done st'.
Proof. exact (quiet_never_waits os st o). Qed.
Print Assumptions handles_never_wait.

Theorem quiet_programs_run os : forallb quiet os = true -> exists st, run os empty = Done st.
Proof. exact (quiet_runs os). Qed.
Print Assumptions quiet_programs_run.

Theorem slots_taken_away os st g r : run os empty = Done st -> nth_error (sigs st) g = Some r -> g_live r = true ->
  (forall l1 s l2 c, g_slots r = l1 ++ s :: l2 -> may_cut st s c -> connected_to st c g -> In c (l1 ++ [s])) ->
  exists st', run_op (Disconnect_all g) st = Done st' /\ forall s, In s (g_slots r) -> disconnected st' s.
Proof. exact (all_taken_away os st g r). Qed.
Print Assumptions slots_taken_away.

Theorem signal_destroyed os st g r : run os empty = Done st -> nth_error (sigs st) g = Some r ->
  (forall l1 s l2 c, g_slots r = l1 ++ s :: l2 -> may_cut st s c -> connected_to st c g -> In c (l1 ++ [s])) ->
  exists st', run_op (Destroy g) st = Done st'.
Proof. exact (destroyed os st g r). Qed.
Print Assumptions signal_destroyed.

Theorem emission_ended os st g r : run os empty = Done st -> nth_error (sigs st) g = Some r ->
  (forall s c, In s (g_slots r) -> disconnected st s -> may_cut st s c -> ~ connected_to st c g) ->
  exists st', run_op (End g) st = Done st'.
Proof. exact (emission_ends os st g r). Qed.
Print Assumptions emission_ended.

Theorem layered_programs_run lv os :
  (forall os1 os2 st, os = os1 ++ os2 -> run os1 empty = Done st -> layered lv st) -> exists st, run os empty = Done st.
Proof. exact (layered_runs lv os). Qed.
Print Assumptions layered_programs_run.

Theorem later_slot_owned_deadlocks os st g r l1 s l2 x c :
  run os empty = Done st -> nth_error (sigs st) g = Some r -> g_live r = true -> g_active r = 0 -> g_slots r = l1 ++ s :: l2 ->
  nth_error (slots st) s = Some x -> names st s = 1 -> In (true, c) (s_caps x) -> In c l2 -> connected_to st c g ->
  run_op (Disconnect_all g) st = Deadlock /\ run_op (Destroy g) st = Deadlock.
Proof. exact (taking_all_deadlocks os st g r l1 s l2 x c). Qed.
Print Assumptions later_slot_owned_deadlocks.

Theorem owner_cut_in_emission_deadlocks os st g r s x c :
  run os empty = Done st -> nth_error (sigs st) g = Some r -> g_live r = true -> g_active r = 1 -> g_deferred r = true -> In s (g_slots r) ->
  nth_error (slots st) s = Some x -> names st s = 1 -> s_sender x = None -> In (true, c) (s_caps x) -> connected_to st c g ->
  run_op (End g) st = Deadlock.
Proof. exact (emission_end_deadlocks os st g r s x c). Qed.
Print Assumptions owner_cut_in_emission_deadlocks.

Theorem programs_run_refuted :
  run taken_all empty = Deadlock /\ run destroyed_signal empty = Deadlock /\ run cut_in_emission empty = Deadlock.
Proof. split; [|split]; vm_compute; reflexivity. Qed.
Print Assumptions programs_run_refuted.

Example older_fine : exists st, run older_owned empty = Done st /\ map s_live (slots st) = [false; false].
Proof. eexists. split; vm_compute; reflexivity. Qed.
Example levels_layered : layered level (final [New_signal; New_signal; Connect 0 false; Connect 1 true; Give 0 1 true]).
Proof.
  split.
  - intros a b (x & k & H & K). destruct a as [|[|[|a]]]; vm_compute in H; try discriminate; injection H as <-; [destruct K|].
    destruct K as [K|[]]. injection K as <- <-. unfold level. lia.
  - intros g r s c H. destruct g as [|[|[|g]]]; vm_compute in H; try discriminate; injection H as <-; intros [<-|[]] [<-|[]]; reflexivity.
Qed.
