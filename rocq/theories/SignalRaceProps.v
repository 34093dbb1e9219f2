(** C114: signals, connections and blockers have no data race. *)
From Coq Require Import List Arith Bool.
From Verif Require Import Base SignalModel SignalSpec SignalRaceModel SignalRaceSpec SignalRaceSamples SignalRaceEraseProofs SignalRaceFreeProofs SignalRaceWriteProofs SignalRaceSampleProofs.
Import ListNotations.

(** In any schedule of any number of threads, of two accesses of different threads
    to the same memory that are not both reads and not both atomic, the earlier
    happens before the later. *)
Theorem signal_conflicts_ordered : forall n tr st, recorded kl_orders (init n) tr st ->
  forall i j t t' e e', i < j -> at_ tr i t e -> at_ tr j t' e' -> t <> t' -> conflict e e' -> hb tr i j.
Proof. exact conflicts_ordered. Qed.
Print Assumptions signal_conflicts_ordered.

Theorem signal_no_race : forall n tr st, recorded kl_orders (init n) tr st -> ~ race tr.
Proof. exact no_race. Qed.
Print Assumptions signal_no_race.

(** Recorded schedules are the schedules of SignalModel: the accesses add nothing
    and leave nothing out, whatever the memory orders. *)
Theorem every_run_has_a_record : forall md st evs st', runs st evs st' -> exists tr, recorded md st tr st'.
Proof. exact every_run_recorded. Qed.
Print Assumptions every_run_has_a_record.

Theorem every_record_has_a_run : forall md st tr st', recorded md st tr st' -> exists evs, runs st evs st'.
Proof. exact every_record_run. Qed.
Print Assumptions every_record_has_a_run.

Theorem recording_changes_nothing : forall md st t l, snd (lstep md st t l) = step st t l.
Proof. exact e_step. Qed.
Print Assumptions recording_changes_nothing.

(** Whatever a step changes it has recorded a write of. *)
Theorem every_change_is_recorded : forall md st t l es st' r p, lstep md st t l = (es, Next st' r) ->
  content_of (mm st') p <> content_of (mm st) p -> exists e, In e es /\ writes e p.
Proof. exact writes_recorded. Qed.
Print Assumptions every_change_is_recorded.

(** Happens-before is an order. *)
Theorem happens_before_strict : forall tr i j, hb tr i j -> i < j.
Proof. exact hb_strict. Qed.
Print Assumptions happens_before_strict.

(** Any memory order of [release] weaker than the one written is a data race. *)
Theorem release_order_needed : forall o, o <> AcqRel -> exists tr st, recorded (with_sub o) (init 2) tr st /\ race tr.
Proof. exact droppers_race. Qed.
Print Assumptions release_order_needed.

(* ------------------------------------------------------------------ examples *)

(** The run that races with a weaker order is a recorded run of the code as it is,
    has that conflict, and orders it. *)
Example two_droppers_recorded : exists st, recorded kl_orders (init 2) (record_of kl_orders 2 two_droppers) st.
Proof. apply play_record; vm_compute; reflexivity. Qed.
Example two_droppers_conflict :
  at_ (record_of kl_orders 2 two_droppers) 27 0 (ERmw (Count 0) AcqRel Sub) /\ at_ (record_of kl_orders 2 two_droppers) 31 1 (EFree 0) /\
  conflict (ERmw (Count 0) AcqRel Sub) (EFree 0).
Proof. split; [vm_compute; reflexivity|]. split; [vm_compute; reflexivity|]. left. exists 0, Atomic, Whole. repeat split. Qed.
Example two_droppers_ordered : hb (record_of kl_orders 2 two_droppers) 27 31.
Proof.
  destruct two_droppers_recorded as [st R]. destruct two_droppers_conflict as (A & A' & C).
  eapply signal_conflicts_ordered; eauto; repeat constructor.
Qed.

(** Three threads at work on one signal: recorded, and with a conflict. *)
Example busy_threads_recorded : exists st, recorded kl_orders (init 3) (record_of kl_orders 3 busy_threads) st.
Proof. apply play_record; vm_compute; reflexivity. Qed.
Example busy_threads_conflict :
  at_ (record_of kl_orders 3 busy_threads) 14 1 (ESig 0 true) /\ at_ (record_of kl_orders 3 busy_threads) 23 2 (ESig 0 true) /\
  conflict (ESig 0 true) (ESig 0 true).
Proof. split; [vm_compute; reflexivity|]. split; [vm_compute; reflexivity|]. right. exists 0, (Plain true), (Plain true). cbn. auto. Qed.
