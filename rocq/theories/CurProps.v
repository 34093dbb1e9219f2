(** C171: [this_signal::current_connection] (kl/signal.hpp:877-886), also in destructors of functions connected. *)
From Coq Require Import List Arith Bool.
From Verif Require Import Base CurModel CurSpec CurProofs CurStepProofs CurRunProofs CurSamples.
Import ListNotations.

(** While the program runs, outside emissions and in slots, whoever asks (a slot, the code around emissions, or the destructor of a function
    of a slot that goes away there) is answered with the slot being invoked, and with nothing outside; it is never undefined. *)
Theorem current_while_invoked : forall n es st e o,
  run (initial n) es = Some (Ok st) -> is_end e = false -> step st e = Some o ->
  exists st', o = Ok st' /\ answers st' = answers st ++ (if asked st st' e then [invoked es] else []).
Proof. exact invoked_ok. Qed.
Print Assumptions current_while_invoked.

Example current_while_invoked_ex :
  exists st, run (initial 3) nested = Some (Ok st) /\ answers st = [None; Some 1; Some 1; Some 0; None] /\ invoked (firstn 9 nested) = Some 1.
Proof. eexists. vm_compute. repeat split. Qed.

(** The end of an outermost emission removes disconnected slots.  It is undefined exactly if the slot invoked last is destroyed and it, or a
    slot destroyed after it, asks. *)
Theorem current_at_end_defined : forall n es st o,
  run (initial n) es = Some (Ok st) -> step st EEnd = Some o ->
  (o = UB <-> exists c a x b, last_invoked es = Some c /\ removed st = a ++ x :: b /\ doomed st x = true /\ asking st x = true /\
                              In c (a ++ [x]) /\ doomed st c = true) /\
  (o = UB \/ exists st', o = Ok st').
Proof. exact end_iff. Qed.
Print Assumptions current_at_end_defined.

Example current_at_end_defined_ex :
  run (initial 1) (one_shot true) = Some UB /\ run (initial 1) later_one = Some UB /\
  (exists st, run (initial 1) (one_shot false) = Some (Ok st)) /\ (exists st, run (initial 1) kept = Some (Ok st)).
Proof. vm_compute. repeat split; eexists; reflexivity. Qed.

(** Otherwise each function destroyed there that asks is answered with the slot invoked last, though none is invoked; destroyed are the
    slots that are disconnected and not held. *)
Theorem current_at_end_answers : forall n es st st',
  run (initial n) es = Some (Ok st) -> step st EEnd = Some (Ok st') ->
  answers st' = answers st ++ map (fun _ => last_invoked es) (filter (fun s => doomed st s && asking st s) (removed st)) /\
  (forall s, 0 < refs st s -> (refs st' s = 0 <-> In s (removed st) /\ doomed st s = true)).
Proof. exact end_answers. Qed.
Print Assumptions current_at_end_answers.

Example current_at_end_answers_ex :
  exists st, run (initial 1) kept = Some (Ok st) /\ answers st = [Some 0; None] /\ map (refs st) [0; 1] = [0; 0].
Proof. eexists. vm_compute. repeat split. Qed.

(** An exception that leaves a slot ends the emission, and is never undefined: the slot keeps a reference.  Other slots that are
    disconnected and not held are destroyed; those that ask are answered with the slot that throws.  What is answered afterwards is
    [current_while_invoked]. *)
Theorem current_at_throw : forall n es st o, run (initial n) es = Some (Ok st) -> step st EThrow = Some o ->
  exists st' c, o = Ok st' /\ invoked es = Some c /\
    answers st' = answers st ++ map (fun _ => Some c) (filter (fun s => negb (s =? c) && (doomed st s && asking st s)) (removed st)) /\
    0 < refs st' c /\
    (forall s, s <> c -> 0 < refs st s -> (refs st' s = 0 <-> In s (removed st) /\ doomed st s = true)).
Proof. exact throw_ok. Qed.
Print Assumptions current_at_throw.

Example current_at_throw_ex :
  exists st, run (initial 2) throwing = Some (Ok st) /\ answers st = [Some 1; Some 0; None] /\ map (refs st) [0; 1; 2] = [1; 1; 0] /\
  invoked (firstn 10 throwing) = Some 0.
Proof. eexists. vm_compute. repeat split. Qed.

(** Without functions that ask when destroyed, no run is undefined. *)
Theorem current_quiet_defined : forall n es o, Forall quiet es -> run (initial n) es = Some o -> exists st, o = Ok st.
Proof. exact quiet_defined. Qed.
Print Assumptions current_quiet_defined.

Example current_quiet_defined_ex : Forall quiet (one_shot false) /\ ~ Forall quiet (one_shot true).
Proof. split; [repeat constructor|]. intros H. inversion H; subst. contradiction. Qed.

(** "The returned connection is empty when called outside of a signal handler" (880): not in destructors at the end of an emission, where it
    is a connection to a slot that is not being invoked, or one to a destroyed slot. *)
Theorem current_outside_refuted :
  ~ (forall n es st st', run (initial n) es = Some (Ok st) -> step st EEnd = Some (Ok st') ->
       Forall (eq (invoked (es ++ [EEnd]))) (skipn (length (answers st)) (answers st'))) /\
  ~ (forall n es o, run (initial n) es = Some o -> o <> UB).
Proof.
  split.
  - intros H. destruct (run (initial 1) by_second) as [[st| |]|] eqn:E; try (vm_compute in E; discriminate).
    destruct (step st EEnd) as [[st'| |]|] eqn:F; try (revert F; vm_compute in E; inversion E; subst; vm_compute; discriminate).
    specialize (H _ _ _ _ E F). revert F H. vm_compute in E. inversion E; subst; clear E. vm_compute. intros F. inversion F; subst; clear F.
    vm_compute. intros H. inversion H; subst. discriminate.
  - intros H. apply (H 1 (one_shot true) UB); reflexivity.
Qed.
Print Assumptions current_outside_refuted.

Example current_outside_refuted_ex :
  invoked (by_second ++ [EEnd]) = None /\ last_invoked by_second = Some 1 /\
  exists st, run (initial 1) (by_second ++ [EEnd]) = Some (Ok st) /\ answers st = [Some 1].
Proof. repeat split. eexists. vm_compute. repeat split. Qed.
