(** Property theorems for the modification tracker (C11, C12). *)
From Coq Require Import String List NArith Arith.
From Verif Require Import Base Base64Spec PathModel PathSpec PathProofs TrackerModel TrackerSpec TrackerProofs.
Import ListNotations.
Local Open Scope list_scope.

(** C11: after any history (short enough for the 64-bit counter) the answers
    are the ones read off the history. *)
Theorem tracker_answers_from_history : forall calls evs,
  Forall2 denotes_call calls evs -> (N.of_nat (List.length evs) + 1 < gen_modulus)%N ->
  exists t gens, notify_all tracker_init calls = Ok (t, gens) /\
  forall v l, denotes v l ->
    (forall old, exists b, changed_since t v old = Ok b /\
      (b = true <-> exists i e, nth_error evs i = Some e /\ concerns e l /\ (old < generation_of i)%N)) /\
    (exists g, changed_at t v = Ok g /\
      ((g = 0%N /\ (forall e, In e evs -> ~ concerns e l)) \/
       (exists i e, g = generation_of i /\ nth_error evs i = Some e /\ concerns e l /\
          forall j e', i < j -> nth_error evs j = Some e' -> ~ concerns e' l))).
Proof. exact tracker_from_history. Qed.
Print Assumptions tracker_answers_from_history.

(** C12: generations count notifications from 2 upwards. *)
Theorem tracker_generations_increase : forall calls evs,
  Forall2 denotes_call calls evs -> (N.of_nat (List.length evs) + 1 < gen_modulus)%N ->
  exists t gens, notify_all tracker_init calls = Ok (t, gens) /\
    current t = (1 + N.of_nat (List.length evs))%N /\
    List.length gens = List.length evs /\
    (forall i g, nth_error gens i = Some g -> g = generation_of i).
Proof. exact tracker_generations. Qed.
Print Assumptions tracker_generations_increase.

(** C12: a client that remembers [current()] and asks later is told "changed"
    exactly when something relevant happened in between. *)
Theorem tracker_polling_misses_nothing : forall calls1 evs1 calls2 evs2,
  Forall2 denotes_call calls1 evs1 -> Forall2 denotes_call calls2 evs2 ->
  (N.of_nat (List.length evs1 + List.length evs2) + 1 < gen_modulus)%N ->
  exists t1 g1 t2 g2,
    notify_all tracker_init calls1 = Ok (t1, g1) /\ notify_all t1 calls2 = Ok (t2, g2) /\
    forall v l, denotes v l ->
      exists b, changed_since t2 v (current t1) = Ok b /\
        (b = true <-> exists e, In e evs2 /\ concerns e l).
Proof. exact poll_complete. Qed.
Print Assumptions tracker_polling_misses_nothing.

(** C12: the bound is needed: when the counter wraps a change goes unnoticed. *)
Theorem tracker_wraparound_refuted :
  exists calls evs v t1 gs t2 g,
    Forall2 denotes_call calls evs /\ denotes v [] /\
    notify_all tracker_init calls = Ok (t1, gs) /\ notify_changed t1 v false = Ok (t2, g) /\
    (g < current t1)%N /\ changed_since t2 v (current t1) = Ok false.
Proof. exact wrap_exists. Qed.
Print Assumptions tracker_wraparound_refuted.

(* ---------- concrete cases ---------- *)

Definition example_view (s : string) : path_view :=
  match path_make (codes s) with POk p => path_to_view p | _ => view_default end.

Lemma example_view_denotes s segs p :
  path_meaning (codes s) = Some segs -> path_make (codes s) = POk p ->
  path_size p = List.length segs -> denotes (example_view s) segs.
Proof.
  intros M P Hs. exists path_default, (codes s), p, segs, (List.length segs).
  split; [assumption|]. split; [exact P|]. split; [|now rewrite firstn_all].
  unfold example_view. rewrite P, <- Hs. apply view_start.
Qed.

(** A history with a node change and a subtree change that meets the hypotheses. *)
Example ex_history_denotes :
  Forall2 denotes_call
    [(example_view "/a/b", false); (example_view "/c", true)]
    [mkevent [codes "a"; codes "b"] false; mkevent [codes "c"] true].
Proof.
  repeat constructor; cbn [fst snd where_ whole]; eapply example_view_denotes;
    vm_compute; reflexivity.
Qed.

Example ex_history_answers :
  exists t gs, notify_all tracker_init
    [(example_view "/a/b", false); (example_view "/c", true)] = Ok (t, gs) /\
  gs = [2; 3]%N /\
  changed_since t (example_view "/a") 1 = Ok true /\
  changed_since t (example_view "/a/b/x") 1 = Ok false /\
  changed_since t (example_view "/c/x/y") 2 = Ok true /\
  changed_at t (example_view "/cc") = Ok 0%N /\
  changed_since t (example_view "/") 2 = Ok true.
Proof. eexists _, _. split; [vm_compute; reflexivity|]. repeat split; vm_compute; reflexivity. Qed.
