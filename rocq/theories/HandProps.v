(** Connections, scoped connections and blockers as values: properties C139 and C140. *)
From Coq Require Import List Arith Bool.
From Verif Require Import Base HandModel HandSpec HandSamples HandProofs HandRunProofs HandSeenProofs HandOnceProofs.
Import ListNotations.

(** ** C139 *)

(** Whatever addresses [new] gives out, also ones given out before: no program reads a slot that is gone, and handles mean the
    connect calls they were made from. *)
Theorem handles_name_connect_calls : forall pick os, honest pick -> exists st, run pick os start = Ok st /\
  let w := acts os nothing in
  (forall s l, slots w s = Some l -> num_slots st s = Ok (length l) /\
     exists f, (forall g, f g = true <-> In g l /\ ~ blocked w g) /\ emit st s = Ok (filter f l)) /\
  (forall i, exists b, connected st i = Ok b /\ (b = true <-> exists k g, named w i = Some (k, Some g) /\ on w g)).
Proof. exact names_seen. Qed.
Print Assumptions handles_name_connect_calls.

(** Equal handles: of the same connect call, or both of none. *)
Theorem equal_handles_same_call : forall pick os st i j n n', honest pick -> run pick os start = Ok st ->
  comparable (acts os nothing) i j n n' -> exists b, equal st i j = Some b /\ (b = true <-> n = n').
Proof. exact equal_seen. Qed.
Print Assumptions equal_handles_same_call.

Theorem handles_ordered : forall pick os st i j n n', honest pick -> run pick os start = Ok st ->
  comparable (acts os nothing) i j n n' ->
  exists b b', less st i j = Some b /\ less st j i = Some b' /\ (n = n' -> b = false /\ b' = false) /\ (n <> n' -> b = negb b').
Proof. exact less_seen. Qed.
Print Assumptions handles_ordered.

Theorem order_of_handles_transitive : forall st i j k, less st i j = Some true -> less st j k = Some true -> less st i k = Some true.
Proof. exact less_trans. Qed.
Print Assumptions order_of_handles_transitive.

Theorem equal_handles_equal_hashes : forall pick os st i j n h, honest pick -> run pick os start = Ok st ->
  comparable (acts os nothing) i j n n -> exists x, hash h st i = Some x /\ hash h st j = Some x.
Proof. exact hash_seen. Qed.
Print Assumptions equal_handles_equal_hashes.

(** Keys of sets: nothing that is done elsewhere changes how they compare. *)
Theorem keys_keep_their_order : forall pick os i j st st' h, run pick os st = Ok st' -> var st i <> None -> var st j <> None ->
  Forall (fun o => ~ In i (writes o) /\ ~ In j (writes o)) os ->
  equal st' i j = equal st i j /\ less st' i j = less st i j /\ hash h st' i = hash h st i.
Proof. exact keys_stay. Qed.
Print Assumptions keys_keep_their_order.

(** A slot exists as long as a signal has it or a handle names it, and no longer. *)
Theorem slots_live_while_in_use : forall pick os st g, honest pick -> run pick os start = Ok st ->
  (exists a c, st_mem st a = Some c /\ c_call c = g) <-> in_use (acts os nothing) g.
Proof. exact alive_seen. Qed.
Print Assumptions slots_live_while_in_use.

(** Copies do not stay equal: the one that disconnects becomes empty. *)
Theorem copies_stay_equal_refuted : exists os i j, sees os (fun st => equal st i j) = Ok (Some true) /\
  sees (os ++ [Disconnect i]) (fun st => equal st i j) = Ok (Some false) /\
  sees (os ++ [Disconnect i]) (fun st => connected st j) = Ok (Ok false).
Proof. exists two, 0, 2. repeat split; vm_compute; reflexivity. Qed.
Print Assumptions copies_stay_equal_refuted.

Example addresses_may_be_reused : honest first_free.
Proof. exact first_free_honest. Qed.
Example slot_at_the_old_address :
  sees two (fun st => var st 0) = Ok (Some (Conn, Some 0)) /\ sees reuse (fun st => var st 3) = Ok (Some (Conn, Some 0)) /\
  sees reuse (fun st => emit st 0) = Ok (Ok [2; 1]) /\ sees reuse (fun st => (equal st 0 3, equal st 1 3)) = Ok (Some false, Some false).
Proof. repeat split; vm_compute; reflexivity. Qed.
Example an_address_in_use_is_noticed : obind (run (fun _ _ => 0) (two ++ [Disconnect 0; Disconnect 2; Disconnect 1]) start) (fun st => Ok (num_slots st 0)) <> Ok (Ok 0).
Proof. vm_compute. discriminate. Qed.
Example blocked_twice : sees blocks (fun st => emit st 0) = Ok (Ok [1]) /\ sees (blocks ++ [Destroy 4]) (fun st => emit st 0) = Ok (Ok [0; 1]).
Proof. split; vm_compute; reflexivity. Qed.

(** ** C140 *)

(** Slots leave their signal by [disconnect], by the end of scoped connections that name them and with their signal: by nothing
    else, and at once. *)
Theorem slots_leave_by_cuts : forall os o g, g < w_calls (acts os nothing) ->
  on (acts (os ++ [o]) nothing) g <-> on (acts os nothing) g /\ ~ cuts (acts os nothing) o g.
Proof. exact connected_until_cut. Qed.
Print Assumptions slots_leave_by_cuts.

(** For good, whatever follows, and wherever new slots are allocated. *)
Theorem cut_slots_never_called_again : forall pick os o os' st g, honest pick -> run pick (os ++ o :: os') start = Ok st ->
  cuts (acts os nothing) o g -> silent st g.
Proof. exact cut_for_good. Qed.
Print Assumptions cut_slots_never_called_again.

(** [sc = signal.connect(f)]: the connection that [sc] had is disconnected, by the end of the temporary. *)
Theorem scoped_replaced_disconnects : forall pick os i j n os' st g, honest pick ->
  named (acts os nothing) i = Some (Scoped, Some g) -> named (acts os nothing) j = Some (Scoped, n) -> i <> j ->
  run pick (os ++ Move_assign i j :: Destroy j :: os') start = Ok st -> silent st g.
Proof. exact scoped_replaced. Qed.
Print Assumptions scoped_replaced_disconnects.

(** [std::move]d from a variable, not before that one ends. *)
Theorem scoped_assignment_disconnects_refuted : exists os i j, sees os (fun st => emit st 0) = Ok (Ok [0; 1]) /\
  sees (os ++ [Move_assign i j]) (fun st => emit st 0) = Ok (Ok [0; 1]) /\
  sees (os ++ [Move_assign i j]) (fun st => (var st i, var st j)) <> sees os (fun st => (var st i, var st j)) /\
  sees (os ++ [Move_assign i j; Destroy j]) (fun st => emit st 0) = Ok (Ok [1]).
Proof. exists scopes, 3, 4. repeat split; try (vm_compute; reflexivity). vm_compute. discriminate. Qed.
Print Assumptions scoped_assignment_disconnects_refuted.

Theorem released_connections_stay : forall os i g, on (acts os nothing) g -> named (acts os nothing) i = Some (Scoped, Some g) ->
  on (acts (os ++ [Release i; Destroy i]) nothing) g.
Proof. exact released_stays. Qed.
Print Assumptions released_connections_stay.

Example ends_of_scopes : sees (scopes ++ [Destroy 3]) (fun st => emit st 0) = Ok (Ok [1]) /\
  sees (scopes ++ [Release 3; Destroy 3]) (fun st => emit st 0) = Ok (Ok [0; 1]) /\ named (acts scopes nothing) 3 = Some (Scoped, Some 0) /\
  sees (two ++ [Destroy 0; Destroy 2]) (fun st => emit st 0) = Ok (Ok [0; 1]).
Proof. repeat split; vm_compute; reflexivity. Qed.
Example scopes_outlive_signals : sees (scopes ++ [Destroy_signal 0; Destroy 3; Destroy 4]) (fun st => (st_mem st 0, st_mem st 1, connected st 2)) =
  Ok (Some (mkcell 0 1 None 0), None, Ok false).
Proof. vm_compute. reflexivity. Qed.
