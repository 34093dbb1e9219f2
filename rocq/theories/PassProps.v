(** How the arguments of an emission reach the slots: what is claimed. *)
From Coq Require Import List Arith Bool.
From Verif Require Import PassModel PassSpec PassProofs PassDeliverProofs PassValueProofs PassSamples.
Import ListNotations.

(** Arguments by value or reference to const: every function, also of signals behind signals, gets what the caller passed,
    whatever others did to their parameters; and the caller's objects stay as they are if they are not given away. *)
Theorem slots_get_arguments : forall V ps ss es st st' g,
  Forall (fun p => p_pass p <> Ref) ps -> given_once es -> Forall (fun e => object_of e < length (cells V st)) es ->
  emit V (Signal V ps ss) es st = Some (st', g) ->
  g = map (fun id => (id, map (read V st) (map object_of es))) (functions V (Signal V ps ss)) /\
  forall x, x < length (cells V st) ->
    (given_away ps es x -> read V st' x = Moved V) /\ (~ given_away ps es x -> read V st' x = read V st x).
Proof. exact @values_delivered. Qed.
Print Assumptions slots_get_arguments.

(** All arguments: as if there were no copies, moves and layers of functions. *)
Theorem emission_as_delivered : forall V (sg : signal V) es st st' g,
  Forall (fun e => object_of e < length (cells V st)) es -> emit V sg es st = Some (st', g) ->
  snd (deliver V sg (map (arg_of V) es) (read V st)) = g /\
  forall x, x < length (cells V st) -> read V st' x = fst (deliver V sg (map (arg_of V) es) (read V st)) x.
Proof. exact emission_delivers. Qed.
Print Assumptions emission_as_delivered.

(** An argument by reference collects the changes of one function after the other. *)
Theorem reference_collects_changes : forall V (fs : list (nat * (cell V -> cell V))) x st, x < length (cells V st) ->
  exists st', emit V (Signal V [mkparam Ref true] (map (fun f => Function V (fst f) [mkparam Ref true] (map (snd f))) fs)) [LValue x] st =
      Some (st', succession V fs (read V st x)) /\
    read V st' x = fold_left (fun c f => snd f c) fs (read V st x) /\
    forall y, y < length (cells V st) -> y <> x -> read V st' y = read V st y.
Proof. exact @shared_emission. Qed.
Print Assumptions reference_collects_changes.

(** Emissions that compile: every argument is accepted by every function as the signature announces it, and can be passed
    again and again. *)
Theorem emission_compiles : forall V (sg : signal V) es st, emit V sg es st <> None <-> well_formed V sg (map category_of es).
Proof. exact @emit_well_formed. Qed.
Print Assumptions emission_compiles.

(** The number of copies that are made. *)
Theorem emission_copies : forall V (sg : signal V) es st st' g, emit V sg es st = Some (st', g) ->
  copies V st' = copies V st + cost V sg (map category_of es).
Proof. exact @emit_copies. Qed.
Print Assumptions emission_copies.

(** An argument that is const for the slots may still change, if it is passed by reference as well. *)
Theorem const_arguments_stay_refuted : ~ forall V (sg : signal V) p q ps ss es st st' g id1 id2 l1 l2,
  sg = Signal V (p :: q :: ps) ss -> p_pass q = CRef -> emit V sg es st = Some (st', g) ->
  In (id1, l1) g -> In (id2, l2) g -> nth 1 l1 (Moved V) = nth 1 l2 (Moved V).
Proof.
  intros H. specialize (H nat mixed T_ref T_cref [] _ [LValue 0; ConstLValue 0] start _ _ 1 2 [Val nat 7; Val nat 7] [Val nat 8; Val nat 8] eq_refl eq_refl eq_refl).
  specialize (H (or_introl eq_refl) (or_intror (or_introl eq_refl))). vm_compute in H. discriminate H.
Qed.
Print Assumptions const_arguments_stay_refuted.

(** A value that cannot be copied cannot be emitted, not even to one slot that takes it over. *)
Theorem unique_values_emitted_refuted : ~ forall V p s x st, p_pass p = Value -> s = Function V 1 [p] (fun l => l) -> x < length (cells V st) ->
  emit V (Signal V [p] [s]) [XValue x] st <> None.
Proof. intros H. apply (H nat Unique _ 0 start eq_refl eq_refl); [repeat constructor | reflexivity]. Qed.
Print Assumptions unique_values_emitted_refuted.
(** Nor can a signal of rvalue references. *)
Theorem rvalue_signals_emitted_refuted : ~ forall V p s x st, p_pass p = RRef -> s = Function V 1 [p] (fun l => l) -> x < length (cells V st) ->
  emit V (Signal V [p] [s]) [XValue x] st <> None.
Proof. intros H. apply (H nat T_rref _ 0 start eq_refl eq_refl); [repeat constructor | reflexivity]. Qed.
Print Assumptions rvalue_signals_emitted_refuted.

Example outer_emitted : option_map snd (emit nat outer [XValue 0; ConstLValue 1] start) =
  Some (map (fun id => (id, [Val nat 7; Val nat 8])) [1; 3; 4; 3; 4; 2]).
Proof. vm_compute. reflexivity. Qed.
Example outer_gives_away : option_map (fun r => firstn 2 (cells nat (fst r))) (emit nat outer [XValue 0; ConstLValue 1] start) = Some [Moved nat; Val nat 8].
Proof. vm_compute. reflexivity. Qed.
Example outer_copies : cost nat outer [X; C] = 11 /\ option_map (fun r => copies nat (fst r)) (emit nat outer [XValue 0; ConstLValue 1] start) = Some 11.
Proof. split; vm_compute; reflexivity. Qed.
Example given_once_sample : given_once [XValue 0; ConstLValue 1].
Proof. intros x [E|[E|[]]]; [injection E as <-; reflexivity | discriminate]. Qed.
Example three_changes : option_map snd (emit nat (Signal nat [T_ref] [Function nat 1 [T_ref] increment; Function nat 2 [T] increment; Function nat 3 [T_cref] increment]) [LValue 0] start) =
  Some [(1, [Val nat 7]); (2, [Val nat 8]); (3, [Val nat 8])].
Proof. vm_compute. reflexivity. Qed.
