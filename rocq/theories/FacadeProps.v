(** iterator_facade: what is claimed. *)
From Coq Require Import List ZArith Bool Lia.
From Verif Require Import Base FacadeModel FacadeSpec FacadeProofs FacadeSamples.
Import ListNotations.
Local Open Scope Z_scope.

(** If the functions of the derived class do what is asked of them, programs with the operators behave as on positions. *)
Theorem facade_refines_positions : forall (St V : Type) (D : derived St V) cells pos first last element,
  conforms D cells pos first last element -> forall l e a a' o,
  Forall (offered D) l -> (Exists (fun i => exists x, i = Arrow x) l -> points D) ->
  (Exists (fun i => exists x n, i = Subscript x n) l -> ~ stashing D) ->
  (forall x, pos (e x) = a x /\ first <= a x <= last) -> means first last element l a = Some (a', o) ->
  exists e', program D cells l e = Some (Ok (e', o)) /\ forall x, pos (e' x) = a' x /\ first <= a' x <= last.
Proof. intros St V D cells pos first last element. exact (program_refines D cells pos first last element). Qed.
Print Assumptions facade_refines_positions.

(** Exactly the operators of the category compile, and the arrow for lvalues and for objects that can be put in its proxy. *)
Theorem facade_operators : forall (St V : Type) (D : derived St V) cells l e,
  program D cells l e <> None <-> Forall (offered D) l /\ (Exists (fun i => exists x, i = Arrow x) l -> points D).
Proof. intros St V D cells. exact (program_compiles D cells). Qed.
Print Assumptions facade_operators.

(** Iterators that return a reference to a member of theirs have no subscript. *)
Theorem stashing_subscript_undefined : forall (St V : Type) (D : derived St V) cells, (forall c, reference D <> Val c) ->
  forall e s s' n, advance D s n = Ok s' -> dereference D s' = Ok InSelf -> obind (subscript D cells s n) (load D cells e) = UB.
Proof. intros St V D cells. exact (subscript_stash D cells). Qed.
Print Assumptions stashing_subscript_undefined.

Theorem subscript_is_plus_refuted : ~ forall (D : derived Z Z) cells (e : vars) x n y, conforms D cells (fun i => i) 0 10 (fun i => i) ->
  obind (plus D (e x) n) (fun s => Ok (set_var e y s)) = Ok (set_var e y (e x + n)) ->
  obind (subscript D cells (e x) n) (load D cells e) =
  obind (star D cells (Named y) (e x + n)) (load D cells (set_var e y (e x + n))).
Proof.
  intros H. assert (C : conforms counting_iterator (fun _ => 0) (fun i => i) 0 10 (fun i => i)).
  { split; intros; try (cbn; eauto; fail). 1: reflexivity. right. left. split; reflexivity. }
  specialize (H counting_iterator (fun _ => 0) (fun _ => 3) 0%nat 2 1%nat C eq_refl). vm_compute in H. discriminate H.
Qed.
Print Assumptions subscript_is_plus_refuted.

(** [std::iterator_traits]: the value type is const exactly for references to const elements and for const objects. *)
Theorem value_type_const_iff : forall r, value_type r = Object true <-> r = LRef true \/ r = Val true.
Proof. exact value_type_const. Qed.
Print Assumptions value_type_const_iff.

Theorem value_type_unqualified_refuted : ~ forall r, value_type r = Object false.
Proof. intros H. specialize (H (LRef true)). discriminate H. Qed.
Print Assumptions value_type_unqualified_refuted.

(** Going back by the least difference is undefined, by any other it is going forward by the opposite. *)
Theorem going_back : forall (St V : Type) (D : derived St V) s n, (sub_assign D s n = minus D s n) /\
  (n <> - 2 ^ 63 -> sub_assign D s n = advance D s (- n)) /\ ((forall s m, advance D s m <> UB) -> (sub_assign D s n = UB <-> n = - 2 ^ 63)).
Proof. intros St V D. exact (going_back_by D). Qed.
Print Assumptions going_back.

(** There are iterators with a star and without an arrow. *)
Theorem arrow_like_star_refuted : ~ forall (D : derived Z nat) cells e x, movable D = true -> copyable D = true ->
  program D cells [Star x] e <> None -> program D cells [Arrow x] e <> None.
Proof. intros H. specialize (H (index_iterator (RRef false) Input) squares (fun _ => 0) 0%nat eq_refl eq_refl). vm_compute in H. apply H; [discriminate | reflexivity]. Qed.
Print Assumptions arrow_like_star_refuted.

(** A derived class with Boost's [distance_to], from the first to the second, is ordered backwards. *)
Theorem boost_distance_reversed : forall (St V : Type) (D : derived St V) pos, (forall s s', distance_to D s s' = Ok (pos s' - pos s)) ->
  forall s s', lt_op D s s' = Ok (pos s' <? pos s) /\ difference D s s' = Ok (pos s' - pos s).
Proof. intros St V D pos. exact (distance_reversed D pos). Qed.
Print Assumptions boost_distance_reversed.

Example vector_iterators_conform : forall r c first last, 0 <= first -> last - first < 2 ^ 63 ->
  conforms (index_iterator r c) squares (fun i => i) first last (fun i => squares (Z.to_nat i)).
Proof. intros r c first last F R. split; intros; try (cbn; eauto; fail). left. eexists. split; reflexivity. Qed.
Example a_tour : program (index_iterator (LRef true) RandomAccess) squares tour (fun _ => 0) =
  Some (Ok (match program (index_iterator (LRef true) RandomAccess) squares tour (fun _ => 0) with Some (Ok p) => fst p | _ => fun _ => 0 end,
            [OVal 4%nat; OVal 1%nat; OVal 9%nat; ONum 1; OBool true; OBool false; OBool true])).
Proof. vm_compute. reflexivity. Qed.
Example the_tour_means : match means 0 10 (fun i => squares (Z.to_nat i)) tour (fun _ => 0) with
  | Some (_, o) => o = [OVal 4%nat; OVal 1%nat; OVal 9%nat; ONum 1; OBool true; OBool false; OBool true] | None => False end.
Proof. vm_compute. reflexivity. Qed.
Example lists_have_no_plus : program (index_iterator (Val false) Bidirectional) squares [Plus 1 0 2] (fun _ => 0) = None /\
  program (index_iterator (Val false) Bidirectional) squares [PreInc 0; PostDec 1 0; Arrow 0] (fun _ => 4) <> None.
Proof. split; vm_compute; [reflexivity | discriminate]. Qed.
Example boost_backwards : lt_op boost_iterator 1 2 = Ok false /\ lt_op (index_iterator (LRef true) RandomAccess) 1 2 = Ok true.
Proof. split; vm_compute; reflexivity. Qed.
