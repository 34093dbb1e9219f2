(** Handlers that take one type each: the one that is least far away is called. *)
From Coq Require Import List Arith ZArith Bool Lia.
From Verif Require Import Base OverModel OverSpec OverProofs.
Import ListNotations.

Definition steps (r : rank) : nat := match r with exact_match => 0 | promotion => 1 | conversion => 2 | user_defined => 3 end.
Lemma convert_effort : forall W t u r, convert W t u = Some r -> effort W t u = steps r.
Proof.
  intros W t u r H. unfold convert, effort in *. destruct (ty_eqb t u); [injection H as <-; reflexivity|].
  destruct t, u; try (destruct (derives W _ _); [injection H as <-; reflexivity|]; destruct (w_converts W _ _); [injection H as <-; reflexivity|discriminate H]).
  injection H as <-. destruct (promotes _ _); reflexivity.
Qed.
Lemma rank_steps : forall r s, steps r < steps s -> rank_lt r s = true.
Proof. intros [] []; cbn; intro H; try reflexivity; lia. Qed.
Lemma viable_exactly : forall W oc a g i u, p_pat (c_param g) = Exactly u -> viable W oc a g = Some i -> i_type i = u /\ convert W (a_type a) u = Some (i_rank i).
Proof.
  intros W oc a g i u P V. unfold viable in V. destruct (oc && c_mutable g); [discriminate V|].
  unfold deduce in V. rewrite P in V. destruct (p_ref (c_param g)); cbv iota in V; try exact (sequence_rank _ _ _ _ V).
  destruct (a_lvalue a); exact (sequence_rank _ _ _ _ V).
Qed.
Lemma chosen_not_worse : forall W oc a cs n m c d i j, sound W -> resolve W oc a cs = Some n -> nth_error cs n = Some c -> viable W oc a c = Some i ->
  nth_error cs m = Some d -> viable W oc a d = Some j -> ics_better W j i = false.
Proof.
  intros W oc a cs n m c d i j Sd R N V M U. apply resolve_wins in R; [|exact Sd]. destruct R as (c' & i' & N' & V' & B).
  assert (c' = c) by congruence. subst c'. assert (i' = i) by congruence. subst i'.
  destruct (Nat.eq_dec m n) as [->|D].
  - assert (d = c) by congruence. subst d. assert (j = i) by congruence. subst j.
    destruct (ics_better W i i) eqn:E; [|reflexivity]. pose proof (ics_asym W i i Sd E). congruence.
  - specialize (B m d j D M U). unfold better in B. apply andb_true_iff in B as [B _]. apply andb_true_iff in B as [_ B]. apply negb_true_iff, B.
Qed.
Lemma least_effort : forall W oc a cs n m c d u u', sound W -> resolve W oc a cs = Some n -> nth_error cs n = Some c -> p_pat (c_param c) = Exactly u ->
  nth_error cs m = Some d -> p_pat (c_param d) = Exactly u' -> viable W oc a d <> None -> effort W (a_type a) u <= effort W (a_type a) u'.
Proof.
  intros W oc a cs n m c d u u' Sd R N P M Q V. destruct (viable W oc a d) as [j|] eqn:J; [|contradiction V; reflexivity].
  pose proof R as R2. apply resolve_wins in R2; [|exact Sd]. destruct R2 as (c' & i & N' & I & _). assert (c' = c) by congruence. subst c'.
  destruct (viable_exactly _ _ _ _ _ _ P I) as [_ C]. destruct (viable_exactly _ _ _ _ _ _ Q J) as [_ D].
  rewrite (convert_effort _ _ _ _ C), (convert_effort _ _ _ _ D).
  destruct (Nat.le_gt_cases (steps (i_rank i)) (steps (i_rank j))) as [L|L]; [exact L|]. apply rank_steps in L.
  pose proof (chosen_not_worse _ _ _ _ _ _ _ _ _ _ Sd R N I M J) as B. unfold ics_better in B. rewrite L in B. discriminate B.
Qed.
Lemma nearest_base : forall W oc a cs n m c d u u', sound W -> resolve W oc a cs = Some n -> nth_error cs n = Some c -> p_pat (c_param c) = Exactly u ->
  nth_error cs m = Some d -> p_pat (c_param d) = Exactly u' -> viable W oc a d <> None -> derives W (a_type a) u' = true -> derives W u' u = false.
Proof.
  intros W oc a cs n m c d u u' Sd R N P M Q V X. destruct (viable W oc a d) as [j|] eqn:J; [|contradiction V; reflexivity].
  pose proof R as R2. apply resolve_wins in R2; [|exact Sd]. destruct R2 as (c' & i & N' & I & _). assert (c' = c) by congruence. subst c'.
  destruct (viable_exactly _ _ _ _ _ _ P I) as [T C]. destruct (viable_exactly _ _ _ _ _ _ Q J) as [T' D].
  destruct (derives W u' u) eqn:Y; [|reflexivity]. exfalso.
  pose proof (chosen_not_worse _ _ _ _ _ _ _ _ _ _ Sd R N I M J) as B. unfold ics_better in B. rewrite T, T', Y in B.
  assert (Z : derives W (a_type a) u = true).
  { clear -X Y Sd. destruct Sd as [_ Tr]. destruct (a_type a), u', u; try discriminate. cbn in *. apply (Tr _ _ _ X Y). }
  assert (K : forall v, derives W (a_type a) v = true -> convert W (a_type a) v = Some conversion).
  { intros v Hv. unfold convert. destruct (ty_eqb (a_type a) v) eqn:E.
    - apply ty_eqb_eq in E. rewrite <- E in Hv. rewrite derives_irrefl in Hv by exact Sd. discriminate Hv.
    - destruct (a_type a), v; try discriminate Hv. rewrite Hv. reflexivity. }
  rewrite (K _ Z) in C. rewrite (K _ X) in D. injection C as C. injection D as D. rewrite <- C, <- D in B. discriminate B.
Qed.
