(** Proofs about zipping. *)
From Coq Require Import List NArith Arith Bool Lia ZifyBool ZifyNat ZifyN.
From Verif Require Import Base ZipModel ZipSpec.
Import ListNotations.
Local Open Scope outcome_scope.

Lemma nth_error_ext {A} (l : list A) : forall l', (forall i, nth_error l i = nth_error l' i) -> l = l'.
Proof.
  induction l as [|x l IH]; intros [|y l'] H; [reflexivity| | |].
  - discriminate (H 0).
  - discriminate (H 0).
  - f_equal; [specialize (H 0); cbn in H; congruence|]. apply IH. intros i. exact (H (S i)).
Qed.

Section zip.
Variable V : Type.
Variable of_number : N -> V.
Local Notation sequence := (sequence V).

(** The iterator after [k] steps. *)
Definition iter_at (s : sequence) (k : nat) : iter :=
  match s with
  | Container _ => At k
  | Iota b _ | Unbounded b => Num ((b + N.of_nat k) mod 2 ^ 64)
  end.

Definition before_end (s : sequence) (k : nat) : Prop :=
  match size s with Some m => (N.of_nat k < m)%N | None => True end.
Definition not_past (s : sequence) (k : nat) : Prop :=
  match size s with Some m => (N.of_nat k <= m)%N | None => True end.

Lemma begin_at s : sequence_ok s -> seq_begin V s = iter_at s 0.
Proof.
  destruct s; cbn [sequence_ok seq_begin iter_at]; intros H; f_equal;
    change (N.of_nat 0) with 0%N; rewrite N.add_0_r, N.mod_small; tauto.
Qed.

Lemma differs_at s k : sequence_ok s -> not_past s k -> differs V s (iter_at s k) = true <-> before_end s k.
Proof.
  unfold before_end, not_past. destruct s as [xs|b e|b]; cbn [sequence_ok size differs iter_at]; intros Hok Hk.
  - destruct (Nat.eqb_spec k (length xs)); cbn; lia.
  - change (2 ^ 64)%N with 18446744073709551616%N in *.
    destruct (N.eqb_spec ((b + N.of_nat k) mod 18446744073709551616) e) as [E|E]; cbn; lia.
  - tauto.
Qed.

Lemma deref_at s k : before_end s k -> exists v, deref V of_number s (iter_at s k) = Ok v /\ has_at of_number s k v.
Proof.
  unfold before_end. destruct s as [xs|b e|b]; cbn [size deref iter_at has_at]; intros H.
  - unfold rd. destruct (nth_error xs k) eqn:E; [eauto|]. apply nth_error_None in E. lia.
  - eauto.
  - eauto.
Qed.

Lemma advance_at s k : before_end s k -> advance V s (iter_at s k) = Ok (iter_at s (S k)).
Proof.
  unfold before_end. destruct s as [xs|b e|b]; cbn [size advance iter_at]; intros H.
  - destruct (Nat.ltb_spec k (length xs)); [reflexivity|lia].
  - f_equal. f_equal. unfold size_max1. change (2 ^ 64)%N with 18446744073709551616%N. lia.
  - f_equal. f_equal. unfold size_max1. change (2 ^ 64)%N with 18446744073709551616%N. lia.
Qed.

Lemma not_equal_at ss k : Forall sequence_ok ss -> Forall (fun s => not_past s k) ss ->
  not_equal V ss (map (fun s => iter_at s k) ss) = true <-> Forall (fun s => before_end s k) ss.
Proof.
  induction ss as [|s ss IH]; intros H1 H2; cbn [map not_equal]; [split; [constructor|easy]|].
  inversion H1; inversion H2; subst. rewrite andb_true_iff, differs_at, IH by assumption. rewrite Forall_cons_iff. tauto.
Qed.

Lemma deref_all_at ss k : Forall (fun s => before_end s k) ss ->
  exists t, deref_all V of_number ss (map (fun s => iter_at s k) ss) = Ok t /\ Forall2 (fun s v => has_at of_number s k v) ss t.
Proof.
  induction 1 as [|s ss H _ (t & E & F)]; cbn [map deref_all]; [eauto|].
  destruct (deref_at s k H) as (v & Ev & Hv). rewrite Ev. cbn [obind]. rewrite E. cbn [obind]. eauto.
Qed.

Lemma advance_all_at ss k : Forall (fun s => before_end s k) ss ->
  advance_all V ss (map (fun s => iter_at s k) ss) = Ok (map (fun s => iter_at s (S k)) ss).
Proof.
  induction 1 as [|s ss H _ IH]; cbn [map advance_all]; [reflexivity|].
  rewrite advance_at by assumption. cbn [obind]. rewrite IH. reflexivity.
Qed.

(** One round. *)
Lemma step_before s k : before_end s k -> not_past s (S k).
Proof. unfold before_end, not_past. destruct (size s); [lia|easy]. Qed.

Lemma loop_spec ss : Forall sequence_ok ss -> forall n fuel k,
  (forall j, k <= j < k + n -> Forall (fun s => before_end s j) ss) ->
  Exists (fun s => size s = Some (N.of_nat (k + n))) ss -> Forall (fun s => not_past s k) ss -> n <= fuel ->
  exists r, zip_loop V of_number fuel ss (map (fun s => iter_at s k) ss) = Ok (Some r) /\
    length r = n /\ forall i t, nth_error r i = Some t -> Forall2 (fun s v => has_at of_number s (k + i) v) ss t.
Proof.
  intros Hok. induction n as [|n IH]; intros fuel k Hb He Hp Hf.
  - assert (E : not_equal V ss (map (fun s => iter_at s k) ss) = false).
    { apply not_true_iff_false. rewrite not_equal_at by assumption. rewrite Exists_exists in He. destruct He as (s & Hin & Es).
      rewrite Forall_forall. intros H. specialize (H s Hin). unfold before_end in H. rewrite Es in H. lia. }
    exists []. split; [|split; [easy|now intros [|]]]. destruct fuel; cbn [zip_loop]; rewrite E; reflexivity.
  - assert (Hk : Forall (fun s => before_end s k) ss) by (apply Hb; lia).
    destruct fuel as [|fuel]; [lia|]. cbn [zip_loop].
    replace (not_equal V ss _) with true by (symmetry; now apply not_equal_at).
    destruct (deref_all_at ss k Hk) as (t & Et & Ft). rewrite Et. cbn [obind]. rewrite advance_all_at by assumption. cbn [obind].
    destruct (IH fuel (S k)) as (r & Er & Lr & Fr).
    + intros j Hj. apply Hb. lia.
    + replace (S k + n) with (k + S n) by lia. exact He.
    + revert Hk. apply Forall_impl. intros s. apply step_before.
    + lia.
    + rewrite Er. cbn [obind option_map]. exists (t :: r). split; [reflexivity|]. split; [cbn; now rewrite Lr|].
      intros [|i] t' H; cbn in H.
      * injection H as <-. now rewrite Nat.add_0_r.
      * replace (k + S i) with (S k + i) by lia. now apply Fr.
Qed.

Lemma zipped_lemma ss n fuel : Forall sequence_ok ss -> shortest ss n -> n <= fuel ->
  exists r, zipped V of_number fuel ss = Ok (Some r) /\ length r = n /\
    forall i t, nth_error r i = Some t -> Forall2 (fun s v => has_at of_number s i v) ss t.
Proof.
  intros Hok [(s0 & Hin & Es) Hmin] Hf. unfold zipped.
  replace (map (seq_begin V) ss) with (map (fun s => iter_at s 0) ss).
  2:{ apply map_ext_in. intros s Hs. symmetry. apply begin_at. rewrite Forall_forall in Hok. auto. }
  apply (loop_spec ss Hok n fuel 0).
  - intros j Hj. apply Forall_forall. intros s Hs. unfold before_end. destruct (size s) as [m|] eqn:Em; [|easy].
    specialize (Hmin s m Hs Em). lia.
  - apply Exists_exists. eauto.
  - apply Forall_forall. intros s _. unfold not_past. destruct (size s); [lia|easy].
  - exact Hf.
Qed.

(** Without a bounded sequence the loop never ends. *)
Lemma endless_lemma ss : Forall sequence_ok ss -> Forall (fun s => size s = None) ss ->
  forall fuel, zipped V of_number fuel ss = Ok None.
Proof.
  intros Hok Hn fuel. unfold zipped.
  replace (map (seq_begin V) ss) with (map (fun s => iter_at s 0) ss).
  2:{ apply map_ext_in. intros s Hs. symmetry. apply begin_at. rewrite Forall_forall in Hok. auto. }
  assert (HB : forall k, Forall (fun s => before_end s k) ss).
  { intros k. revert Hn. apply Forall_impl. intros s E. unfold before_end. now rewrite E. }
  assert (HP : forall k, Forall (fun s => not_past s k) ss).
  { intros k. revert Hn. apply Forall_impl. intros s E. unfold not_past. now rewrite E. }
  generalize 0. induction fuel as [|fuel IH]; intros k; cbn [zip_loop];
    (replace (not_equal V ss _) with true by (symmetry; now apply not_equal_at)); [reflexivity|].
  destruct (deref_all_at ss k (HB k)) as (t & Et & _). rewrite Et. cbn [obind]. rewrite advance_all_at by auto. cbn [obind].
  rewrite IH. reflexivity.
Qed.

Lemma enumerated_lemma xs fuel : (N.of_nat (length xs) <= 2 ^ 64)%N -> length xs <= fuel ->
  enumerated V of_number fuel xs = Ok (Some (map (fun p => [of_number (N.of_nat (fst p)); snd p]) (combine (seq 0 (length xs)) xs))).
Proof.
  intros H64 Hf. unfold enumerated.
  destruct (zipped_lemma [Unbounded 0; Container xs] (length xs) fuel) as (r & E & L & R); auto.
  - repeat constructor.
  - split; [exists (Container xs); cbn; auto|]. intros s m [<-|[<-|[]]] Hm; cbn in Hm; [discriminate|]. injection Hm as <-. lia.
  - rewrite E. f_equal. f_equal. apply nth_error_ext. intros i.
    destruct (Nat.lt_ge_cases i (length xs)) as [Hi|Hi].
    + destruct (nth_error r i) as [t|] eqn:Et; [|apply nth_error_None in Et; lia].
      specialize (R i t Et). inversion R as [|? v0 ? t0 H0 R0]; subst. inversion R0 as [|? v1 ? t1 H1 R1]; subst. inversion R1; subst.
      cbn [has_at] in *. rewrite N.add_0_l, N.mod_small in H0 by lia. subst v0.
      erewrite map_nth_error; [|].
      2:{ instantiate (1 := (i, v1)). clear -H1 Hi.
          assert (forall a, nth_error (combine (seq a (length xs)) xs) i = Some (a + i, v1)) as HH.
          { revert i H1 Hi. induction xs as [|x xs IH]; intros i H1 Hi a; [cbn in Hi; lia|]. destruct i as [|i]; cbn in *.
            - injection H1 as ->. now rewrite Nat.add_0_r.
            - rewrite IH by (auto; lia). f_equal. f_equal. lia. }
          apply (HH 0). }
      reflexivity.
    + transitivity (@None (list V)); [|symmetry]; apply nth_error_None; [lia|]. rewrite map_length, combine_length, seq_length. lia.
Qed.
End zip.
