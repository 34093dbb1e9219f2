(** Facts about happens-before, and what a step must satisfy so that the order of
    all conflicting accesses is kept. *)
From Coq Require Import List Arith Bool Lia.
From Verif Require Import Base SignalModel SignalSpec SignalMemProofs SignalRelProofs SignalRaceModel SignalRaceSpec.
Import ListNotations.

(* ------------------------------------------------------------- happens-before *)

Lemma at_lt tr i t e : at_ tr i t e -> i < length tr.
Proof. unfold at_. intros E. apply nth_error_Some. congruence. Qed.
Lemma at_app tr x i t e : at_ tr i t e -> at_ (tr ++ x) i t e.
Proof. intros E. unfold at_ in *. rewrite nth_error_app1; auto. apply nth_error_Some. congruence. Qed.
Lemma at_app_inv tr x i t e : at_ (tr ++ x) i t e -> i < length tr -> at_ tr i t e.
Proof. unfold at_. intros E H. now rewrite nth_error_app1 in E. Qed.
Lemma at_fun tr i t e t' e' : at_ tr i t e -> at_ tr i t' e' -> t = t' /\ e = e'.
Proof. unfold at_. intros E E'. rewrite E in E'. injection E' as -> ->. auto. Qed.

Lemma hb_lt tr i j : hb tr i j -> i < j /\ j < length tr.
Proof.
  induction 1 as [i j t e e' H A A'|i j [t t' g H A A'|t t' b w w' H A A' _|t t' c e e' H A A' _ _ _]|i j k _ [] _ []].
  all: try solve [split; [assumption|eapply at_lt; eauto]]. split; lia.
Qed.

Lemma hb_app tr x i j : hb tr i j -> hb (tr ++ x) i j.
Proof.
  intros H. induction H as [i j t e e' H A A'|i j S|i j k H1 IH1 H2 IH2].
  - eapply HB_thread; eauto using at_app.
  - apply HB_sync. destruct S as [t t' g H A A'|t t' b w w' H A A' W|t t' c e e' H A A' R Q N].
    + eapply S_mutex; eauto using at_app.
    + eapply S_user; eauto using at_app.
    + eapply S_atomic; eauto using at_app. intros k u y Hk Hy. eapply N; eauto. eapply at_app_inv; eauto.
      pose proof (at_lt _ _ _ _ A'). lia.
  - eapply HB_trans; eauto.
Qed.

Definition upto (tr : record) (i k : nat) : Prop := i = k \/ hb tr i k.

Lemma upto_app tr x i k : upto tr i k -> upto (tr ++ x) i k.
Proof. intros [->|H]; [left; auto|right; now apply hb_app]. Qed.
Lemma upto_hb tr i j k : upto tr i j -> hb tr j k -> hb tr i k.
Proof. intros [->|H] H'; auto. eapply HB_trans; eauto. Qed.

(** What thread [t] has behind it; what a mutex, an object, a cell passes on. *)
Definition known (tr : record) (t i : nat) : Prop := exists k e, at_ tr k t e /\ upto tr i k.
Definition rmutex (tr : record) (g i : nat) : Prop := exists k t, at_ tr k t (EUnlock g) /\ upto tr i k.
Definition robj (tr : record) (b : object) (wo : bool) (i : nat) : Prop :=
  exists k t w, at_ tr k t (EFin b w) /\ (wo = true -> w = true) /\ upto tr i k.
Definition rcell (tr : record) (c : cell) (i : nat) : Prop :=
  exists k t e, at_ tr k t e /\ releases c e /\ (forall j u x, k < j -> at_ tr j u x -> ~ overwrites c x) /\ upto tr i k.

Lemma known_app tr x t i : known tr t i -> known (tr ++ x) t i.
Proof. intros (k & e & A & U). exists k, e. split; [now apply at_app|now apply upto_app]. Qed.
Lemma rmutex_app tr x g i : rmutex tr g i -> rmutex (tr ++ x) g i.
Proof. intros (k & t & A & U). exists k, t. split; [now apply at_app|now apply upto_app]. Qed.
Lemma robj_app tr x b w i : robj tr b w i -> robj (tr ++ x) b w i.
Proof. intros (k & t & w' & A & W & U). exists k, t, w'. split; [now apply at_app|]. split; auto. now apply upto_app. Qed.
Lemma robj_any tr b w i : robj tr b w i -> robj tr b false i.
Proof. intros (k & t & w' & A & W & U). exists k, t, w'. split; auto. split; auto. discriminate. Qed.

(* ---------------------------------------------------- one step of thread [t] *)

Section Append.
Variables (tr : record) (t : nat) (es : list access).
Let tr' := tr ++ map (pair t) es.
Let n := length tr.

Lemma at_new p e : nth_error es p = Some e <-> at_ tr' (n + p) t e.
Proof.
  unfold at_, tr', n. rewrite nth_error_app2 by lia. replace (length tr + p - length tr) with p by lia.
  rewrite nth_error_map. destruct (nth_error es p); cbn; split; congruence.
Qed.
Lemma at_split i u e : at_ tr' i u e -> at_ tr i u e \/ exists p, i = n + p /\ u = t /\ nth_error es p = Some e.
Proof.
  intros A. destruct (le_lt_dec n i) as [l|l].
  - right. exists (i - n). split; [lia|]. unfold at_, tr', n in *. rewrite nth_error_app2 in A by lia.
    rewrite nth_error_map in A. destruct (nth_error es (i - length tr)); [|discriminate]. injection A as <- <-. auto.
  - left. eapply at_app_inv; eauto.
Qed.

(** Access [i] happens before position [p] of the step. *)
Definition kn (p i : nat) : Prop := hb tr' i (n + p).

Lemma kn_known p i e : known tr t i -> nth_error es p = Some e -> kn p i.
Proof.
  intros (k & x & A & U) E. unfold kn. apply at_new in E. eapply upto_hb; [apply upto_app; exact U|].
  eapply HB_thread; [|apply at_app; exact A|exact E]. pose proof (at_lt _ _ _ _ A). unfold n. lia.
Qed.
Lemma kn_own q p e e' : nth_error es q = Some e -> nth_error es p = Some e' -> q < p -> kn p (n + q).
Proof. intros E E' H. apply at_new in E, E'. eapply HB_thread; eauto. lia. Qed.
Lemma kn_mono q p e e' i : kn q i -> nth_error es q = Some e -> nth_error es p = Some e' -> q <= p -> kn p i.
Proof.
  intros K E E' H. destruct (Nat.eq_dec q p) as [->|ne]; auto. eapply HB_trans; [exact K|]. eapply kn_own; eauto. lia.
Qed.
Lemma kn_lock p g i : nth_error es p = Some (ELock g) -> rmutex tr g i -> kn p i.
Proof.
  intros E (k & u & A & U). apply at_new in E. eapply upto_hb; [apply upto_app; exact U|]. apply HB_sync.
  eapply S_mutex; [|apply at_app; exact A|exact E]. pose proof (at_lt _ _ _ _ A). unfold n. lia.
Qed.
Lemma kn_beg p b w wo i : nth_error es p = Some (EBeg b w) -> robj tr b wo i -> wo = true \/ w = true -> kn p i.
Proof.
  intros E (k & u & w' & A & W & U) Hw. apply at_new in E. eapply upto_hb; [apply upto_app; exact U|]. apply HB_sync.
  eapply S_user; [|apply at_app; exact A|exact E|].
  - pose proof (at_lt _ _ _ _ A). unfold n. lia.
  - destruct Hw; auto.
Qed.
Lemma kn_cell p c e i : nth_error es p = Some e -> acquires c e -> rcell tr c i ->
  (forall q x, q < p -> nth_error es q = Some x -> ~ overwrites c x) -> kn p i.
Proof.
  intros E Q (k & u & x & A & R & N & U) No. apply at_new in E. eapply upto_hb; [apply upto_app; exact U|]. apply HB_sync.
  eapply S_atomic; [|apply at_app; exact A|exact E|exact R|exact Q|].
  - pose proof (at_lt _ _ _ _ A). unfold n. lia.
  - intros j v y Hj Hy. apply at_split in Hy. destruct Hy as [Hy|(q & -> & -> & Hy)].
    + eapply N; [|exact Hy]. lia.
    + eapply No; [|exact Hy]. lia.
Qed.

(** From the step to the new record. *)
Lemma known_new p e i : nth_error es p = Some e -> kn p i \/ i = n + p -> known tr' t i.
Proof. intros E K. exists (n + p), e. split; [now apply at_new|]. unfold upto, kn in *. intuition. Qed.
Lemma rmutex_new p g i : nth_error es p = Some (EUnlock g) -> kn p i \/ i = n + p -> rmutex tr' g i.
Proof. intros E K. exists (n + p), t. split; [now apply at_new|]. unfold upto, kn in *. intuition. Qed.
Lemma robj_new p b w wo i : nth_error es p = Some (EFin b w) -> (wo = true -> w = true) -> kn p i \/ i = n + p -> robj tr' b wo i.
Proof. intros E W K. exists (n + p), t, w. split; [now apply at_new|]. split; auto. unfold upto, kn in *. intuition. Qed.
Lemma rcell_new p c e i : nth_error es p = Some e -> releases c e ->
  (forall q x, p < q -> nth_error es q = Some x -> ~ overwrites c x) -> kn p i \/ i = n + p -> rcell tr' c i.
Proof.
  intros E R N K. exists (n + p), t, e. split; [now apply at_new|]. split; auto. split; [|unfold upto, kn in *; intuition].
  intros j u x Hj Hx. apply at_split in Hx. destruct Hx as [Hx|(q & -> & -> & Hx)].
  - pose proof (at_lt _ _ _ _ Hx). unfold n in Hj. lia.
  - eapply N; [|exact Hx]. lia.
Qed.
Lemma rcell_app c i : rcell tr c i -> (forall x, In x es -> ~ overwrites c x) -> rcell tr' c i.
Proof.
  intros (k & u & x & A & R & N & U) No. exists k, u, x. split; [now apply at_app|]. split; auto. split; [|now apply upto_app].
  intros j v y Hj Hy. apply at_split in Hy. destruct Hy as [Hy|(q & -> & -> & Hy)]; [eauto|]. apply No. eapply nth_error_In; eauto.
Qed.

End Append.
