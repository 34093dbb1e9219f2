(** Facts about the runs in SignalRaceSamples. *)
From Coq Require Import List Arith Bool Lia.
From Verif Require Import Base SignalModel SignalSpec SignalRaceModel SignalRaceSpec SignalRaceHbProofs SignalRaceSamples.
Import ListNotations.

Lemma free_respectful st l : free_label l = true -> respectful st l.
Proof. destruct l as [[]|]; cbn; auto; discriminate. Qed.

Lemma play_recorded md : forall ls st tr st', forallb (fun p => free_label (snd p)) ls = true -> play md st ls = Some (tr, st') -> recorded md st tr st'.
Proof.
  induction ls as [|[t l] ls IH]; intros st tr st' F E; cbn in E.
  - injection E as <- <-. constructor.
  - cbn in F. apply andb_true_iff in F. destruct F as [F F']. destruct (lstep md st t l) as [es [|st1 r| |]] eqn:El; try discriminate.
    destruct (play md st1 ls) as [[tr1 st2]|] eqn:Ep; [|discriminate]. injection E as <- <-.
    eapply RC_step; eauto using free_respectful.
Qed.

Lemma play_record md n ls : forallb (fun p => free_label (snd p)) ls = true -> (if play md (init n) ls then true else false) = true ->
  exists st, recorded md (init n) (record_of md n ls) st.
Proof.
  intros F E. unfold record_of. destruct (play md (init n) ls) as [[tr st]|] eqn:Ep; [|discriminate]. exists st. eapply play_recorded; eauto.
Qed.

Lemma cell_eqb_refl c : cell_eqb c c = true.
Proof. destruct c; cbn; apply Nat.eqb_refl. Qed.
Lemma object_eqb_refl b : object_eqb b b = true.
Proof. destruct b; cbn; apply Nat.eqb_refl. Qed.

(** Single edges are found. *)
Lemma thread_order t e e' : may_order (t, e) (t, e') = true.
Proof. unfold may_order. cbn [fst]. now rewrite Nat.eqb_refl. Qed.
Lemma sync_order tr i j t e t' e' : sync tr i j -> at_ tr i t e -> at_ tr j t' e' -> may_order (t, e) (t', e') = true.
Proof.
  intros S A A'. unfold may_order. cbn [fst snd]. apply orb_true_iff. right.
  destruct S as [u u' g H B B'|u u' b w w' H B B' W|u u' c x x' H B B' Q Q' _];
    destruct (at_fun _ _ _ _ _ _ A B) as [-> ->]; destruct (at_fun _ _ _ _ _ _ A' B') as [-> ->].
  - apply Nat.eqb_refl.
  - rewrite object_eqb_refl. cbn. destruct W as [-> | ->]; auto using orb_true_r.
  - assert (released_cell x = Some c) as E by (destruct x; try contradiction; cbn in *; destruct Q as [-> ->]; reflexivity).
    assert (acquired_cell x' = Some c) as E' by (destruct x'; try contradiction; cbn in *; destruct Q' as [-> ->]; reflexivity).
    destruct x; try contradiction; rewrite E, E'; apply cell_eqb_refl.
Qed.

(** The accesses marked by [grow] include all that [HB] reaches. *)
Lemma grow_closed : forall tr seen, let bs := snd (grow tr seen) in
  (forall j y, nth_error tr j = Some y -> (exists x, In x seen /\ may_order x y = true) -> nth j bs false = true) /\
  (forall i j x y, i < j -> nth_error tr i = Some x -> nth_error tr j = Some y -> nth i bs false = true -> may_order x y = true -> nth j bs false = true).
Proof.
  induction tr as [|z tr IH]; intros seen; cbn [grow].
  - cbn. split; intros; destruct j; discriminate.
  - set (b := existsb (fun x => may_order x z) seen). specialize (IH (if b then z :: seen else seen)).
    destruct (grow tr (if b then z :: seen else seen)) as [s bs]. cbn [snd] in *. destruct IH as [I1 I2]. split.
    + intros [|j] y E (x & Hx & M); cbn in E |- *.
      * injection E as ->. unfold b. apply existsb_exists. eauto.
      * eapply I1; eauto. exists x. split; auto. destruct b; [right|]; auto.
    + intros [|i] [|j] x y Hl E E' Hb M; try lia; cbn in E, E', Hb |- *.
      * injection E as ->. apply I1 with y; auto. exists x. rewrite Hb. split; [left|]; auto.
      * apply I2 with i x y; auto. lia.
Qed.

Lemma nth_skip {T} (l : list T) i j : nth_error (skipn i l) j = nth_error l (i + j).
Proof. revert i. induction l as [|x l IH]; intros [|i]; cbn; auto. destruct j; reflexivity. Qed.


Lemma hb_after tr i j : hb tr i j -> after tr i j = true.
Proof.
  intros Hb. assert (forall a b, hb tr a b -> forall o, o = a \/ o < a /\ after tr o a = true -> after tr o b = true) as C; [|eapply C; eauto].
  clear. intros a b Hb. induction Hb as [a b t e e' Hl A A'|a b Sy|a b c H1 IH1 H2 IH2]; intros o Ho.
  3: { apply IH2. right. split; [|apply IH1, Ho]. apply hb_lt in H1. destruct Ho as [->|[]]; lia. }
  all: assert (exists x y, nth_error tr a = Some x /\ nth_error tr b = Some y /\ a < b /\ may_order x y = true) as (x & y & Ea & Eb & Hl' & M).
  1: { exists (t, e), (t, e'). repeat split; auto. apply thread_order. }
  2: { assert (exists t e t' e', at_ tr a t e /\ at_ tr b t' e' /\ a < b) as (t & e & t' & e' & A & A' & Hl) by (destruct Sy; eauto 8).
       exists (t, e), (t', e'). repeat split; auto. eapply sync_order; eauto. }
  all: unfold after in *; pose proof (nth_skip tr o) as N; destruct (skipn o tr) as [|z tr'] eqn:Es.
  1, 3: specialize (N (a - o)); replace (o + (a - o)) with a in N by (destruct Ho as [->|[]]; lia); rewrite Ea in N; destruct (a - o); discriminate.
  all: destruct (grow_closed tr' [z]) as [G1 G2].
  all: assert (nth_error tr' (b - o - 1) = Some y) as Eb' by (rewrite <- Eb; specialize (N (S (b - o - 1))); cbn in N; rewrite N; f_equal; destruct Ho as [->|[]]; lia).
  all: destruct Ho as [->|[Ho Af]].
  1, 3: apply G1 with y; auto; exists x; split; [left|auto]; specialize (N 0); cbn in N; rewrite Nat.add_0_r, Ea in N; congruence.
  all: apply G2 with (a - o - 1) x y; auto; [lia|]; rewrite <- Ea; specialize (N (S (a - o - 1))); cbn in N; rewrite N; f_equal; lia.
Qed.

Lemma droppers_race o : o <> AcqRel -> exists tr st, recorded (with_sub o) (init 2) tr st /\ race tr.
Proof.
  intros Ho. destruct (play (with_sub o) (init 2) two_droppers) as [[tr st]|] eqn:E.
  2: { exfalso. destruct o; vm_compute in E; discriminate. }
  exists tr, st. split; [eapply play_recorded; [|exact E]; reflexivity|].
  exists 27, 31, 0, 1, (ERmw (Count 0) o Sub), (EFree 0).
  assert (at_ tr 27 0 (ERmw (Count 0) o Sub) /\ at_ tr 31 1 (EFree 0) /\ after tr 27 31 = false) as (A & A' & N).
  { destruct o; try contradiction; vm_compute in E; injection E as <- _; vm_compute; auto. }
  split; [lia|]. split; auto. split; auto. split; [lia|]. split.
  - left. exists 0, Atomic, Whole. cbn. auto.
  - intros Hb. apply hb_after in Hb. congruence.
Qed.
