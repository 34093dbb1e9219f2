From Coq Require Import List Arith Bool Lia.
From Verif Require Import Base HandModel HandSpec HandProofs.
Import ListNotations.

(** * Handles *)

Lemma retain_inv st x y z k p : inv st x y z -> (forall a, p = Some a -> st_mem st a <> None) ->
  exists m, retain k p (st_mem st) = Ok m /\
    inv (with_mem st m) (fun b => occ (ptr (Some (k, p))) b + x b) (fun b => occ (bptr (Some (k, p))) b + y b) z /\ keeps (st_mem st) m.
Proof.
  intros I L. destruct p as [a|].
  2: { exists (st_mem st). split; [reflexivity|]. split; [|apply keeps_refl]. destruct st, k; exact I. }
  cbn [retain]. destruct (add_ref_inv st x y z a I (L a eq_refl)) as (m & E & J & K). rewrite E. cbn [obind].
  destruct k; [exists m; split; [reflexivity | split; [exact J | exact K]].. |].
  assert (La : m a <> None).
  { apply (i_live _ _ _ _ J). cbv beta. rewrite occ_cons, Nat.eqb_refl. lia. }
  destruct (block_inv _ _ _ _ a J La) as (m' & E' & J' & K'). exists m'. split; [exact E'|]. split; [exact J' | exact (keeps_trans _ _ _ K K')].
Qed.
Lemma drop_inv st x y z k p :
  inv st (fun b => occ (ptr (Some (k, p))) b + x b) (fun b => occ (bptr (Some (k, p))) b + y b) z ->
  exists m, drop k p (st_mem st) = Ok m /\ inv (with_mem st m) x y z /\ keeps (st_mem st) m.
Proof.
  intros I. destruct p as [a|].
  2: { exists (st_mem st). split; [reflexivity|]. split; [|apply keeps_refl]. destruct st, k; exact I. }
  assert (La : st_mem st a <> None).
  { apply (i_live _ _ _ _ I). cbv beta. cbn [ptr]. rewrite occ_cons, Nat.eqb_refl. lia. }
  cbn [drop]. destruct k; cbn [obind]; [exact (release_inv st x y z a I) | exact (release_inv st x y z a I) |].
  destruct (unblock_inv st _ y z a I La) as (m & E & J & K). rewrite E. cbn [obind].
  destruct (release_inv _ x y z a J) as (m' & E' & J' & K'). exists m'. split; [exact E'|]. split; [exact J' | exact (keeps_trans _ _ _ K K')].
Qed.

(** * Signals *)

Lemma each_rebind_inv o l : forall st x y z, inv st x y (l ++ z) -> (forall a, In a l -> st_mem st a <> None) ->
  (forall a t, In a l -> o = Some t <-> sends st t a) ->
  exists m, each (rebind o) l (st_mem st) = Ok m /\ inv (with_mem st m) x y z /\ keeps (st_mem st) m /\
    (forall b, st_mem st b <> None -> m b <> None).
Proof.
  induction l as [|a l IH]; intros st x y z I L S; cbn [each].
  { exists (st_mem st). split; [reflexivity|]. split; [destruct st; exact I|]. split; [apply keeps_refl | tauto]. }
  destruct (rebind_inv st x y ((a :: l) ++ z) (l ++ z) a o I) as (m & E & J & K & M & _).
  { apply L. now left. }
  { intros t _. apply S. now left. }
  { intros b Hb Nb [->|H]; [now apply Hb | now apply Nb]. }
  rewrite E. cbn [obind]. destruct (IH (with_mem st m) x y z J) as (m' & E' & J' & K' & M').
  { intros b Hb. apply M, L. now right. }
  { intros b t Hb. apply S. now right. }
  exists m'. split; [exact E'|]. split; [exact J'|]. split; [exact (keeps_trans _ _ _ K K')|]. intros b Hb. apply M', M, Hb.
Qed.

Lemma each_clear_inv l : forall st x y, inv st (fun b => occ l b + x b) y l -> (forall a t, In a l -> ~ sends st t a) ->
  exists m, each (fun a m => obind (rebind None a m) (release a)) l (st_mem st) = Ok m /\ inv (with_mem st m) x y [] /\ keeps (st_mem st) m.
Proof.
  induction l as [|a l IH]; intros st x y I S; cbn [each].
  { exists (st_mem st). split; [reflexivity|]. split; [destruct st; exact I | apply keeps_refl]. }
  destruct (rebind_inv st _ y (a :: l) l a None I) as (m & E & J & K & M & _).
  { apply (i_live _ _ _ _ I). cbv beta. rewrite occ_cons, Nat.eqb_refl. lia. }
  { intros t _. split; [discriminate|]. intros H. destruct (S a t (or_introl eq_refl) H). }
  { intros b Hb Nb [->|H]; [now apply Hb | now apply Nb]. }
  rewrite E. cbn [obind].
  destruct (release_inv (with_mem st m) (fun b => occ l b + x b) y l a) as (m1 & E1 & J1 & K1).
  { apply (inv_ext _ _ _ _ _ _ J); [|reflexivity]. intros b. rewrite !(occ_cons a). cbn [occ count_occ]. lia. }
  cbn [with_mem st_mem] in E1. rewrite E1. cbn [obind].
  destruct (IH (with_mem st m1) x y J1) as (m2 & E2 & J2 & K2).
  { intros b t Hb. apply S. now right. }
  exists m2. split; [exact E2|]. split; [exact J2|]. exact (keeps_trans _ _ _ (keeps_trans _ _ _ K K1) K2).
Qed.

(** On one signal at most. *)
Lemma one_sender st x y a c s t : inv st x y [] -> st_mem st a = Some c -> sends st s a -> sends st t a -> s = t.
Proof.
  intros I M A B. apply (i_sender _ _ _ _ I a c s M (fun H => H)) in A. apply (i_sender _ _ _ _ I a c t M (fun H => H)) in B. congruence.
Qed.
Lemma sends_live st x y z s a : inv st x y z -> sends st s a -> exists c, st_mem st a = Some c.
Proof.
  intros I (l & E & H). assert (L : st_mem st a <> None).
  { apply (i_live _ _ _ _ I). enough (0 < srefs st a) by lia. apply occ_in, in_elems. now exists s, l. }
  destruct (st_mem st a) as [c|]; [now exists c | now destruct L].
Qed.
Lemma sends_fun st s t a : inv st zero zero [] -> sends st s a -> sends st t a -> s = t.
Proof. intros I A B. destruct (sends_live _ _ _ _ _ _ I A) as [c M]. exact (one_sender _ _ _ _ _ _ _ I M A B). Qed.

(** * Disconnecting *)

Lemma occ_remove a l b : occ (remove a l) b = if Nat.eqb a b then 0 else occ l b.
Proof.
  induction l as [|d l IH]; [now destruct (Nat.eqb a b)|]. cbn [remove filter]. fold (remove a l).
  destruct (Nat.eqb_spec a d) as [Hd|Hd]; cbn [negb]; rewrite ?occ_cons, IH; destruct (Nat.eqb_spec a b) as [Hb|Hb]; try reflexivity.
  - subst d. now apply Nat.eqb_neq in Hb as ->.
  - subst b. now apply not_eq_sym, Nat.eqb_neq in Hd as ->.
Qed.
Lemma in_remove a l b : In b (remove a l) <-> In b l /\ b <> a.
Proof.
  unfold remove. rewrite filter_In, negb_true_iff, Nat.eqb_neq. split; intros [A B]; (split; [exact A | congruence]).
Qed.
Lemma remove_out a l : ~ In a l -> remove a l = l.
Proof.
  induction l as [|d l IH]; intros H; [reflexivity|]. cbn. destruct (Nat.eqb_spec a d) as [<-|_]; [destruct H; now left|].
  cbn. f_equal. apply IH. intros K. apply H. now right.
Qed.
Definition without (a : nat) (sg : list (option (list nat))) := map (option_map (remove a)) sg.
Lemma nth_without a sg t : nth t (without a sg) None = option_map (remove a) (nth t sg None).
Proof. exact (map_nth (option_map (remove a)) sg None t). Qed.
Lemma without_none a sg : (forall s l, nth s sg None = Some l -> ~ In a l) -> without a sg = sg.
Proof.
  intros H. unfold without. induction sg as [|o sg IH]; [reflexivity|]. cbn. f_equal.
  - destruct o as [l|]; [|reflexivity]. cbn. f_equal. apply remove_out. exact (H 0 l eq_refl).
  - apply IH. intros s l E. exact (H (S s) l E).
Qed.
Lemma without_one a sg s l : nth s sg None = Some l -> (forall t r, nth t sg None = Some r -> In a r -> t = s) ->
  upd sg s (Some (remove a l)) = without a sg.
Proof.
  revert s. induction sg as [|o sg IH]; intros s E H; [destruct s; discriminate|]. destruct s as [|s]; cbn in *.
  - subst o. cbn. f_equal. symmetry. apply without_none. intros t r Er Hr. specialize (H (S t) r Er Hr). discriminate.
  - f_equal.
    + destruct o as [r|]; [|reflexivity]. cbn. f_equal. symmetry. apply remove_out. intros Hr. specialize (H 0 r eq_refl Hr). discriminate.
    + apply IH; [exact E|]. intros t r Er Hr. specialize (H (S t) r Er Hr). lia.
Qed.

Lemma slot_disconnect_inv st a : inv st zero zero [] -> 0 < vrefs st a ->
  exists m, slot_disconnect a st = Ok (with_mem (with_sigs st (without a (st_sigs st))) m) /\
    inv (with_mem (with_sigs st (without a (st_sigs st))) m) zero zero [] /\ keeps (st_mem st) m.
Proof.
  intros I V. unfold slot_disconnect.
  assert (La : st_mem st a <> None) by (apply (i_live _ _ _ _ I); lia).
  destruct (st_mem st a) as [c|] eqn:M; [|now destruct La].
  destruct (rebind_inv st zero zero [] [a] a None I) as (m & E & J & K & Mm & _).
  { congruence. }
  { intros t H. destruct H. now left. }
  { intros b _ _ []. }
  rewrite E. cbn [obind]. destruct (c_sender c) as [s|] eqn:Es.
  - pose proof (proj1 (i_sender _ _ _ _ I a c s M (fun H => H)) Es) as (l & El & Hl).
    unfold signal_disconnect. change (sig (with_mem st m) s) with (sig st s). rewrite El.
    replace (existsb (Nat.eqb a) l) with true by (symmetry; apply existsb_exists; exists a; split; [exact Hl | apply Nat.eqb_refl]).
    assert (W : upd (st_sigs st) s (Some (remove a l)) = without a (st_sigs st)).
    { apply without_one; [exact El|]. intros t r Er Hr. apply (one_sender st zero zero a c t s I M); [now exists r | now exists l]. }
    assert (O : forall b, occ (flat_map elems (without a (st_sigs st))) b + occ [a] b = srefs st b).
    { intros b. rewrite <- W. pose proof (occ_upd elems None (st_sigs st) s (Some (remove a l)) b eq_refl (nth_in _ _ _ El)) as U.
      unfold sig in El. rewrite El in U. cbn [elems] in U. rewrite occ_remove in U. unfold srefs. rewrite occ_cons. cbn [occ count_occ].
      fold (occ [] b). destruct (Nat.eqb_spec a b) as [Hb|Hb].
      - subst b. rewrite (occ_nodup l a (i_nodup _ _ _ _ I s l El) Hl) in U. cbn [occ count_occ]. lia.
      - cbn [occ count_occ]. lia. }
    assert (J1 : inv (with_sigs (with_mem st m) (without a (st_sigs st))) (fun b => occ [a] b + zero b) zero [a]).
    { apply (inv_sigs (with_mem st m) _ zero zero [a]); [exact J| | |].
      - intros b. specialize (O b). unfold srefs in *. cbn [with_mem st_sigs] in *. unfold zero. lia.
      - intros b Nb. split; [exact Nb|]. intros t. unfold sends, sig. cbn [with_sigs with_mem st_sigs].
        split; intros (r & Er & Hr).
        + rewrite nth_without in Er.
          destruct (nth t (st_sigs st) None) as [r'|] eqn:Et; [|discriminate]. injection Er as <-. apply in_remove in Hr as [Hr _]. now exists r'.
        + exists (remove a r). rewrite nth_without, Er. split; [reflexivity|].
          apply in_remove. split; [exact Hr|]. intros ->. apply Nb. now left.
      - intros t r Er. rewrite nth_without in Er.
        destruct (nth t (st_sigs st) None) as [r'|] eqn:Et; [|discriminate]. injection Er as <-.
        apply NoDup_filter, (i_nodup _ _ _ _ I t r' Et). }
    destruct (rebind_inv _ _ _ _ [] a None J1) as (m1 & E1 & J2 & K1 & _ & _).
    { cbn. apply Mm. congruence. }
    { intros t _. split; [discriminate|]. intros (r & Er & Hr). unfold sig in Er. cbn [with_sigs with_mem st_sigs] in Er.
      rewrite nth_without in Er.
      destruct (nth t (st_sigs st) None) as [r'|]; [|discriminate]. injection Er as <-. apply in_remove in Hr as [_ Hr]. now destruct Hr. }
    { intros b Hb _ [<-|[]]. now apply Hb. }
    cbn [with_sigs with_mem st_mem] in E1. cbn [with_mem st_mem]. rewrite E1. cbn [obind].
    destruct (release_inv _ zero zero [] a J2) as (m2 & E2 & J3 & K2).
    cbn [with_sigs with_mem st_mem] in E2. rewrite E2. cbn [obind]. exists m2. split.
    + f_equal. unfold set_sig, with_mem, with_sigs. cbn. now rewrite W.
    + split; [exact J3|]. exact (keeps_trans _ _ _ (keeps_trans _ _ _ K K1) K2).
  - assert (W : without a (st_sigs st) = st_sigs st).
    { apply without_none. intros s l El Hl. assert (Some s = None) as X; [|discriminate].
      symmetry. rewrite <- Es. apply (i_sender _ _ _ _ I a c s M (fun H => H)). now exists l. }
    exists m. rewrite W. split; [destruct st; reflexivity|]. split; [|exact K].
    destruct J as [A B C D Ee F G]. constructor; try assumption.
    intros b d s Mb _. destruct (Nat.eq_dec b a) as [->|Nb].
    + unfold rebind in E. rewrite M in E. injection E as <-. cbn in Mb. rewrite set_same in Mb. injection Mb as <-. cbn. rewrite <- Es.
      exact (i_sender _ _ _ _ I a c s M (fun H => H)).
    + apply F; [exact Mb|]. intros [<-|[]]. now apply Nb.
Qed.
