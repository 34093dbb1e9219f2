(** A function of the program for exactly these operands. *)
From Coq Require Import List Arith Bool Lia.
From Verif Require Import Base NsModel NsSpec NsProofs NsCallProofs.
Import ListNotations.

Lemma prefers_one_way : forall c d, prefers c d = true -> prefers d c = false.
Proof. intros [f|] [g|]; cbn; try reflexivity; try discriminate. destruct (is_template f), (is_template g); cbn; congruence. Qed.

Lemma better_one_way : forall c d, better c d = true -> better d c = false.
Proof.
  intros c d H. unfold better in *. apply andb_true_iff in H as [H1 H2]. rewrite H1. destruct (not_worse (snd d) (snd c)); [|reflexivity].
  cbn in *. now apply prefers_one_way.
Qed.

Lemma best_of_best : forall c l2 l1 before, (forall d, In d before -> better c d = true) -> (forall d, In d (l1 ++ l2) -> better c d = true) ->
  best_of before (l1 ++ c :: l2) = Some (fst c).
Proof.
  intros c l2. induction l1 as [|d l1 IH]; intros before Hb Hl; cbn [app best_of].
  - replace (forallb (better c) before) with true by (symmetry; apply forallb_forall; exact Hb).
    replace (forallb (better c) l2) with true by (symmetry; apply forallb_forall; exact Hl). reflexivity.
  - replace (forallb (better d) (l1 ++ c :: l2)) with false.
    + rewrite andb_false_r. apply IH; [|intros e He; apply Hl; now right].
      intros e He. apply in_app_iff in He as [He|[<-|[]]]; [now apply Hb|]. apply Hl. now left.
    + symmetry. apply not_true_iff_false. intros H. rewrite forallb_forall in H.
      specialize (H c ltac:(apply in_app_iff; right; now left)). rewrite (better_one_way c d) in H; [discriminate|]. apply Hl. now left.
Qed.

Lemma op_eqb_refl : forall o, op_eqb o o = true.
Proof. destruct o; reflexivity. Qed.
Lemma rank_operand : forall o e x a, number x -> In a (operands o e x) -> rank a a = Some 0.
Proof.
  intros o e x a Hx Ha. assert (ty_eqb a a = true) as E.
  { destruct o; cbn in Ha; repeat (destruct Ha as [<-|Ha]); try destruct Ha; cbn; rewrite ?Nat.eqb_refl; try reflexivity;
      destruct x; try destruct Hx; cbn; rewrite ?Nat.eqb_refl; reflexivity. }
  unfold rank. now rewrite E.
Qed.
Lemma ranks_exact : forall l, (forall a, In a l -> rank a a = Some 0) -> ranks l l = Some (repeat 0 (length l)).
Proof.
  induction l as [|a l IH]; intros H; [reflexivity|]. cbn. rewrite (H a (or_introl eq_refl)), IH; [reflexivity|]. intros b Hb. apply H. now right.
Qed.
Lemma not_worse_exact : forall n r, not_worse (repeat 0 n) r = true.
Proof. unfold not_worse. induction n as [|n IH]; intros [|a r]; cbn; try reflexivity. apply IH. Qed.

Theorem own_called : forall P p o e x n, number x -> reached P p (token o) e (Other n) -> other P n = operands o e x ->
  (forall m, m <> n -> ranks (operands o e x) (other P m) = None) -> resolve P p o (operands o e x) = Chosen (Other n).
Proof.
  intros P p o e x n Hx Hr Ho Hn. rewrite resolve_enum. set (args := operands o e x) in *. set (fs := found P p (token o) args).
  assert (Hi : In (Other n) fs) by (apply found_enum; assumption).
  assert (Hd : NoDup fs) by apply dedup_nodup.
  apply in_split in Hi as (f1 & f2 & Ef).
  set (own := (User (Other n), repeat 0 (length args))).
  assert (Hv : viable P (Other n) args = Some (repeat 0 (length args))).
  { cbn [viable]. rewrite Ho. apply ranks_exact. intros a Ha. exact (rank_operand o e x a Hx Ha). }
  set (g := fun f => match viable P f args with Some r => [(User f, r)] | None => [] end).
  set (b := if assigns o then [] else match builtin_ranks args with Some r => [(Builtin, r)] | None => [] end).
  assert (Ec : candidates P o fs args = flat_map g f1 ++ own :: flat_map g f2 ++ b).
  { unfold candidates. fold g. fold b. rewrite Ef, flat_map_app. cbn [flat_map]. unfold g at 2. rewrite Hv. cbn [app]. now rewrite <- app_assoc. }
  assert (B : forall d, In d (flat_map g f1 ++ flat_map g f2 ++ b) -> better own d = true).
  { assert (F : forall d l, In d (flat_map g l) -> ~ In (Other n) l -> better own d = true).
    { intros d l Hl N. apply in_flat_map in Hl as (f & Hf & Hg). unfold g in Hg. destruct (viable P f args) as [r|] eqn:E; [|destruct Hg].
      destruct Hg as [<-|[]]. unfold better, own. cbn [fst snd]. rewrite not_worse_exact. cbn [andb prefers is_template negb].
      destruct f as [q|q| | |m]; try (rewrite orb_true_r; reflexivity).
      exfalso. cbn in E. rewrite Hn in E; [discriminate|]. intros ->. now apply N. }
    intros d Hin. rewrite Ef in Hd. apply NoDup_remove in Hd as [_ Hd]. rewrite in_app_iff in Hd.
    apply in_app_iff in Hin as [H|H]; [apply (F d f1 H); tauto|]. apply in_app_iff in H as [H|H]; [apply (F d f2 H); tauto|].
    unfold b in H. destruct (assigns o); [destruct H|]. destruct (builtin_ranks args) as [r|] eqn:E; [|destruct H]. destruct H as [<-|[]].
    unfold better, own. cbn [fst snd]. rewrite not_worse_exact. cbn [andb]. apply orb_true_iff. left.
    assert (exists r', r = 1 :: r') as [r' ->].
    { unfold args in E. destruct o; cbn in E; destruct (e_scoped e); try discriminate; destruct x; try destruct Hx; cbn in E; injection E as <-; eauto. }
    destruct (length args) eqn:L; [destruct o; discriminate|]. reflexivity. }
  rewrite Ec. pose proof (best_of_best own (flat_map g f2 ++ b) (flat_map g f1) [] ltac:(intros d []) B) as X.
  destruct (flat_map g f1 ++ own :: flat_map g f2 ++ b) eqn:E; [destruct (flat_map g f1); discriminate|]. now rewrite X.
Qed.
