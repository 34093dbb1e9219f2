(** The comparison used for keys is a strict total order. *)
From Coq Require Import List NArith ZArith Arith Bool Lia.
From Verif Require Import BinModel.
Import ListNotations.

Section val_induction.
  Variable P : val -> Prop.
  Hypothesis HInt : forall z, P (VInt z).
  Hypothesis HRaw : forall s, P (VRaw s).
  Hypothesis HStr : forall s, P (VStr s).
  Hypothesis HSeq : forall l, Forall P l -> P (VSeq l).
  Hypothesis HMap : forall l, Forall (fun kv => P (fst kv) /\ P (snd kv)) l -> P (VMap l).
  Hypothesis HSet : forall l, Forall P l -> P (VSet l).
  Hypothesis HPair : forall a b, P a -> P b -> P (VPair a b).
  Hypothesis HNone : P (VOpt None).
  Hypothesis HSome : forall v, P v -> P (VOpt (Some v)).
  Hypothesis HVar : forall i v, P v -> P (VVar i v).

  Fixpoint val_induct (v : val) : P v :=
    match v with
    | VInt z => HInt z
    | VRaw s => HRaw s
    | VStr s => HStr s
    | VSeq l => HSeq l ((fix go l : Forall P l :=
        match l with [] => Forall_nil _ | x :: l' => Forall_cons x (val_induct x) (go l') end) l)
    | VMap l => HMap l ((fix go l : Forall (fun kv => P (fst kv) /\ P (snd kv)) l :=
        match l with
        | [] => Forall_nil _
        | (a, b) :: l' => Forall_cons (a, b) (conj (val_induct a) (val_induct b)) (go l')
        end) l)
    | VSet l => HSet l ((fix go l : Forall P l :=
        match l with [] => Forall_nil _ | x :: l' => Forall_cons x (val_induct x) (go l') end) l)
    | VPair a b => HPair a b (val_induct a) (val_induct b)
    | VOpt None => HNone
    | VOpt (Some v) => HSome v (val_induct v)
    | VVar i v => HVar i v (val_induct v)
    end.
End val_induction.

Definition pcmp (a b : val * val) : comparison :=
  match vcmp (fst a) (fst b) with Eq => vcmp (snd a) (snd b) | r => r end.

Lemma vcmp_seq x y : vcmp (VSeq x) (VSeq y) = lex vcmp x y.
Proof. cbn. revert y; induction x as [|p x IH]; destruct y as [|q y]; cbn; try reflexivity. rewrite IH. reflexivity. Qed.
Lemma vcmp_set x y : vcmp (VSet x) (VSet y) = lex vcmp x y.
Proof. cbn. revert y; induction x as [|p x IH]; destruct y as [|q y]; cbn; try reflexivity. rewrite IH. reflexivity. Qed.
Lemma vcmp_map x y : vcmp (VMap x) (VMap y) = lex pcmp x y.
Proof.
  cbn. revert y; induction x as [|[p1 p2] x IH]; destruct y as [|[q1 q2] y]; cbn; try reflexivity.
  rewrite IH. unfold pcmp. cbn. destruct (vcmp p1 q1); reflexivity.
Qed.

Lemma lex_eq {A} (c : A -> A -> comparison) a :
  Forall (fun x => forall y, c x y = Eq -> x = y) a -> forall b, lex c a b = Eq -> a = b.
Proof.
  induction 1 as [|x a Hx Ha IH]; intros [|y b]; cbn; try discriminate; try reflexivity.
  destruct (c x y) eqn:E; try discriminate. intros H. f_equal; auto.
Qed.

Lemma lex_anti {A} (c : A -> A -> comparison) a :
  Forall (fun x => forall y, c y x = CompOpp (c x y)) a -> forall b, lex c b a = CompOpp (lex c a b).
Proof.
  induction 1 as [|x a Hx Ha IH]; intros [|y b]; cbn; try reflexivity.
  rewrite Hx. destruct (c x y); cbn; auto.
Qed.

Lemma lex_trans {A} (c : A -> A -> comparison) a :
  (forall x y, c x y = Eq -> x = y) ->
  Forall (fun x => forall y z, c x y = Lt -> c y z = Lt -> c x z = Lt) a ->
  forall b d, lex c a b = Lt -> lex c b d = Lt -> lex c a d = Lt.
Proof.
  intros Heq. induction 1 as [|x a Hx Ha IH]; intros [|y b] [|z d]; cbn; try discriminate; try reflexivity.
  destruct (c x y) eqn:E1; try discriminate; destruct (c y z) eqn:E2; try discriminate; intros H1 H2.
  - pose proof (Heq _ _ E1) as <-. rewrite E2. eapply IH; eauto.
  - apply Heq in E1. subst. rewrite E2. reflexivity.
  - apply Heq in E2. subst. rewrite E1. reflexivity.
  - rewrite (Hx _ _ E1 E2). reflexivity.
Qed.

Lemma forall_all {A} (P : A -> Prop) l : (forall x, P x) -> Forall P l.
Proof. intros H. apply Forall_forall. auto. Qed.

Lemma lexN_eq a b : lex N.compare a b = Eq -> a = b.
Proof. apply lex_eq. apply forall_all. intros x y. apply N.compare_eq. Qed.

Ltac other_kinds := try (cbn; intros; discriminate).

Lemma vcmp_eq a : forall b, vcmp a b = Eq -> a = b.
Proof.
  induction a as [z|s|s|l IH|l IH|l IH|a1 a2 IH1 IH2| |v IH|i v IH] using val_induct;
    intros b; destruct b as [z'|s'|s'|l'|l'|l'|b1 b2|[v'|]|j v']; other_kinds; try reflexivity.
  - cbn. intros H. apply Z.compare_eq in H. congruence.
  - cbn. intros H. apply lexN_eq in H. congruence.
  - cbn. intros H. apply lexN_eq in H. congruence.
  - rewrite vcmp_seq. intros H. apply (lex_eq _ _ IH) in H. congruence.
  - rewrite vcmp_map. intros H. f_equal. revert H. apply lex_eq. eapply Forall_impl; [|exact IH].
    intros [x1 x2] [H1 H2] [y1 y2]. unfold pcmp. cbn in *.
    destruct (vcmp x1 y1) eqn:E; try discriminate. intros H. f_equal; auto.
  - rewrite vcmp_set. intros H. apply (lex_eq _ _ IH) in H. congruence.
  - cbn. destruct (vcmp a1 b1) eqn:E; try discriminate. intros H. f_equal; auto.
  - cbn. intros H. do 2 f_equal. auto.
  - cbn. destruct (Nat.compare i j) eqn:E; try discriminate. intros H.
    apply Nat.compare_eq in E. f_equal; auto.
Qed.

Lemma vcmp_anti a : forall b, vcmp b a = CompOpp (vcmp a b).
Proof.
  induction a as [z|s|s|l IH|l IH|l IH|a1 a2 IH1 IH2| |v IH|i v IH] using val_induct;
    intros b; destruct b as [z'|s'|s'|l'|l'|l'|b1 b2|[v'|]|j v']; try reflexivity.
  - cbn. apply Z.compare_antisym.
  - cbn. apply lex_anti. apply forall_all. intros x y. apply N.compare_antisym.
  - cbn. apply lex_anti. apply forall_all. intros x y. apply N.compare_antisym.
  - rewrite !vcmp_seq. now apply lex_anti.
  - rewrite !vcmp_map. apply lex_anti. eapply Forall_impl; [|exact IH].
    intros [x1 x2] [H1 H2] [y1 y2]. unfold pcmp. cbn in *. rewrite H1.
    destruct (vcmp x1 y1); cbn; auto.
  - rewrite !vcmp_set. now apply lex_anti.
  - cbn. rewrite IH1. destruct (vcmp a1 b1); cbn; auto.
  - cbn. auto.
  - cbn. rewrite (Nat.compare_antisym i j). destruct (Nat.compare i j); cbn; auto.
Qed.

Lemma pcmp_eq a b : pcmp a b = Eq -> a = b.
Proof.
  destruct a as [a1 a2], b as [b1 b2]. unfold pcmp. cbn.
  destruct (vcmp a1 b1) eqn:E; try discriminate. intros H. f_equal; now apply vcmp_eq.
Qed.

Lemma vcmp_refl a : vcmp a a = Eq.
Proof.
  pose proof (vcmp_anti a a) as H. destruct (vcmp a a); cbn in H; congruence.
Qed.

Lemma lexN_trans a b c : lex N.compare a b = Lt -> lex N.compare b c = Lt -> lex N.compare a c = Lt.
Proof.
  apply lex_trans; [intros; now apply N.compare_eq|]. apply forall_all.
  intros x y z. rewrite !N.compare_lt_iff. lia.
Qed.

Lemma vcmp_kind a b : kind a <> kind b -> vcmp a b = Nat.compare (kind a) (kind b).
Proof.
  destruct a as [z|s|s|l|l|l|a1 a2|[v|]|i v], b as [z'|s'|s'|l'|l'|l'|b1 b2|[v'|]|j v'];
    intros H; try reflexivity; cbn in H; congruence.
Qed.

Lemma vcmp_trans a : forall b c, vcmp a b = Lt -> vcmp b c = Lt -> vcmp a c = Lt.
Proof.
  induction a as [z|s|s|l IH|l IH|l IH|a1 a2 IH1 IH2| |v IH|i v IH] using val_induct; intros b c;
    match goal with |- vcmp ?a b = Lt -> _ =>
      destruct (Nat.eq_dec (kind a) (kind b)) as [Eab|Nab];
        [|rewrite (vcmp_kind a b Nab)];
      (destruct (Nat.eq_dec (kind b) (kind c)) as [Ebc|Nbc]; [|rewrite (vcmp_kind b c Nbc)]);
      rewrite ?Nat.compare_lt_iff
    end;
    try (intros H1 H2; rewrite vcmp_kind by (cbn in *; lia); apply Nat.compare_lt_iff; cbn in *; lia).
  all: try (destruct b as [z'|s'|s'|l'|l'|l'|b1 b2|[v'|]|j v']; try discriminate Eab;
            destruct c as [z''|s''|s''|l''|l''|l''|c1 c2|[v''|]|k v'']; try discriminate Ebc).
  - cbn. rewrite !Z.compare_lt_iff. lia.
  - cbn. apply lexN_trans.
  - cbn. apply lexN_trans.
  - rewrite !vcmp_seq. apply lex_trans; [intros; now apply vcmp_eq|assumption].
  - rewrite !vcmp_map. apply lex_trans; [intros; now apply pcmp_eq|].
    eapply Forall_impl; [|exact IH].
    intros [x1 x2] [H1 H2] [y1 y2] [z1 z2]. unfold pcmp. cbn in *.
    destruct (vcmp x1 y1) eqn:E1; try discriminate; destruct (vcmp y1 z1) eqn:E2; try discriminate; intros G1 G2.
    + apply vcmp_eq in E1, E2. subst. rewrite vcmp_refl. eauto.
    + apply vcmp_eq in E1. subst. now rewrite E2.
    + apply vcmp_eq in E2. subst. now rewrite E1.
    + now rewrite (H1 _ _ E1 E2).
  - rewrite !vcmp_set. apply lex_trans; [intros; now apply vcmp_eq|assumption].
  - cbn. destruct (vcmp a1 b1) eqn:E1; try discriminate; destruct (vcmp b1 c1) eqn:E2; try discriminate; intros G1 G2.
    + apply vcmp_eq in E1, E2. subst. rewrite vcmp_refl. eauto.
    + apply vcmp_eq in E1. subst. now rewrite E2.
    + apply vcmp_eq in E2. subst. now rewrite E1.
    + now rewrite (IH1 _ _ E1 E2).
  - cbn. auto.
  - cbn. discriminate.
  - cbn. auto.
  - cbn. auto.
  - cbn. eauto.
  - cbn. discriminate.
  - cbn. discriminate.
  - cbn. discriminate.
  - cbn. destruct (Nat.compare_spec i j) as [E1|E1|E1]; try discriminate;
      destruct (Nat.compare_spec j k) as [E2|E2|E2]; try discriminate; intros G1 G2;
      destruct (Nat.compare_spec i k) as [E3|E3|E3]; try lia; eauto.
Qed.
