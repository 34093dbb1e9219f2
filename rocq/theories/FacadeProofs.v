(** The operators of iterators refine the positions. *)
From Coq Require Import List ZArith Bool Lia.
From Verif Require Import Base FacadeModel FacadeSpec.
Import ListNotations.
Local Open Scope Z_scope.

Section Proofs.
Context {St V : Type} (D : derived St V) (cells : nat -> V) (pos : St -> Z) (first last : Z) (element : Z -> V).

Lemma compiles_iff : forall i, compiles D i = true <-> offered D i /\ ((exists x, i = Arrow x) -> points D).
Proof.
  assert (B : convertible (cat D) Bidirectional = true <-> cat D = Bidirectional \/ cat D = RandomAccess).
  { destruct (cat D); cbn; split; intros H; auto; try discriminate; destruct H; discriminate. }
  assert (R : convertible (cat D) RandomAccess = true <-> cat D = RandomAccess).
  { destruct (cat D); cbn; split; intros H; auto; discriminate. }
  assert (A : arrow_compiles D = true <-> points D).
  { unfold arrow_compiles, points, pointer, value_type, arrow_proxy_compiles, is_lvalue_reference, itself.
    destruct (reference D) as [c|c|[]]; split; intros H; auto; try discriminate; contradiction. }
  intros i.
  assert (N : (forall x, i <> Arrow x) -> (compiles D i = true <-> offered D i) -> (compiles D i = true <-> offered D i /\ ((exists x, i = Arrow x) -> points D))).
  { intros H E. rewrite E. split; [intros O; split; [exact O|]; intros [x X]; exfalso; exact (H x X) | intros [O _]; exact O]. }
  destruct i; try (apply N; [intros z Z; discriminate Z|]); cbn [compiles offered];
    try (split; [intros _; exact I | intros _; reflexivity]); try exact B; try exact R.
  - destruct c; try (split; [intros _; exact I | intros _; reflexivity]); exact R.
  - rewrite A. split; [intros P; split; [exact I | intros _; exact P] | intros [_ P]; apply P; eauto].
  - unfold subscript_compiles, add_assign_compiles. rewrite andb_diag. exact R.
Qed.

Definition agree (e : vars (St := St)) (a : positions) : Prop := forall x, pos (e x) = a x /\ inside first last (pos (e x)).

Lemma agree_set : forall e a x s, agree e a -> inside first last (pos s) -> agree (set_var e x s) (move a x (pos s)).
Proof. intros e a x s A I y. unfold set_var, move. destruct (Nat.eqb y x); [auto | apply A]. Qed.

Lemma to_inside : forall a y p (r : positions * list (out V)), to first last a y p = Some r -> inside first last p /\ r = (move a y p, []).
Proof.
  intros a y p r E. unfold to in E. destruct ((first <=? p) && (p <=? last)) eqn:B; [|discriminate E]. injection E as <-.
  apply andb_prop in B. destruct B as [B1 B2]. apply Z.leb_le in B1, B2. split; [split; assumption | reflexivity].
Qed.
Lemma show_inside : forall a p (r : positions * list (out V)), show first last element a p = Some r -> inside first last p /\ p <> last /\ r = (a, [OVal (element p)]).
Proof.
  intros a p r E. unfold show in E. destruct ((first <=? p) && (p <? last)) eqn:B; [|discriminate E]. injection E as <-.
  apply andb_prop in B. destruct B as [B1 B2]. apply Z.leb_le in B1. apply Z.ltb_lt in B2. unfold inside. split; [lia|]. split; [lia | reflexivity].
Qed.

Lemma found_loads : conforms D cells pos first last element -> forall e h s, inside first last (pos s) -> pos s <> last ->
  (exists x, h = Named x /\ s = e x) \/ ~ stashing D ->
  exists p, star D cells h s = Ok p /\ load D cells e p = Ok (element (pos s)).
Proof.
  intros C e h s I N H. unfold star. destruct (c_find _ _ _ _ _ _ C s I N) as [(l & E & L)|[[E L]|(c & R & E)]]; rewrite E; cbn [obind];
    eexists; (split; [reflexivity|]); unfold referred.
  - destruct (reference D); cbn [load]; rewrite L; reflexivity.
  - destruct (reference D) as [c|c|c] eqn:R; cbn [load]; try (rewrite L; reflexivity).
    + destruct H as [(x & -> & X)|H]; [rewrite <- X, L; reflexivity|]. exfalso. apply H. split; [rewrite R; discriminate | eauto].
    + destruct H as [(x & -> & X)|H]; [rewrite <- X, L; reflexivity|]. exfalso. apply H. split; [rewrite R; discriminate | eauto].
  - rewrite R. reflexivity.
Qed.

Definition random (i : stmt) : Prop := exists x n, i = Subscript x n.

Lemma step_refines : conforms D cells pos first last element -> forall i e a a' o,
  offered D i -> (random i -> ~ stashing D) -> agree e a -> meaning first last element i a = Some (a', o) ->
  exists e', step D cells i e = Ok (e', o) /\ agree e' a'.
Proof.
  intros C i e a a' o O S A M.
  assert (P : forall x, pos (e x) = a x) by (intros x; apply A).
  assert (In : forall x, inside first last (pos (e x))) by (intros x; apply A).
  assert (Mn : forall x n, inside first last (pos (e x) - n) -> n <> min_difference).
  { intros x n H -> . pose proof (c_range _ _ _ _ _ _ C). specialize (In x). unfold inside, min_difference in *. lia. }
  destruct i; cbn [meaning] in M; cbn [step].
  - apply to_inside in M. destruct M as [_ E]. injection E as -> ->. eexists. split; [reflexivity|]. rewrite <- P. apply agree_set; auto.
  - apply to_inside in M. destruct M as [I E]. injection E as -> ->. rewrite <- P in I.
    destruct (c_inc _ _ _ _ _ _ C _ (In x) I) as (s' & Es & Ps). unfold pre_increment. rewrite Es. cbn [obind]. eexists. split; [reflexivity|].
    rewrite <- P, <- Ps. apply agree_set; [exact A | rewrite Ps; exact I].
  - apply to_inside in M. destruct M as [I E]. injection E as -> ->. rewrite <- P in I.
    destruct (c_dec _ _ _ _ _ _ C O _ (In x) I) as (s' & Es & Ps). unfold pre_decrement. rewrite Es. cbn [obind]. eexists. split; [reflexivity|].
    rewrite <- P, <- Ps. apply agree_set; [exact A | rewrite Ps; exact I].
  - destruct (to first last a x (a x + 1)) as [[a1 o1]|] eqn:T; [|discriminate M]. injection M as <- <-.
    apply to_inside in T. destruct T as [I E]. injection E as -> ->. rewrite <- P in I.
    destruct (c_inc _ _ _ _ _ _ C _ (In x) I) as (s' & Es & Ps). unfold post_increment. rewrite Es. cbn [obind fst snd]. eexists. split; [reflexivity|].
    rewrite <- !P, <- Ps. apply agree_set; [|apply In]. apply agree_set; [exact A | rewrite Ps; exact I].
  - destruct (to first last a x (a x - 1)) as [[a1 o1]|] eqn:T; [|discriminate M]. injection M as <- <-.
    apply to_inside in T. destruct T as [I E]. injection E as -> ->. rewrite <- P in I.
    destruct (c_dec _ _ _ _ _ _ C O _ (In x) I) as (s' & Es & Ps). unfold post_decrement. rewrite Es. cbn [obind fst snd]. eexists. split; [reflexivity|].
    rewrite <- !P, <- Ps. apply agree_set; [|apply In]. apply agree_set; [exact A | rewrite Ps; exact I].
  - apply to_inside in M. destruct M as [I E]. injection E as -> ->. rewrite <- P in I.
    destruct (c_adv _ _ _ _ _ _ C O _ _ (In x) I) as (s' & Es & Ps). unfold add_assign. rewrite Es. cbn [obind]. eexists. split; [reflexivity|].
    rewrite <- P, <- Ps. apply agree_set; [exact A | rewrite Ps; exact I].
  - apply to_inside in M. destruct M as [I E]. injection E as -> ->. rewrite <- P in I. pose proof (Mn _ _ I) as Nn.
    replace (pos (e x) - n) with (pos (e x) + - n) in I by lia.
    destruct (c_adv _ _ _ _ _ _ C O _ _ (In x) I) as (s' & Es & Ps). unfold sub_assign. rewrite (proj2 (Z.eqb_neq _ _) Nn), Es. cbn [obind]. eexists. split; [reflexivity|].
    replace (a x - n) with (pos s') by (rewrite Ps, P; lia). apply agree_set; [exact A | rewrite Ps; exact I].
  - apply to_inside in M. destruct M as [I E]. injection E as -> ->. rewrite <- P in I.
    destruct (c_adv _ _ _ _ _ _ C O _ _ (In x) I) as (s' & Es & Ps). unfold plus, add_assign. rewrite Es. cbn [obind]. eexists. split; [reflexivity|].
    rewrite <- P, <- Ps. apply agree_set; [exact A | rewrite Ps; exact I].
  - apply to_inside in M. destruct M as [I E]. injection E as -> ->. rewrite <- P in I.
    destruct (c_adv _ _ _ _ _ _ C O _ _ (In x) I) as (s' & Es & Ps). unfold plus_left, plus, add_assign. rewrite Es. cbn [obind]. eexists. split; [reflexivity|].
    rewrite <- P, <- Ps. apply agree_set; [exact A | rewrite Ps; exact I].
  - apply to_inside in M. destruct M as [I E]. injection E as -> ->. rewrite <- P in I. pose proof (Mn _ _ I) as Nn.
    replace (pos (e x) - n) with (pos (e x) + - n) in I by lia.
    destruct (c_adv _ _ _ _ _ _ C O _ _ (In x) I) as (s' & Es & Ps). unfold minus, sub_assign. rewrite (proj2 (Z.eqb_neq _ _) Nn), Es. cbn [obind]. eexists. split; [reflexivity|].
    replace (a x - n) with (pos s') by (rewrite Ps, P; lia). apply agree_set; [exact A | rewrite Ps; exact I].
  - injection M as <- <-. unfold difference. rewrite (c_dist _ _ _ _ _ _ C O _ _ (In x) (In y)), !P. cbn [obind]. eauto.
  - injection M as <- <-.
    assert (K : compare D c (e x) (e y) = Ok (holds c (a x) (a y))).
    { unfold compare. rewrite <- !P. destruct c; cbn [offered] in O.
      - apply (c_eq _ _ _ _ _ _ C); apply In.
      - unfold ne_op, eq_op. rewrite (c_eq _ _ _ _ _ _ C) by apply In. reflexivity.
      - unfold lt_op, difference. rewrite (c_dist _ _ _ _ _ _ C O) by apply In. cbn [obind holds]. f_equal. destruct (Z.ltb_spec 0 (pos (e y) - pos (e x))), (Z.ltb_spec (pos (e x)) (pos (e y))); try reflexivity; lia.
      - unfold gt_op, difference. rewrite (c_dist _ _ _ _ _ _ C O) by apply In. cbn [obind holds]. f_equal. destruct (Z.ltb_spec 0 (pos (e x) - pos (e y))), (Z.ltb_spec (pos (e y)) (pos (e x))); try reflexivity; lia.
      - unfold le_op, gt_op, difference. rewrite (c_dist _ _ _ _ _ _ C O) by apply In. cbn [obind holds]. f_equal. destruct (Z.ltb_spec 0 (pos (e x) - pos (e y))), (Z.leb_spec (pos (e x)) (pos (e y))); try reflexivity; lia.
      - unfold ge_op, lt_op, difference. rewrite (c_dist _ _ _ _ _ _ C O) by apply In. cbn [obind holds]. f_equal. destruct (Z.ltb_spec 0 (pos (e y) - pos (e x))), (Z.leb_spec (pos (e y)) (pos (e x))); try reflexivity; lia. }
    rewrite K. cbn [obind]. eauto.
  - apply show_inside in M. destruct M as (I & N & E). injection E as -> ->. rewrite <- P in I, N.
    destruct (found_loads C e (Named x) (e x) I N (or_introl (ex_intro _ x (conj eq_refl eq_refl)))) as (p & Ep & Ev).
    rewrite Ep. cbn [obind]. rewrite Ev. cbn [obind]. rewrite P. eauto.
  - apply show_inside in M. destruct M as (I & N & E). injection E as -> ->. rewrite <- P in I, N.
    destruct (found_loads C e (Named x) (e x) I N (or_introl (ex_intro _ x (conj eq_refl eq_refl)))) as (p & Ep & Ev).
    unfold arrow. rewrite Ep. cbn [obind]. rewrite Ev. cbn [obind]. rewrite P. eauto.
  - apply show_inside in M. destruct M as (I & N & E). injection E as -> ->. rewrite <- P in I, N.
    destruct (c_adv _ _ _ _ _ _ C O _ _ (In x) I) as (s' & Es & Ps). rewrite <- Ps in I, N.
    destruct (found_loads C e Local s' I N (or_intror (S (ex_intro _ x (ex_intro _ n eq_refl))))) as (p & Ep & Ev).
    unfold subscript, plus, add_assign. rewrite Es. cbn [obind]. rewrite Ep. cbn [obind]. rewrite Ev, Ps, P. cbn [obind]. eauto.
Qed.

Lemma run_refines : conforms D cells pos first last element -> forall l e a a' o,
  Forall (offered D) l -> (Exists random l -> ~ stashing D) -> agree e a -> means first last element l a = Some (a', o) ->
  exists e', run D cells l e = Ok (e', o) /\ agree e' a'.
Proof.
  intros C. induction l as [|i l IH]; intros e a a' o O S A M; cbn [means run] in *.
  - injection M as <- <-. eauto.
  - destruct (meaning first last element i a) as [[a1 o1]|] eqn:E1; [|discriminate M].
    destruct (means first last element l a1) as [[a2 o2]|] eqn:E2; [|discriminate M]. injection M as <- <-.
    inversion O as [|? ? O1 O2]; subst.
    destruct (step_refines C i e a a1 o1 O1 (fun R => S (Exists_cons_hd _ _ _ R)) A E1) as (e1 & R1 & A1).
    destruct (IH e1 a1 a2 o2 O2 (fun R => S (Exists_cons_tl _ R)) A1 E2) as (e2 & R2 & A2).
    rewrite R1. cbn [obind fst snd]. rewrite R2. cbn [obind fst snd]. eauto.
Qed.

Lemma compiles_all : forall l, Forall (offered D) l -> (Exists (fun i => exists x, i = Arrow x) l -> points D) -> forallb (compiles D) l = true.
Proof.
  intros l O P. apply forallb_forall. intros i I. apply compiles_iff. split; [exact (proj1 (Forall_forall _ _) O i I)|].
  intros X. apply P. apply Exists_exists. eauto.
Qed.

Lemma program_refines : conforms D cells pos first last element -> forall l e a a' o,
  Forall (offered D) l -> (Exists (fun i => exists x, i = Arrow x) l -> points D) ->
  (Exists (fun i => exists x n, i = Subscript x n) l -> ~ stashing D) ->
  (forall x, pos (e x) = a x /\ first <= a x <= last) -> means first last element l a = Some (a', o) ->
  exists e', program D cells l e = Some (Ok (e', o)) /\ forall x, pos (e' x) = a' x /\ first <= a' x <= last.
Proof.
  intros C l e a a' o O P S A M. unfold program. rewrite (compiles_all l O P).
  assert (A' : agree e a). { intros x. destruct (A x) as [E I]. split; [exact E | rewrite E; exact I]. }
  destruct (run_refines C l e a a' o O S A' M) as (e' & R & A1). rewrite R. exists e'. split; [reflexivity|].
  intros x. destruct (A1 x) as [E I]. split; [exact E|]. rewrite <- E. exact I.
Qed.

Lemma program_compiles : forall l e, program D cells l e <> None <-> Forall (offered D) l /\ (Exists (fun i => exists x, i = Arrow x) l -> points D).
Proof.
  intros l e. unfold program. split.
  - destruct (forallb (compiles D) l) eqn:F; [|intros H; contradiction H; reflexivity]. intros _.
    rewrite forallb_forall in F. split.
    + apply Forall_forall. intros i I. apply compiles_iff, F, I.
    + intros X. apply Exists_exists in X. destruct X as (i & I & X). specialize (F i I). apply compiles_iff in F. apply F, X.
  - intros [O P]. rewrite (compiles_all l O P). discriminate.
Qed.

(** * Iterators that refer to themselves *)

Lemma subscript_stash : (forall c, reference D <> Val c) -> forall e s s' n, advance D s n = Ok s' -> dereference D s' = Ok InSelf ->
  obind (subscript D cells s n) (load D cells e) = UB.
Proof.
  intros R e s s' n A F. unfold subscript, plus, add_assign. rewrite A. cbn [obind]. unfold star. rewrite F. cbn [obind]. unfold referred.
  destruct (reference D) as [c|c|c] eqn:E; try reflexivity. exfalso. exact (R c eq_refl).
Qed.

(** * The other sign of [distance_to] *)

Lemma distance_reversed : (forall s s', distance_to D s s' = Ok (pos s' - pos s)) -> forall s s',
  lt_op D s s' = Ok (pos s' <? pos s) /\ difference D s s' = Ok (pos s' - pos s).
Proof.
  intros H s s'. unfold lt_op, difference. rewrite !H. cbn [obind]. split; [f_equal|reflexivity].
  destruct (Z.ltb_spec 0 (pos s - pos s')), (Z.ltb_spec (pos s') (pos s)); try reflexivity; lia.
Qed.

Lemma going_back_by : forall s n, (sub_assign D s n = minus D s n) /\
  (n <> - 2 ^ 63 -> sub_assign D s n = advance D s (- n)) /\ ((forall s m, advance D s m <> UB) -> (sub_assign D s n = UB <-> n = - 2 ^ 63)).
Proof.
  intros s n. split; [reflexivity|]. unfold sub_assign, min_difference.
  destruct (Z.eqb_spec n (- 2 ^ 63)) as [E|E]; split; try contradiction; try reflexivity; intros H.
  - split; auto.
  - split; [intros U; exfalso; exact (H s (- n) U) | contradiction].
Qed.
End Proofs.

(** * Types *)

Lemma value_type_const : forall r, value_type r = Object true <-> r = LRef true \/ r = Val true.
Proof. intros [[]|[]|[]]; cbn; split; intros H; auto; try discriminate; destruct H; discriminate. Qed.
