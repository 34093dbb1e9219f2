(** Proofs about arguments that no slot can change. *)
From Coq Require Import List Arith Bool Lia.
From Verif Require Import PassModel PassSpec PassProofs PassDeliverProofs.
Import ListNotations.

Section Values.
Context {V : Type}.
Local Notation cell := (cell V).
Local Notation slot := (slot V).
Local Notation signal := (signal V).
Local Notation env := (env V).
Local Notation arg := (arg V).

Definition quiet (a : arg) : Prop := match a with Const _ _ | View _ _ => True | _ => False end.

Lemma settle_quiet : forall ps args (v : env), Forall quiet args -> length ps = length args ->
  exists args', settle_all V ps args v = (v, args') /\ Forall quiet args' /\ map (look V v) args' = map (look V v) args /\ length args' = length args.
Proof.
  induction ps as [|p ps IH]; intros [|a args] v Q E; try discriminate; cbn [settle_all].
  - exists []. repeat split; constructor.
  - inversion Q as [|? ? Q1 Q2]; subst.
    assert (K : exists a', settle V p a v = (v, a') /\ quiet a' /\ look V v a' = look V v a).
    { unfold settle. destruct a as [c|x|x|x]; cbn in Q1; try contradiction; destruct (p_pass p); eexists; cbn; auto. }
    destruct K as (a' & -> & K1 & K2). destruct (IH args v Q2 ltac:(now injection E)) as (args' & -> & I1 & I2 & I3).
    exists (a' :: args'). cbn [map length]. rewrite K2, I2, I3. repeat split. constructor; assumption.
Qed.
Lemma changed_quiet : forall ps args cs (v : env), Forall quiet args -> changed V ps args cs v = v.
Proof.
  induction ps as [|p ps IH]; intros [|a args] [|c cs] v Q; cbn [changed]; try reflexivity.
  inversion Q as [|? ? Q1 Q2]; subst. rewrite IH by assumption. destruct a; cbn in Q1; try contradiction; destruct (p_pass p); reflexivity.
Qed.
Lemma accepts_length : forall ps cs, Forall2 accepts ps cs -> length ps = length cs.
Proof. intros ps cs H. induction H; cbn; auto. Qed.

Lemma deliver_quiet : forall sg, (forall cs args (v : env), well_formed V sg cs -> length cs = length args -> Forall quiet args ->
  deliver V sg args v = (v, map (fun id => (id, map (look V v) args)) (functions V sg))).
Proof.
  apply (signal_rect_
    (fun sg => forall cs args (v : env), well_formed V sg cs -> length cs = length args -> Forall quiet args ->
       deliver V sg args v = (v, map (fun id => (id, map (look V v) args)) (functions V sg)))
    (fun s => forall cs args (v : env), fits V cs s -> length cs = length args -> Forall quiet args ->
       deliver_slot V s args v = (v, map (fun id => (id, map (look V v) args))
         (match s with Function _ id _ _ | Member _ id _ _ => [id] | Chain _ sg' => functions V sg' end)))).
  - intros id qs f cs args v H E Q. inversion H; subst. cbn [deliver_slot]. unfold deliver_to.
    match goal with A : Forall2 accepts _ _ |- _ => apply accepts_length in A; rename A into N end.
    destruct (settle_quiet qs args v Q ltac:(congruence)) as (args' & -> & I1 & I2 & I3).
    rewrite changed_quiet, I2 by assumption. reflexivity.
  - intros id qs f cs args v H E Q. inversion H; subst. cbn [deliver_slot]. unfold deliver_to.
    match goal with A : Forall2 accepts _ _ |- _ => apply accepts_length in A; rename A into N end.
    destruct (settle_quiet qs args v Q ltac:(congruence)) as (args' & -> & I1 & I2 & I3).
    rewrite changed_quiet, I2 by assumption. reflexivity.
  - intros sg IH cs args v H E Q. inversion H; subst. exact (IH cs args v ltac:(assumption) E Q).
  - intros ps ss F cs args v H E Q. inversion H as [? ? ? H1 H2 H3]; subst. rewrite deliver_eq.
    pose proof (accepts_length _ _ H2) as N.
    destruct (settle_quiet ps args v Q ltac:(congruence)) as (args' & -> & I1 & I2 & I3). rewrite <- I2. cbn [functions].
    assert (L : length (map arrives ps) = length args') by (rewrite map_length; congruence).
    clear - F H3 I1 L. induction F as [|s ss Hs F IH]; [reflexivity|]. inversion H3 as [|? ? Fs Fss]; subst.
    rewrite deliver_each_cons, (Hs _ _ v Fs L I1), (IH Fss). cbn [flat_map]. rewrite map_app. reflexivity.
Qed.

Lemma settle_values : forall ps es (v : env), length ps = length es -> Forall (fun p => p_pass p = Value \/ p_pass p = CRef) ps -> given_once es ->
  exists v' args', settle_all V ps (map (arg_of V) es) v = (v', args') /\ Forall quiet args' /\ map (look V v') args' = map v (map object_of es) /\
    length args' = length es /\
    (forall x, given_away ps es x -> v' x = Moved V) /\ (forall x, ~ given_away ps es x -> v' x = v x).
Proof.
  induction ps as [|p ps IH]; intros [|e es] v E P O; try discriminate; cbn [settle_all map].
  - exists v, []. repeat split; try constructor. intros x (q & [] & _).
  - inversion P as [|? ? P1 P2]; subst.
    assert (O2 : given_once es).
    { intros x J. specialize (O x (or_intror J)). cbn [map count_occ] in O. destruct (Nat.eq_dec (object_of e) x); [|assumption].
      assert (In x (map object_of es)) by (apply in_map_iff; exists (XValue x); auto).
      rewrite (count_occ_In Nat.eq_dec) in H. lia. }
    assert (K : exists v1 a', settle V p (arg_of V e) v = (v1, a') /\ quiet a' /\
      (a' = Const V (v (object_of e)) \/ (a' = View V (object_of e) /\ (forall x, e = XValue x -> p_pass p <> Value) /\ v1 = v)) /\
      (forall x, e = XValue x -> p_pass p = Value -> v1 x = Moved V) /\ (forall x, ~ (e = XValue x /\ p_pass p = Value) -> v1 x = v x)).
    { unfold settle. destruct P1 as [P1|P1]; rewrite P1; destruct e as [x|x|x]; cbn [arg_of look object_of]; eexists; eexists; (split; [reflexivity|]);
        (split; [exact I|]); (split; [first [left; reflexivity | right; repeat split; intros; discriminate]|]);
        (split; [intros y Ey Py; try discriminate Ey; try discriminate Py; injection Ey as <-; unfold set; rewrite Nat.eqb_refl; reflexivity|]);
        intros y Hy; try reflexivity.
      unfold set. destruct (Nat.eqb_spec y x) as [->|]; [|reflexivity]. exfalso. apply Hy. auto. }
    destruct K as (v1 & a' & -> & K1 & K2 & K3 & K4).
    destruct (IH es v1 ltac:(now injection E) P2 O2) as (v2 & args2 & -> & I1 & I2 & I3 & I4 & I5).
    exists v2, (a' :: args2). split; [reflexivity|]. split; [constructor; assumption|].
    assert (NG : forall x, In (XValue x) es -> object_of e <> x).
    { intros x J Ex. specialize (O x (or_intror J)). cbn [map count_occ] in O. destruct (Nat.eq_dec (object_of e) x); [|contradiction].
      assert (In x (map object_of es)) by (apply in_map_iff; exists (XValue x); auto).
      rewrite (count_occ_In Nat.eq_dec) in H. lia. }
    assert (NE : forall x, e = XValue x -> ~ In x (map object_of es)).
    { intros x Ex J. specialize (O x (or_introl Ex)). subst e. cbn [map count_occ object_of] in O. destruct (Nat.eq_dec x x); [|contradiction].
      rewrite (count_occ_In Nat.eq_dec) in J. lia. }
    assert (GA : forall x, given_away ps es x -> In (XValue x) es).
    { intros x (q & J & _). exact (in_combine_r _ _ _ _ J). }
    split; [|split; [cbn; now rewrite I3|split]].
    + cbn [map]. f_equal.
      * destruct K2 as [->|(-> & _ & ->)]; [reflexivity|]. cbn [look]. apply I5. intros J. exact (NG _ (GA _ J) eq_refl).
      * rewrite I2. apply map_ext_in. intros x J. apply K4. intros [Ex _]. exact (NE x Ex J).
    + intros x (q & J & Q). cbn [combine] in J. destruct J as [J|J].
      * injection J as <- Ex. rewrite I5; [now apply K3|]. intros G. apply (NG x (GA _ G)). subst e. reflexivity.
      * apply I4. exists q. auto.
    + intros x N. rewrite I5.
      * apply K4. intros [Ex Px]. apply N. exists p. split; [left; congruence | assumption].
      * intros (q & J & Q). apply N. exists q. split; [now right | assumption].
Qed.

Lemma values_delivered : forall ps ss es st st' g,
  Forall (fun p => p_pass p <> Ref) ps -> given_once es -> Forall (fun e => object_of e < length (cells V st)) es ->
  emit V (Signal V ps ss) es st = Some (st', g) ->
  g = map (fun id => (id, map (read V st) (map object_of es))) (functions V (Signal V ps ss)) /\
  forall x, x < length (cells V st) ->
    (given_away ps es x -> read V st' x = Moved V) /\ (~ given_away ps es x -> read V st' x = read V st x).
Proof.
  intros ps ss es st st' g P O L H.
  destruct (emission_delivers V _ _ _ _ _ L H) as [D1 D2].
  assert (W : well_formed V (Signal V ps ss) (map category_of es)) by (apply (emit_well_formed _ es st); congruence).
  inversion W as [? ? ? W1 W2 W3]; subst.
  assert (P' : Forall (fun p => p_pass p = Value \/ p_pass p = CRef) ps).
  { rewrite Forall_forall in *. intros p J. destruct (W1 p J) as [W4 _]. specialize (P p J). destruct (p_pass p); auto; contradiction. }
  pose proof (accepts_length _ _ W2) as N. rewrite map_length in N.
  destruct (settle_values ps es (read V st) N P' O) as (v' & args' & S & Q & E & L' & G1 & G2).
  rewrite deliver_eq, S in D2 |- *. cbv beta iota in D2 |- *.
  assert (X : deliver_each args' ss v' = (v', map (fun id => (id, map (look V v') args')) (functions V (Signal V ps ss)))).
  { clear - W3 Q L' N. cbn [functions]. induction ss as [|s ss IH]; [reflexivity|]. inversion W3 as [|? ? Fs Fss]; subst.
    rewrite deliver_each_cons.
    assert (Y : deliver_slot V s args' v' = (v', map (fun id => (id, map (look V v') args'))
         (match s with Function _ id _ _ | Member _ id _ _ => [id] | Chain _ sg' => functions V sg' end))).
    { assert (Ln : length (map arrives ps) = length args') by (rewrite map_length; congruence).
      destruct s as [id qs f|id qs f|sg]; inversion Fs; subst; cbn [deliver_slot].
      1,2: unfold deliver_to; match goal with A : Forall2 accepts _ _ |- _ => apply accepts_length in A; rename A into M end;
        destruct (settle_quiet qs args' v' Q ltac:(congruence)) as (args2 & -> & J1 & J2 & J3);
        rewrite changed_quiet, J2 by assumption; reflexivity.
      eapply deliver_quiet; eassumption. }
    rewrite Y, (IH Fss). cbn [flat_map]. rewrite map_app. reflexivity. }
  rewrite X in *. cbn [fst snd] in *. rewrite E in *. split; [reflexivity|].
  intros x Hx. rewrite (D2 x Hx). split; [apply G1 | apply G2].
Qed.

(** * One argument by reference *)

Definition shared_slots (fs : list (nat * (cell -> cell))) : list slot :=
  map (fun f => Function V (fst f) [mkparam Ref true] (map (snd f))) fs.
Lemma shared_each : forall fs x (v : env),
  snd (deliver_each [Var V x] (shared_slots fs) v) = succession V fs (v x) /\
  fst (deliver_each [Var V x] (shared_slots fs) v) x = fold_left (fun c f => snd f c) fs (v x) /\
  forall y, y <> x -> fst (deliver_each [Var V x] (shared_slots fs) v) y = v y.
Proof.
  induction fs as [|[id f] fs IH]; intros x v; [cbn; auto|].
  unfold shared_slots in *. cbn [map]. rewrite deliver_each_cons.
  cbn [deliver_slot fst snd]. unfold deliver_to. cbn [settle_all settle p_pass map look changed].
  specialize (IH x (set V v x (f (v x)))).
  destruct (deliver_each [Var V x] _ (set V v x (f (v x)))) as [v' g']. cbn [fst snd] in *.
  unfold set in IH at 1 2. rewrite Nat.eqb_refl in IH. destruct IH as (I1 & I2 & I3).
  split; [cbn; now rewrite I1|]. split; [assumption|]. intros y Hy. rewrite I3 by assumption. unfold set.
  now rewrite (proj2 (Nat.eqb_neq _ _) Hy).
Qed.
Lemma shared_emission : forall fs x st, x < length (cells V st) ->
  exists st', emit V (Signal V [mkparam Ref true] (shared_slots fs)) [LValue x] st = Some (st', succession V fs (read V st x)) /\
    read V st' x = fold_left (fun c f => snd f c) fs (read V st x) /\
    forall y, y < length (cells V st) -> y <> x -> read V st' y = read V st y.
Proof.
  intros fs x st Hx.
  assert (W : emit V (Signal V [mkparam Ref true] (shared_slots fs)) [LValue x] st <> None).
  { apply emit_well_formed. cbn [map category_of]. constructor.
    - constructor; [split; discriminate | constructor].
    - constructor; [constructor|constructor].
    - unfold shared_slots. rewrite Forall_forall. intros s J. apply in_map_iff in J as (f & <- & _). constructor.
      constructor; [constructor|constructor]. }
  destruct (emit V (Signal V [mkparam Ref true] (shared_slots fs)) [LValue x] st) as [[st' g]|] eqn:E; [clear W | now destruct W].
  destruct (emission_delivers V _ [LValue x] st st' g ltac:(repeat constructor; assumption) E) as [D1 D2].
  rewrite deliver_eq in D1, D2. cbn [map arg_of settle_all settle p_pass] in D1, D2.
  destruct (shared_each fs x (read V st)) as (S1 & S2 & S3).
  exists st'. split; [rewrite <- S1, D1; reflexivity|]. split; [rewrite D2 by assumption; exact S2|].
  intros y Hy Hn. rewrite D2 by assumption. now apply S3.
Qed.
End Values.
