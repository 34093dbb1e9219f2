From Coq Require Import List Arith Bool Lia.
From Verif Require Import Base FailModel FailSpec FailProofs.
Import ListNotations.

Section Three.
Variable V : Type.
Variable moved torn : V -> V.
Variable fails : nat -> bool.
Notation world := (world V).
Notation attempt := (attempt V fails).

(** All but the value. *)
Definition same_tables (a b : world) : Prop := now V b = now V a /\ nodes V b = nodes V a /\ subtrees V b = subtrees V a.

Lemma text_ends (w0 w : world) s : untouched w0 w ->
  untouched w0 (snd (answer_text V fails s w)) /\ (fst (answer_text V fails s w) = Thrown \/ fst (answer_text V fails s w) = Answered s).
Proof.
  intros U. unfold answer_text. destruct (attempt_cases V fails true w) as [t [w1 [E [U1 _]]]]. rewrite E. cbn. split; [exact (untouched_trans V _ _ _ U U1)|].
  destruct t; auto.
Qed.
Lemma roll_spec (w0 w : world) c after : same_tables w0 w ->
  (forall w', untouched w0 w' -> untouched w0 (snd (after w')) /\ (fst (after w') = Thrown \/ fst (after w') = Answered SConflict)) ->
  let r := roll_back V torn fails c (cell V w0) after w in
  (fst r = Died /\ assign_nothrow c = false) \/ (untouched w0 (snd r) /\ (fst r = Thrown \/ fst r = Answered SConflict)).
Proof.
  intros [T1 [T2 T3]] A. unfold roll_back. destruct (attempt_cases V fails (negb (assign_nothrow c)) w) as [t [w1 [E [[U1 [U2 [U3 U4]]] [C _]]]]]. rewrite E.
  destruct t; cbn.
  - left. split; [reflexivity|]. specialize (C eq_refl). destruct (assign_nothrow c); [discriminate|reflexivity].
  - right. apply A. repeat split; cbn; congruence.
Qed.

Definition settled (w0 : world) (r : ending * world) (s : status) (good : V -> Prop) p sub c : Prop := ends w0 r s good p sub (assign_nothrow c = false).

Lemma settled_rolled w0 r s good p sub c : s <> SConflict ->
  (fst r = Died /\ assign_nothrow c = false) \/ (untouched w0 (snd r) /\ (fst r = Thrown \/ fst r = Answered SConflict)) -> settled w0 r s good p sub c.
Proof.
  intros N [[E A]|[U [E|E]]]; unfold settled, ends; rewrite E; auto.
Qed.

Lemma guarded_spec (w0 w : world) c b cn next validate p sub s : s <> SConflict -> untouched w0 w ->
  settled w0 (guarded V moved torn fails c b cn next validate p sub s w) s (fun v => v = next /\ exists a, validate v = Fine a) p sub c /\
  (no_failure fails -> (exists a, validate next = Fine a) -> fst (guarded V moved torn fails c b cn next validate p sub s w) = Answered s).
Proof.
  intros NS U. unfold guarded.
  assert (B : exists o w1, back_up V moved fails c b w = (o, w1) /\ same_tables w0 w1 /\ (o = Some (cell V w0) \/ (o = None /\ untouched w0 w1)) /\ (no_failure fails -> o <> None)).
  { destruct U as [U1 [U2 [U3 U4]]]. unfold back_up. destruct b; [|destruct (move_nothrow c)].
    - destruct (attempt_cases V fails (negb (copy_nothrow c)) w) as [t [w1 [E [[W1 [W2 [W3 W4]]] [_ N]]]]]. rewrite E. do 2 eexists. split; [reflexivity|].
      split; [repeat split; congruence|]. destruct t; (split; [|intros F; specialize (N F); congruence]).
      + right. split; [reflexivity|]. repeat split; congruence.
      + left. congruence.
    - do 2 eexists. split; [reflexivity|]. split; [repeat split; cbn; congruence|]. split; [left; congruence|discriminate].
    - destruct (attempt_cases V fails (negb (copy_nothrow c)) w) as [t [w1 [E [[W1 [W2 [W3 W4]]] [_ N]]]]]. rewrite E. do 2 eexists. split; [reflexivity|].
      split; [repeat split; congruence|]. destruct t; (split; [|intros F; specialize (N F); congruence]).
      + right. split; [reflexivity|]. repeat split; congruence.
      + left. congruence. }
  destruct B as [o [w1 [E1 [T1 [O N1]]]]]. rewrite E1. destruct O as [->|[-> U1]].
  2:{ split; [unfold settled, ends; cbn; left; exact U1|]. intros F. exfalso. exact (N1 F eq_refl). }
  destruct (attempt_cases V fails (negb cn) w1) as [t [w2 [E2 [[W1 [W2 [W3 W4]]] [_ N2]]]]]. rewrite E2.
  assert (T2 : same_tables w0 w2) by (destruct T1 as [A [B C]]; repeat split; congruence).
  destruct t.
  - split; [|intros F; specialize (N2 F); discriminate]. apply settled_rolled; [exact NS|]. apply roll_spec; [exact T2|]. intros w' U'. cbn. auto.
  - destruct (validate next) as [u| |] eqn:Ev.
    + destruct T2 as [A2 [B2 C2]].
      destruct (notify_spec V fails w0 (set_cell V w2 next) next p sub) as [t [w3 [E3 [H N3]]]]; try assumption; try reflexivity.
      rewrite E3. destruct t; (split; [|intros F _; specialize (N3 F)]).
      * unfold settled, ends. cbn. right. exists next. split; [|exact H]. split; [reflexivity|eauto].
      * discriminate.
      * unfold settled, ends. cbn. left. split; [reflexivity|]. exists next. split; [|exact H]. split; [reflexivity|eauto].
      * reflexivity.
    + split; [|intros _ [a X]; congruence]. apply settled_rolled; [exact NS|]. apply roll_spec; [exact T2|]. intros w' U'. apply text_ends. exact U'.
    + split; [|intros _ [a X]; congruence]. apply settled_rolled; [exact NS|]. apply roll_spec; [exact T2|]. intros w' U'. cbn. auto.
Qed.

Lemma ends_weak w0 r s (good good' : V -> Prop) p sub d : (forall v, good v -> good' v) -> ends w0 r s good p sub d -> ends w0 r s good' p sub d.
Proof.
  intros G. unfold ends. destruct (fst r); [|intros [H|[v [H1 H2]]]; [left; exact H|right; eauto]|auto].
  intros [[H [v [H1 H2]]]|H]; [left; eauto|right; exact H].
Qed.

Lemma put_spec c read identical validate p sub (w : world) :
  ends w (put V moved torn fails c read identical validate p sub w) SOk
    (fun v => read (cell V w) = Fine v /\ identical v = true /\ exists a, validate v = Fine a) p sub (assign_nothrow c = false) /\
  (no_failure fails -> forall v, read (cell V w) = Fine v -> identical v = true -> (exists a, validate v = Fine a) ->
     fst (put V moved torn fails c read identical validate p sub w) = Answered SOk).
Proof.
  unfold put. destruct (attempt_cases V fails (negb (copy_nothrow c)) w) as [t [w1 [E1 [U1 [_ N1]]]]]. rewrite E1. destruct t.
  - split; [left; exact U1|]. intros F. specialize (N1 F). discriminate.
  - destruct U1 as [U1 U1']. rewrite U1. assert (U : untouched w w1) by (split; assumption). destruct (read (cell V w)) as [v| |] eqn:Er.
    + destruct (identical v) eqn:Ei.
      * destruct (guarded_spec w w1 c MoveIfNoexceptBackup (assign_nothrow c) v validate p sub SOk) as [G1 G2]; [discriminate|exact U|]. split.
        -- eapply ends_weak; [|exact G1]. intros x [-> X]. auto.
        -- intros F v' [= <-] _ X. exact (G2 F X).
      * split; [unfold ends; cbn; right; split; [discriminate|exact U]|]. intros _ v' [= <-] X. congruence.
    + split; [unfold ends; cbn; right; split; [discriminate|exact U]|]. intros _ v' X. discriminate.
    + split; [left; exact U|]. intros _ v' X. discriminate.
Qed.

Lemma reset_spec c empty veto validate p sub (w : world) :
  ends w (reset V moved torn fails c empty veto validate p sub w) SNoContent
    (fun v => v = empty /\ (exists a, veto (cell V w) = Fine a) /\ exists a, validate v = Fine a) p sub (assign_nothrow c = false) /\
  (no_failure fails -> (exists a, veto (cell V w) = Fine a) -> (exists a, validate empty = Fine a) ->
     fst (reset V moved torn fails c empty veto validate p sub w) = Answered SNoContent).
Proof.
  unfold reset. destruct (attempt_cases V fails (negb (copy_nothrow c)) w) as [t [w1 [E1 [U1 [_ N1]]]]]. rewrite E1. destruct t.
  - split; [left; exact U1|]. intros F. specialize (N1 F). discriminate.
  - destruct U1 as [U1 U1']. rewrite U1. assert (U : untouched w w1) by (split; assumption). destruct (veto (cell V w)) as [u| |] eqn:Er.
    + destruct (guarded_spec w w1 c MoveIfNoexceptBackup (assign_nothrow c) empty validate p sub SNoContent) as [G1 G2]; [discriminate|exact U|]. split.
      * eapply ends_weak; [|exact G1]. intros x [-> X]. split; [reflexivity|]. split; [eauto|exact X].
      * intros F _ X. exact (G2 F X).
    + split; [|intros _ [a X]; discriminate]. destruct (text_ends w w1 SConflict U) as [T [X|X]]; unfold ends; rewrite X; [left; exact T|right; split; [discriminate|exact T]].
    + split; [left; exact U|]. intros _ [a X]. discriminate.
Qed.

Lemma remove_spec c en shorter validate p (w : world) :
  ends w (remove_child V moved torn fails c en shorter validate p w) SNoContent
    (fun v => v = shorter /\ exists a, validate v = Fine a) (removelast p) true (assign_nothrow c = false) /\
  (no_failure fails -> (exists a, validate shorter = Fine a) -> fst (remove_child V moved torn fails c en shorter validate p w) = Answered SNoContent).
Proof. unfold remove_child. apply guarded_spec; [discriminate|apply untouched_refl]. Qed.

Lemma post_spec {E} push pop (read : verdict E) check validate p (w : world) : (forall v e, pop (push v e) = v) ->
  ends w (post V fails push pop read check validate p w) SCreated
    (fun v => exists e, read = Fine e /\ v = push (cell V w) e /\ (exists a, check (cell V w) e = Fine a) /\ exists a, validate v = Fine a) p true False /\
  (no_failure fails -> forall e, read = Fine e -> (exists a, check (cell V w) e = Fine a) -> (exists a, validate (push (cell V w) e) = Fine a) ->
     fst (post V fails push pop read check validate p w) = Answered SCreated).
Proof.
  intros PP. unfold post. destruct (attempt_cases V fails true w) as [t [w1 [E1 [U1 [_ N1]]]]]. rewrite E1. destruct t.
  - split; [left; exact U1|]. intros F. specialize (N1 F). discriminate.
  - destruct read as [e| |].
    + assert (Uc : cell V w1 = cell V w) by apply U1. rewrite Uc. destruct (check (cell V w) e) as [u| |] eqn:Ec.
      * destruct (attempt_cases V fails true w1) as [t [w2 [E2 [U2 [_ N2]]]]]. rewrite E2. pose proof (untouched_trans V _ _ _ U1 U2) as U. destruct t.
        -- split; [left; exact U|]. intros F. specialize (N2 F). discriminate.
        -- destruct U as [Ux [Un [Um Us]]]. cbn [cell set_cell]. rewrite Ux.
           assert (UP : untouched w (set_cell V (set_cell V w2 (push (cell V w) e)) (pop (push (cell V w) e)))) by (rewrite PP; repeat split; cbn; assumption).
           destruct (validate (push (cell V w) e)) as [u'| |] eqn:Ev.
           ++ destruct (notify_spec V fails w (set_cell V w2 (push (cell V w) e)) (push (cell V w) e) p true) as [t [w3 [E3 [H N3]]]]; try assumption; try reflexivity.
              rewrite E3. assert (G : exists e0, Fine e = Fine e0 /\ push (cell V w) e = push (cell V w) e0 /\ (exists a, check (cell V w) e0 = Fine a) /\ exists a, validate (push (cell V w) e) = Fine a).
              { exists e. eauto 10. }
              destruct t; (split; [|intros F; specialize (N3 F)]).
              ** right. exists (push (cell V w) e). split; [exact G|exact H].
              ** discriminate.
              ** left. split; [reflexivity|]. exists (push (cell V w) e). split; [exact G|exact H].
              ** reflexivity.
           ++ split; [|intros _ e' [= <-] _ [a X]; congruence].
              destruct (text_ends w _ SConflict UP) as [T [X|X]]; unfold ends; rewrite X; [left; exact T|right; split; [discriminate|exact T]].
           ++ split; [left; exact UP|intros _ e' [= <-] _ [a X]; congruence].
      * split; [|intros _ e' [= <-] [a X]; congruence].
        destruct (text_ends w w1 SConflict U1) as [T [X|X]]; unfold ends; rewrite X; [left; exact T|right; split; [discriminate|exact T]].
      * split; [left; exact U1|]. intros _ e' [= <-] [a X]; congruence.
    + split; [unfold ends; cbn; right; split; [discriminate|exact U1]|]. intros _ e' X. discriminate.
    + split; [left; exact U1|]. intros _ e' X. discriminate.
Qed.

Lemma familiar_thrown (w : world) (r : ending * world) s good p sub d : familiar w p sub -> ends w r s good p sub d -> fst r = Thrown -> untouched w (snd r).
Proof.
  intros [F1 F2] H E. unfold ends in H. rewrite E in H. destruct H as [H|[v [_ [_ [_ [_ [k [_ K]]]]]]]]; [exact H|]. exfalso.
  destruct K as [[L K]|[_ [S K]]]; [exact (K (F1 k L))|exact (K (F2 S))].
Qed.
End Three.
