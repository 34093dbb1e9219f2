From Coq Require Import List Arith Bool Lia.
From Verif Require Import Base CurModel CurSpec CurProofs CurStepProofs.
Import ListNotations.

Lemma initial_inv n : inv (initial n).
Proof.
  assert (Z : forall g, nth g (repeat (@nil nat) n) [] = []).
  { induction n as [|n IH]; intros [|g]; cbn; auto. }
  split; cbn.
  - intros g s. rewrite Z. intros [].
  - intros g. rewrite Z. constructor.
  - intros g h s. rewrite Z. intros [].
  - reflexivity.
Qed.

Lemma step_both st r e st' : inv st -> traced (current st) (stack st) r -> step st e = Some (Ok st') ->
  inv st' /\ traced (current st') (stack st') (follow r e).
Proof.
  intros I T H. destruct (is_end e) eqn:E.
  - destruct e; try discriminate.
    + destruct (step_throw _ _ _ I T H) as (st1 & c & E1 & H1 & H2 & _). inversion E1; subst. auto.
    + destruct (step_end _ _ _ I T H) as [[_ U]|[_ [st1 [E1 [H1 [H2 _]]]]]]; [discriminate|].
      inversion E1; subst. auto.
  - destruct (step_user _ _ _ _ I T E H) as [st1 [E1 [H1 [H2 _]]]]. inversion E1; subst. auto.
Qed.

Lemma run_inv es : forall st r st', inv st -> traced (current st) (stack st) r -> run st es = Some (Ok st') ->
  inv st' /\ traced (current st') (stack st') (fold_left follow es r).
Proof.
  induction es as [|e es IH]; intros st r st' I T H; cbn [run fold_left] in *.
  - inversion H; subst. auto.
  - destruct (step st e) as [[st1| |]|] eqn:E.
    + destruct (step_both _ _ _ _ I T E) as [I1 T1]. exact (IH _ _ _ I1 T1 H).
    + destruct es; discriminate.
    + destruct es; discriminate.
    + destruct es; discriminate.
Qed.
Lemma reach n es st : run (initial n) es = Some (Ok st) -> inv st /\ traced (current st) (stack st) (emissions es).
Proof. intros H. apply (run_inv es (initial n) []); [apply initial_inv|exact Logic.I|exact H]. Qed.

Lemma invoked_ok n es st e o : run (initial n) es = Some (Ok st) -> is_end e = false -> step st e = Some o ->
  exists st', o = Ok st' /\ answers st' = answers st ++ (if asked st st' e then [invoked es] else []).
Proof.
  intros R E H. destruct (reach _ _ _ R) as [I T]. destruct (step_user _ _ _ _ I T E H) as [st' [H1 [_ [_ H2]]]]. eauto.
Qed.

Lemma last_ok st r o : inv st -> traced (current st) (stack st) r -> step st EEnd = Some o ->
  current st = match r with p :: _ => snd p | [] => None end.
Proof.
  intros I T H. cbn [step] in H. destruct (stack st) as [|f k]; [discriminate|]. destruct r as [|p r]; cbn in T; [contradiction|]. destruct T as [-> _]. reflexivity.
Qed.

Lemma end_iff n es st o : run (initial n) es = Some (Ok st) -> step st EEnd = Some o ->
  (o = UB <-> exists c a x b, last_invoked es = Some c /\ removed st = a ++ x :: b /\ doomed st x = true /\ asking st x = true /\
                              In c (a ++ [x]) /\ doomed st c = true) /\
  (o = UB \/ exists st', o = Ok st').
Proof.
  intros R H. destruct (reach _ _ _ R) as [I T]. pose proof (last_ok _ _ _ I T H) as L. unfold last_invoked. rewrite <- L.
  destruct (step_end _ _ _ I T H) as [[F U]|[F [st' [E _]]]].
  - split; [|left; exact U]. split; [intros _|intros _; exact U]. destruct F as [c [a [x [b [H1 [H2 [H3 [H4 H5]]]]]]]].
    destruct H5 as [H5|[H5 H6]]; [pose proof (current_live _ _ I H1); lia|]. exists c, a, x, b. auto 10.
  - split; [|right; eauto]. split; [intros U; congruence|]. intros [c [a [x [b [H1 [H2 [H3 [H4 [H5 H6]]]]]]]]]. exfalso. apply F.
    exists c, a, x, b. auto 10.
Qed.

Lemma end_answers n es st st' : run (initial n) es = Some (Ok st) -> step st EEnd = Some (Ok st') ->
  answers st' = answers st ++ map (fun _ => last_invoked es) (filter (fun s => doomed st s && asking st s) (removed st)) /\
  (forall s, 0 < refs st s -> (refs st' s = 0 <-> In s (removed st) /\ doomed st s = true)).
Proof.
  intros R H. destruct (reach _ _ _ R) as [I T]. pose proof (last_ok _ _ _ I T H) as L.
  destruct (step_end _ _ _ I T H) as [[F U]|[F [st1 [E [_ [_ [A G]]]]]]]; [discriminate|]. inversion E; subst st1.
  split; [unfold last_invoked; rewrite <- L; exact A|].
  intros s P. rewrite G. unfold refs in P. unfold doomed. destruct (nth_error (slots st) s) as [x|]; [|lia].
  split.
  - intros Z. destruct (existsb (Nat.eqb s) (removed st)) eqn:B; [|cbn in Z; lia]. apply existsb_in in B.
    destruct (s_connected x); cbn in *; [lia|]. split; [exact B|]. apply Nat.eqb_eq. lia.
  - intros [J D]. apply existsb_in in J. rewrite J. apply andb_prop in D as [D1 D2]. rewrite D1. apply Nat.eqb_eq in D2. cbn. lia.
Qed.

(** Functions that never ask. *)
Definition still (st : state) : Prop := Forall (fun x => s_asks x = false) (slots st).
Lemma still_upd l i x : Forall (fun x => s_asks x = false) l -> s_asks x = false -> Forall (fun x => s_asks x = false) (upd l i x).
Proof. intros F E. revert i. induction F as [|a l A F IH]; intros [|i]; cbn; auto. Qed.
Lemma still_get st s x : still st -> nth_error (slots st) s = Some x -> s_asks x = false.
Proof. intros F E. apply nth_error_In in E. exact (proj1 (Forall_forall _ _) F _ E). Qed.
Lemma still_release st s st' : still st -> release st s = Ok st' -> still st'.
Proof.
  intros F. unfold release. destruct (nth_error (slots st) s) as [x|] eqn:E; [|discriminate]. pose proof (still_get _ _ _ F E) as A.
  destruct (s_refs x); [discriminate|]. rewrite A, andb_false_r. intros H. inversion H; subst. apply still_upd; auto.
Qed.
Lemma still_cleanup g l : forall st st', still st -> cleanup g l st = Ok st' -> still st'.
Proof.
  induction l as [|s l IH]; intros st st' F H; cbn in H; [congruence|].
  destruct (nth_error (slots st) s); [|discriminate]. destruct (s_connected _); [eauto|].
  destruct (release (unlink g s st) s) as [st1| |] eqn:E; try discriminate. cbn in H. apply (IH st1); [|exact H].
  apply (still_release (unlink g s st) s); [exact F|exact E].
Qed.
Lemma still_step st e st' : still st -> quiet e -> step st e = Some (Ok st') -> still st'.
Proof.
  intros F Q H. destruct e as [g asks|s|s|s| |g|s| | |]; cbn [step] in H.
  - destruct (user_code st && _); [|discriminate]. inversion H; subst. apply Forall_app. split; [exact F|]. constructor; [|constructor].
    cbn in Q. destruct asks; [contradiction|reflexivity].
  - destruct (nth_error (slots st) s) as [x|] eqn:E; [|discriminate]. destruct (user_code st && _); [|discriminate].
    inversion H; subst. apply still_upd; [exact F|]. exact (still_get _ _ _ F E).
  - destruct (user_code st && _); [|discriminate]. inversion H. exact (still_release _ _ _ F H1).
  - destruct (nth_error (slots st) s) as [x|] eqn:E; [|discriminate]. destruct (home st s) as [g|]; [|discriminate].
    destruct (user_code st && _); [|discriminate].
    set (st1 := set_slots st (upd (slots st) s (mkslot (s_refs x) false (s_asks x)))) in *.
    assert (F1 : still st1) by (apply still_upd; [exact F|exact (still_get _ _ _ F E)]).
    destruct (emitting (stack st1) g); [inversion H; subst; exact F1|]. inversion H. exact (still_release (unlink g s st1) s _ F1 H1).
  - destruct (user_code st); [|discriminate]. inversion H. unfold ask in H1. destruct (current st); [destruct (refs st n =? 0); [discriminate|]|]; inversion H1; subst; exact F.
  - destruct (user_code st && _); [|discriminate]. inversion H; subst. exact F.
  - destruct (stack st) as [|[g saved [i|]] k]; try discriminate. destruct (nth_error (slots st) s); [|discriminate].
    destruct (existsb _ _ && _); [|discriminate]. inversion H; subst. exact F.
  - destruct (stack st) as [|[g saved [i|]] k]; try discriminate. inversion H; subst. exact F.
  - destruct (stack st) as [|[g saved [i|]] k]; try discriminate. destruct (nth_error (slots st) i) as [x|] eqn:Ex; [|discriminate].
    set (st1 := set_stack _ _ _) in H.
    assert (F1 : still st1) by (apply still_upd; [exact F|exact (still_get _ _ _ F Ex)]).
    inversion H as [H1]. destruct (if emitting k g then _ else _) as [st2| |] eqn:E; try discriminate. cbn in H1. inversion H1; subst.
    change (still st2). destruct (emitting k g); [inversion E; subst; exact F1|]. apply (still_cleanup _ _ st1 _ F1 E).
  - destruct (stack st) as [|[g saved [i|]] k]; try discriminate. inversion H.
    destruct (if emitting k g then _ else _) as [st1| |] eqn:E; try discriminate. cbn in H1. inversion H1; subst.
    change (still st1). destruct (emitting k g); [inversion E; subst; exact F|]. apply (still_cleanup _ _ (set_stack st k (current st)) _ F E).
Qed.
Lemma quiet_run es : forall st r o, Forall quiet es -> still st -> inv st -> traced (current st) (stack st) r -> run st es = Some o -> exists st', o = Ok st'.
Proof.
  induction es as [|e es IH]; intros st r o Q F I T H; cbn [run] in H; [inversion H; eauto|].
  inversion Q; subst. destruct (step st e) as [o1|] eqn:E; [|destruct es; discriminate].
  assert (O : exists st1, o1 = Ok st1).
  { destruct (is_end e) eqn:Ee.
    - destruct e; try discriminate; [destruct (step_throw _ _ _ I T E) as (st1 & c & X & _); eauto|]. destruct (step_end _ _ _ I T E) as [[X _]|[_ [st1 [X _]]]]; [|eauto].
      destruct X as [c [a [x [b [_ [_ [D [A _]]]]]]]]. unfold asking in A. destruct (nth_error (slots st) x) eqn:Ex; [|discriminate].
      rewrite (still_get _ _ _ F Ex) in A. discriminate.
    - destruct (step_user _ _ _ _ I T Ee E) as [st1 [X _]]. eauto. }
  destruct O as [st1 ->]. destruct (step_both _ _ _ _ I T E) as [I1 T1].
  apply (IH st1 (follow r e) o); auto. exact (still_step _ _ _ F H2 E).
Qed.
Lemma quiet_defined n es o : Forall quiet es -> run (initial n) es = Some o -> exists st, o = Ok st.
Proof. intros Q H. apply (quiet_run es (initial n) [] o); auto; [constructor|apply initial_inv|exact Logic.I]. Qed.

Lemma throw_ok n es st o : run (initial n) es = Some (Ok st) -> step st EThrow = Some o ->
  exists st' c, o = Ok st' /\ invoked es = Some c /\
    answers st' = answers st ++ map (fun _ => Some c) (filter (fun s => negb (s =? c) && (doomed st s && asking st s)) (removed st)) /\
    0 < refs st' c /\
    (forall s, s <> c -> 0 < refs st s -> (refs st' s = 0 <-> In s (removed st) /\ doomed st s = true)).
Proof.
  intros R H. destruct (reach _ _ _ R) as [I T]. destruct (step_throw _ _ _ I T H) as (st' & c & E & _ & _ & B & A & P & G).
  exists st', c. split; [exact E|]. split; [exact B|]. split; [exact A|]. split; [exact P|].
  intros s Hs P'. rewrite G by exact Hs. unfold refs in P'. unfold doomed. destruct (nth_error (slots st) s) as [x|]; [|lia].
  split.
  - intros Z. destruct (existsb (Nat.eqb s) (removed st)) eqn:Bs; [|cbn in Z; lia]. apply existsb_in in Bs.
    destruct (s_connected x); cbn in *; [lia|]. split; [exact Bs|]. apply Nat.eqb_eq. lia.
  - intros [J D]. apply existsb_in in J. rewrite J. apply andb_prop in D as [D1 D2]. rewrite D1. apply Nat.eqb_eq in D2. cbn. lia.
Qed.
