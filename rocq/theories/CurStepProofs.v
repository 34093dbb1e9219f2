From Coq Require Import List Arith Bool Lia.
From Verif Require Import Base CurModel CurSpec CurProofs.
Import ListNotations.

Lemma inv_slots st st' : inv st -> lists st' = lists st -> stack st' = stack st -> current st' = current st ->
  (forall g s, In s (nth g (lists st) []) -> 0 < refs st' s) -> inv st'.
Proof.
  intros I El Ek Ec R. split; rewrite ?El, ?Ek, ?Ec; try (apply I). exact R.
Qed.

Lemma user_current st r : inv st -> traced (current st) (stack st) r -> user_code st = true -> current st = being r.
Proof.
  intros I T U. pose proof (i_chain _ I) as C. unfold user_code in U. destruct (stack st) as [|f k]; destruct r as [|p r]; cbn in *; try contradiction; [exact C|].
  destruct T as [-> _]. cbn. destruct (f_in f) as [s|]; [|discriminate]. destruct C as [[C _] _]. exact C.
Qed.

Lemma andb_nat a b : (a && b)%bool = true -> a = true /\ b = true.
Proof. apply andb_prop. Qed.

Lemma begin_in st : user_code st = true -> match stack st with [] => True | f :: _ => f_in f <> None end.
Proof. unfold user_code. destruct (stack st) as [|f k]; [trivial|]. destruct (f_in f); [discriminate|discriminate]. Qed.

Lemma step_user st r e o : inv st -> traced (current st) (stack st) r -> is_end e = false -> step st e = Some o ->
  exists st', o = Ok st' /\ inv st' /\ traced (current st') (stack st') (follow r e) /\
    answers st' = answers st ++ (if asked st st' e then [being r] else []).
Proof.
  intros I T E H. destruct e as [g asks|s|s|s| |g|s| | |]; cbn [step] in H; try discriminate.
  - (* connect *)
    destruct (user_code st) eqn:U; [|discriminate]. destruct (g <? length (lists st)) eqn:G; [|discriminate]. cbn in H. inversion H; subst o; clear H.
    apply Nat.ltb_lt in G. set (n := length (slots st)).
    assert (Fresh : forall h, ~ In n (nth h (lists st) [])).
    { intros h J. apply (i_live _ I) in J. unfold refs in J. rewrite (proj2 (nth_error_None _ _)) in J by (unfold n; lia). lia. }
    assert (LL : forall h, nth h (upd (lists st) g (nth g (lists st) [] ++ [n])) [] = if g =? h then nth g (lists st) [] ++ [n] else nth h (lists st) []).
    { intros h. rewrite nth_upd_d, (proj2 (Nat.ltb_lt _ _) G), andb_true_r. reflexivity. }
    assert (In1 : forall h i, In i (nth h (upd (lists st) g (nth g (lists st) [] ++ [n])) []) -> In i (nth h (lists st) []) \/ (i = n /\ h = g)).
    { intros h i. rewrite LL. destruct (g =? h) eqn:Q; [|auto]. apply Nat.eqb_eq in Q. subst. intros J. apply in_app_or in J as [J|[J|[]]]; auto. }
    eexists. split; [reflexivity|]. split; [|split].
    + split; cbn.
      * intros h i J. apply In1 in J. unfold refs. cbn. destruct J as [J|[-> _]].
        -- pose proof (i_live _ I _ _ J) as R. unfold refs in R. destruct (nth_error (slots st) i) as [x|] eqn:Ex; [|lia].
           rewrite nth_error_app1 by (apply nth_error_Some; congruence). rewrite Ex. exact R.
        -- unfold n. rewrite nth_error_app2 by lia. rewrite Nat.sub_diag. cbn. lia.
      * intros h. fold n. rewrite LL. destruct (g =? h); [|apply I].
        assert (Z : forall l : list nat, NoDup l -> ~ In n l -> NoDup (l ++ [n])).
        { induction l as [|a l IH]; intros N1 N2; cbn; [constructor; [intros []|constructor]|].
          inversion N1; subst. constructor; [|apply IH; [assumption|intro; apply N2; right; assumption]].
          intros J. apply in_app_or in J as [J|[J|[]]]; [contradiction|]. apply N2. left. congruence. }
        apply Z; [apply I|apply Fresh].
      * intros h h' i A B. apply In1 in A. apply In1 in B. destruct A as [A|[A A']], B as [B|[B B']]; subst; auto.
        -- exact (i_one _ I _ _ _ A B).
        -- exfalso. exact (Fresh _ A).
        -- exfalso. exact (Fresh _ B).
      * apply (chain_grow (lists st)); [|apply I]. intros h i _ J. fold n. rewrite LL. destruct (g =? h) eqn:Q; [|exact J].
        apply Nat.eqb_eq in Q. subst. apply in_or_app. left. exact J.
    + cbn. exact T.
    + cbn. symmetry. apply app_nil_r.
  - (* hold *)
    destruct (nth_error (slots st) s) as [x|] eqn:Ex; [|discriminate].
    destruct (user_code st && (0 <? s_refs x)) eqn:U; [|discriminate]. inversion H; subst o; clear H.
    eexists. split; [reflexivity|]. split; [|split].
    + apply (inv_slots st); auto. intros g i J. unfold set_slots. rewrite refs_upd by congruence.
      destruct (s =? i); [cbn; lia|]. exact (i_live _ I _ _ J).
    + exact T.
    + cbn. symmetry. apply app_nil_r.
  - (* drop *)
    destruct (user_code st && ((if home st s then 1 else 0) <? refs st s)) eqn:U; [|discriminate]. inversion H; subst o; clear H.
    apply andb_nat in U as [U B]. apply Nat.ltb_lt in B.
    assert (Hh : forall g, In s (nth g (lists st) []) -> 1 < refs st s).
    { intros g J. destruct (home st s) eqn:Eh; [exact B|]. exfalso. exact (home_none _ _ g Eh J). }
    destruct (release_ok st s) as [st' [E1 [H1 [H2 [H3 [H4 [H5 H6]]]]]]].
    + destruct (home st s); lia.
    + intros c Ec. destruct (s =? c) eqn:Q; [|exact (current_live _ _ I Ec)]. apply Nat.eqb_eq in Q. subst c.
      destruct (chain_listed _ _ _ _ (i_chain _ I) Ec) as [f [_ J]]. exact (Hh _ J).
    + exists st'. split; [exact E1|]. split; [|split].
      * apply (inv_slots st); auto. intros g i J. rewrite H4. destruct (s =? i) eqn:Q; [|exact (i_live _ I _ _ J)].
        apply Nat.eqb_eq in Q. subst. specialize (Hh _ J). lia.
      * cbn [follow]. rewrite H2, H3. exact T.
      * rewrite H6. cbn [asked]. rewrite H4, Nat.eqb_refl. rewrite <- (user_current _ _ I T U).
        replace (refs st s - 1 =? 0) with (refs st s =? 1).
        -- rewrite andb_comm. reflexivity.
        -- destruct (refs st s) as [|[|n]]; [destruct (home st s); lia|reflexivity|reflexivity].
  - (* disconnect *)
    destruct (nth_error (slots st) s) as [x|] eqn:Ex; [|discriminate]. destruct (home st s) as [g|] eqn:Eh; [|discriminate].
    destruct (user_code st && s_connected x) eqn:U; [|discriminate]. apply andb_nat in U as [U C]. inversion H; subst o; clear H.
    apply home_some in Eh as [J G].
    set (st1 := set_slots st (upd (slots st) s (mkslot (s_refs x) false (s_asks x)))).
    change (emitting (stack st1) g) with (emitting (stack st) g).
    assert (R1 : forall i, refs st1 i = refs st i).
    { intros i. unfold st1, set_slots. rewrite refs_upd by congruence. destruct (s =? i) eqn:Q; [|reflexivity].
      apply Nat.eqb_eq in Q. subst. unfold refs. rewrite Ex. reflexivity. }
    assert (I1 : inv st1).
    { apply (inv_slots st); auto. intros h i K. rewrite R1. exact (i_live _ I _ _ K). }
    destruct (emitting (stack st) g) eqn:Em.
    + exists st1. split; [reflexivity|]. split; [exact I1|]. split; [exact T|]. cbn [asked].
      pose proof (i_live _ I _ _ J) as L. rewrite R1. destruct (refs st s); [lia|]. cbn. rewrite andb_false_r. symmetry. apply app_nil_r.
    + assert (NC : forall c, current st = Some c -> c <> s).
      { intros c Ec ->. destruct (chain_listed _ _ _ _ (i_chain _ I) Ec) as [f [F1 F2]].
        pose proof (i_one _ I _ _ _ J F2). subst g. rewrite (emitting_in _ _ F1) in Em. discriminate. }
      destruct (release_ok (unlink g s st1) s) as [st' [E1 [H1 [H2 [H3 [H4 [H5 H6]]]]]]].
      * change (0 < refs st1 s). rewrite R1. exact (i_live _ I _ _ J).
      * intros c Ec. change (refs (unlink g s st1) c) with (refs st1 c). rewrite R1. change (current st = Some c) in Ec.
        rewrite (proj2 (Nat.eqb_neq s c)) by (intro; subst; exact (NC _ Ec eq_refl)). exact (current_live _ _ I Ec).
      * assert (LL : forall h, nth h (lists st') [] = if g =? h then filter (fun k => negb (k =? s)) (nth g (lists st) []) else nth h (lists st) []).
        { intros h. rewrite H1. rewrite unlink_list by exact G. reflexivity. }
        assert (In1 : forall h i, In i (nth h (lists st') []) -> In i (nth h (lists st) []) /\ i <> s).
        { intros h i. rewrite LL. destruct (g =? h) eqn:Q.
          - apply Nat.eqb_eq in Q. subst. intros K. apply filter_In in K as [K N]. split; [exact K|]. apply Nat.eqb_neq. apply negb_true_iff. exact N.
          - intros K. split; [exact K|]. intros ->. apply Nat.eqb_neq in Q. apply Q. exact (i_one _ I _ _ _ J K). }
        assert (R2 : forall i, refs st' i = if s =? i then refs st s - 1 else refs st i).
        { intros i. rewrite H4. change (refs (unlink g s st1) s) with (refs st1 s). change (refs (unlink g s st1) i) with (refs st1 i). rewrite !R1. reflexivity. }
        exists st'. split; [exact E1|]. split; [|split].
        -- split.
           ++ intros h i K. apply In1 in K as [K N]. rewrite R2, (proj2 (Nat.eqb_neq s i)) by congruence. exact (i_live _ I _ _ K).
           ++ intros h. rewrite LL. destruct (g =? h); [apply filter_nodup|]; apply I.
           ++ intros h h' i A B. apply In1 in A as [A _]. apply In1 in B as [B _]. exact (i_one _ I _ _ _ A B).
           ++ rewrite H2, H3. apply (chain_grow (lists st)); [|apply I]. intros h i Eh K. rewrite LL.
              destruct (g =? h) eqn:Q; [|exact K]. apply Nat.eqb_eq in Q. subst. change (emitting (stack st) h = true) in Eh. congruence.
        -- cbn [follow]. rewrite H2, H3. exact T.
        -- rewrite H6. cbn [asked]. rewrite R2, Nat.eqb_refl. rewrite <- (user_current _ _ I T U).
           change (refs (unlink g s st1) s) with (refs st1 s). rewrite R1.
           replace (asking (unlink g s st1) s) with (asking st s).
           ++ replace (refs st s - 1 =? 0) with (refs st s =? 1).
              ** rewrite andb_comm. reflexivity.
              ** pose proof (i_live _ I _ _ J). destruct (refs st s) as [|[|n]]; [lia|reflexivity|reflexivity].
           ++ unfold asking. cbn. rewrite nth_err_upd, Nat.eqb_refl, Ex. reflexivity.
  - (* ask *)
    destruct (user_code st) eqn:U; [|discriminate]. inversion H; subst o; clear H.
    rewrite ask_live by (intros c; apply current_live; exact I).
    eexists. split; [reflexivity|]. split; [|split].
    + apply (inv_slots st); auto. intros g i J. exact (i_live _ I _ _ J).
    + exact T.
    + cbn. rewrite <- (user_current _ _ I T U). reflexivity.
  - (* begin *)
    destruct (user_code st) eqn:U; [|discriminate]. destruct (g <? length (lists st)) eqn:G; [|discriminate]. cbn in H. inversion H; subst o; clear H.
    eexists. split; [reflexivity|]. split; [|split].
    + split; cbn; try (apply I). split; [left; reflexivity|]. split; [apply I|]. exact (begin_in _ U).
    + cbn. rewrite <- (user_current _ _ I T U). split; [reflexivity|exact T].
    + cbn. symmetry. apply app_nil_r.
  - (* call *)
    destruct (stack st) as [|[g saved [i|]] k] eqn:Ek; try discriminate. destruct (nth_error (slots st) s) as [x|] eqn:Ex; [|discriminate].
    destruct (existsb (Nat.eqb s) (nth g (lists st) []) && s_connected x) eqn:B; [|discriminate]. inversion H; subst o; clear H.
    apply andb_nat in B as [B C]. apply existsb_in in B.
    pose proof (i_chain _ I) as Ch. rewrite Ek in Ch. cbn in Ch. destruct Ch as [_ [Ch1 Ch2]].
    eexists. split; [reflexivity|]. split; [|split].
    + split; cbn; try (apply I). auto.
    + destruct r as [|p r]; cbn in *; [contradiction|]. destruct T as [_ T]. auto.
    + cbn. symmetry. apply app_nil_r.
  - (* return *)
    destruct (stack st) as [|[g saved [i|]] k] eqn:Ek; try discriminate. inversion H; subst o; clear H.
    pose proof (i_chain _ I) as Ch. rewrite Ek in Ch. cbn in Ch. destruct Ch as [[Ch Ch0] [Ch1 Ch2]].
    eexists. split; [reflexivity|]. split; [|split].
    + split; cbn; try (apply I). split; [|auto]. right. exists i. auto.
    + destruct r as [|p r]; cbn in *; [contradiction|]. destruct T as [-> T]. auto.
    + cbn. symmetry. apply app_nil_r.
Qed.

(** The end of an emission. *)
Lemma step_end st r o : inv st -> traced (current st) (stack st) r -> step st EEnd = Some o ->
  (fails st (removed st) /\ o = UB) \/
  (~ fails st (removed st) /\ exists st', o = Ok st' /\ inv st' /\ traced (current st') (stack st') (follow r EEnd) /\
     answers st' = answers st ++ map (fun _ => current st) (filter (fun s => doomed st s && asking st s) (removed st)) /\
     forall i, refs st' i = match nth_error (slots st) i with
       | Some x => if existsb (Nat.eqb i) (removed st) && negb (s_connected x) then s_refs x - 1 else s_refs x | None => 0 end).
Proof.
  intros I T H. cbn [step] in H. unfold removed, outermost. destruct (stack st) as [|[g saved [i|]] k] eqn:Ek; try discriminate. cbn [f_sig].
  inversion H; subst o; clear H. change (existsb (fun h => f_sig h =? g) k) with (emitting k g).
  pose proof (i_chain _ I) as Ch. rewrite Ek in Ch. cbn in Ch. destruct Ch as [_ [Ch1 Ch2]].
  destruct r as [|p r]; cbn in T; [contradiction|]. destruct T as [Ep T].
  destruct (emitting k g) eqn:Em.
  - right. split.
    + intros [c [a [x [b [_ [Z _]]]]]]. destruct a; discriminate.
    + eexists. split; [reflexivity|]. split; [|split; [|split]].
      * split; cbn; try (apply I). exact Ch1.
      * exact T.
      * cbn. symmetry. apply app_nil_r.
      * intros i. unfold refs. cbn. destruct (nth_error (slots st) i); reflexivity.
  - set (st1 := set_stack st k (current st)).
    destruct (Nat.lt_ge_cases g (length (lists st))) as [G|G].
    + destruct (cleanup_spec g (nth g (lists st) []) st1 G (i_nodup _ I g)) as [[F U]|[F [st' [E C]]]].
      * intros s J. exact (i_live _ I _ _ J).
      * left. change (lists st1) with (lists st). rewrite U. split; [exact F|reflexivity].
      * right. change (lists st1) with (lists st). rewrite E. split; [exact F|]. cbn [obind].
        destruct C as [C1 C2 C2' C3 C4 C5 C6]. eexists. split; [reflexivity|].
        assert (Rk : forall h s, In s (nth h (lists st') []) -> 0 < refs st' s).
        { intros h s J. apply C3 in J as [J M]. change (lists st1) with (lists st) in J. pose proof (i_live _ I _ _ J) as L. rewrite C5.
          change (slots st1) with (slots st) in *. unfold refs in L. destruct (nth_error (slots st) s) as [x|] eqn:Ex; [|lia].
          destruct (existsb (Nat.eqb s) (nth g (lists st) [])) eqn:B; [|cbn; exact L].
          apply existsb_in in B. destruct (M (i_one _ I _ _ _ J B) B) as [y [Ey Cy]]. assert (x = y) by congruence. subst y. rewrite Cy. cbn. exact L. }
        split; [|split; [|split]].
        -- split; cbn.
           ++ exact Rk.
           ++ apply C4. exact (i_nodup _ I).
           ++ intros h h' s A B. apply C3 in A as [A _]. apply C3 in B as [B _]. exact (i_one _ I _ _ _ A B).
           ++ rewrite C1. change (stack st1) with k. apply (chain_grow (lists st)); [|exact Ch1].
              intros h s Eh J. apply C3. split; [exact J|]. intros ->. congruence.
        -- cbn. rewrite C1. exact T.
        -- cbn. rewrite C6. reflexivity.
        -- intros i. cbn. exact (C5 i).
    + change (lists st1) with (lists st). rewrite nth_overflow by exact G. right. split.
      * intros [c [a [x [b [_ [Z _]]]]]]. destruct a; discriminate.
      * eexists. split; [reflexivity|]. split; [|split; [|split]].
        -- split; cbn; try (apply I). exact Ch1.
        -- exact T.
        -- cbn. symmetry. apply app_nil_r.
        -- intros i. unfold refs. cbn. destruct (nth_error (slots st) i); reflexivity.
Qed.

(** An exception: the slot gets a reference and returns, and the emission ends. *)
Definition thrown (st : state) (g : nat) (saved : option nat) (k : list frame) (s : nat) (x : slot) : state :=
  set_stack (set_slots st (upd (slots st) s (mkslot (S (s_refs x)) (s_connected x) (s_asks x)))) (mkframe g saved None :: k) (current st).

Lemma throw_is_end st o : step st EThrow = Some o -> exists g saved s k x, stack st = mkframe g saved (Some s) :: k /\
  nth_error (slots st) s = Some x /\ step (thrown st g saved k s x) EEnd = Some o.
Proof.
  cbn [step]. destruct (stack st) as [|[g saved [s|]] k]; try discriminate. destruct (nth_error (slots st) s) as [x|] eqn:E; [|discriminate].
  intros H. exists g, saved, s, k, x. repeat split; auto.
Qed.

Lemma thrown_inv st r g saved s k x : inv st -> traced (current st) (stack st) r -> stack st = mkframe g saved (Some s) :: k ->
  nth_error (slots st) s = Some x ->
  inv (thrown st g saved k s x) /\ traced (current st) (mkframe g saved None :: k) (follow r EReturn) /\ current st = Some s /\
  In s (nth g (lists st) []) /\
  forall i, refs (thrown st g saved k s x) i = if s =? i then S (refs st s) else refs st i.
Proof.
  intros I T Ek Ex. pose proof (i_chain _ I) as Ch. rewrite Ek in Ch, T. cbn in Ch. destruct Ch as [[Ch Ch0] [Ch1 Ch2]].
  assert (R : forall i, refs (thrown st g saved k s x) i = if s =? i then S (refs st s) else refs st i).
  { intros i. unfold thrown, set_stack, set_slots. cbn [slots lists stack current answers]. rewrite refs_upd by congruence.
    destruct (s =? i); [|reflexivity]. unfold refs. rewrite Ex. reflexivity. }
  split; [|split; [|split; [exact Ch|split; [exact Ch0|exact R]]]].
  - split; try (apply I).
    + intros h i J. rewrite R. destruct (s =? i); [lia|]. exact (i_live _ I _ _ J).
    + cbn. split; [|auto]. right. exists s. auto.
  - destruct r as [|p r]; cbn in *; [contradiction|]. destruct T as [-> T]. auto.
Qed.

Lemma step_throw st r o : inv st -> traced (current st) (stack st) r -> step st EThrow = Some o ->
  exists st' c, o = Ok st' /\ inv st' /\ traced (current st') (stack st') (follow r EThrow) /\ being r = Some c /\
     answers st' = answers st ++ map (fun _ => Some c) (filter (fun s => negb (s =? c) && (doomed st s && asking st s)) (removed st)) /\
     0 < refs st' c /\
     forall i, i <> c -> refs st' i = match nth_error (slots st) i with
       | Some x => if existsb (Nat.eqb i) (removed st) && negb (s_connected x) then s_refs x - 1 else s_refs x | None => 0 end.
Proof.
  intros I T H. destruct (throw_is_end _ _ H) as (g & saved & s & k & x & Ek & Ex & H1).
  destruct (thrown_inv st r g saved s k x I T Ek Ex) as (I1 & T1 & Ec & Hin & R). set (st1 := thrown st g saved k s x) in *.
  assert (L : 0 < refs st s) by (exact (i_live _ I _ _ Hin)).
  assert (Es : refs st s = s_refs x) by (unfold refs; rewrite Ex; reflexivity).
  assert (Ds : doomed st1 s = false).
  { unfold doomed, st1, thrown. cbn. rewrite nth_err_upd, Nat.eqb_refl, Ex. cbn. destruct (s_refs x); [lia|]. apply andb_false_r. }
  assert (N : forall i, i <> s -> nth_error (slots st1) i = nth_error (slots st) i).
  { intros i Hi. unfold st1, thrown. cbn. rewrite nth_err_upd. destruct (Nat.eqb_spec s i); [congruence|reflexivity]. }
  assert (Rm : removed st1 = removed st).
  { unfold removed, outermost. rewrite Ek. reflexivity. }
  assert (B : being r = Some s).
  { rewrite Ek in T. destruct r as [|p r]; cbn in *; [contradiction|]. destruct T as [-> _]. reflexivity. }
  destruct (step_end st1 (follow r EReturn) o I1 T1 H1) as [[F _]|[_ (st' & E & I' & T' & A & G)]].
  - exfalso. destruct F as (c & a & y & b & E1 & E2 & D & _ & D'). change (current st1) with (current st) in E1. rewrite Ec in E1.
    injection E1 as <-. destruct D' as [D'|[_ D']]; [rewrite R, Nat.eqb_refl in D'; lia|congruence].
  - exists st', s. split; [exact E|]. split; [exact I'|]. split; [|split; [exact B|split; [|split]]].
    + destruct r as [|p r]; [cbn in B; discriminate|]. exact T'.
    + rewrite A, Rm. change (answers st1) with (answers st). change (current st1) with (current st). rewrite Ec. f_equal. f_equal.
      apply filter_ext. intros i. destruct (Nat.eqb_spec i s) as [->|Hi]; [rewrite Ds; reflexivity|]. cbn [negb andb].
      unfold doomed, asking. rewrite (N i Hi). reflexivity.
    + rewrite G, Rm. unfold st1, thrown. cbn. rewrite nth_err_upd, Nat.eqb_refl, Ex. cbn.
      destruct (existsb _ _ && _); lia.
    + intros i Hi. rewrite G, Rm, (N i Hi). reflexivity.
Qed.
