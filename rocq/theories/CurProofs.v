From Coq Require Import List Arith Bool Lia.
From Verif Require Import Base CurModel CurSpec.
Import ListNotations.

Lemma nth_err_upd {A} (l : list A) i v j :
  nth_error (upd l i v) j = if (i =? j) then (match nth_error l i with Some _ => Some v | None => None end) else nth_error l j.
Proof.
  revert i j. induction l as [|a l IH]; intros [|i] [|j]; cbn; try reflexivity.
  - destruct (i =? j); reflexivity.
  - apply IH.
Qed.
Lemma nth_upd_d {A} (l : list A) i v j d : nth j (upd l i v) d = if (i =? j) && (i <? length l) then v else nth j l d.
Proof.
  revert i j. induction l as [|a l IH]; intros [|i] [|j]; cbn; try reflexivity.
  - destruct (i =? j); reflexivity.
  - rewrite IH. reflexivity.
Qed.
Lemma in_upd_list (l : list (list nat)) g v h (s : nat) : In s (nth h (upd l g v) []) -> (h = g /\ In s v) \/ (h <> g /\ In s (nth h l [])) \/ In s (nth h l []).
Proof.
  rewrite nth_upd_d. destruct ((g =? h) && (g <? length l)) eqn:E; [|right; right; assumption].
  apply andb_prop in E as [E _]. apply Nat.eqb_eq in E. subst. left. split; [reflexivity|assumption].
Qed.

Lemma existsb_in s l : existsb (Nat.eqb s) l = true <-> In s l.
Proof.
  rewrite existsb_exists. split.
  - intros [y [I E]]. apply Nat.eqb_eq in E. subst. exact I.
  - intros I. exists s. rewrite Nat.eqb_refl. split; [exact I|reflexivity].
Qed.

Lemma home_some st s g : home st s = Some g -> In s (nth g (lists st) []) /\ g < length (lists st).
Proof.
  intros E. apply find_some in E as [I E]. apply in_seq in I. apply existsb_in in E. split; [exact E|lia].
Qed.
Lemma home_none st s g : home st s = None -> ~ In s (nth g (lists st) []).
Proof.
  intros E I. destruct (Nat.lt_ge_cases g (length (lists st))) as [L|L].
  - assert (J : In g (seq 0 (length (lists st)))) by (apply in_seq; lia).
    pose proof (find_none _ _ E g J) as F. cbv beta in F. apply existsb_in in I. congruence.
  - rewrite nth_overflow in I by exact L. exact I.
Qed.

Definition lst (st : state) g := nth g (lists st) [].

(** The chain of emissions; [cur]: the current slot. *)
Fixpoint chain (ls : list (list nat)) (cur : option nat) (k : list frame) : Prop :=
  match k with
  | [] => cur = None
  | f :: k' =>
      (match f_in f with
       | Some s => cur = Some s /\ In s (nth (f_sig f) ls [])
       | None => cur = f_saved f \/ exists c, cur = Some c /\ In c (nth (f_sig f) ls [])
       end) /\
      chain ls (f_saved f) k' /\
      match k' with [] => True | f' :: _ => f_in f' <> None end
  end.

Record inv (st : state) : Prop := mkinv {
  i_live : forall g s, In s (nth g (lists st) []) -> 0 < refs st s;
  i_nodup : forall g, NoDup (nth g (lists st) []);
  i_one : forall g h s, In s (nth g (lists st) []) -> In s (nth h (lists st) []) -> g = h;
  i_chain : chain (lists st) (current st) (stack st) }.

Fixpoint traced (cur : option nat) (k : list frame) (r : list (option nat * option nat)) : Prop :=
  match k, r with
  | [], [] => True
  | f :: k', p :: r' => p = (f_in f, cur) /\ traced (f_saved f) k' r'
  | _, _ => False
  end.

Lemma emitting_in k f : In f k -> emitting k (f_sig f) = true.
Proof. intros I. apply existsb_exists. exists f. rewrite Nat.eqb_refl. auto. Qed.

(** The current slot is in the list of a signal that emits. *)
Lemma chain_listed ls cur k c : chain ls cur k -> cur = Some c -> exists f, In f k /\ In c (nth (f_sig f) ls []).
Proof.
  revert cur. induction k as [|f k IH]; intros cur H E; cbn in H; [congruence|].
  destruct H as [H [H1 _]].
  assert (X : In c (nth (f_sig f) ls []) \/ f_saved f = Some c).
  { destruct (f_in f).
    - destruct H as [H I]. left. congruence.
    - destruct H as [H|[d [H I]]]; [right; congruence|left; congruence]. }
  destruct X as [X|X].
  - exists f. split; [left; reflexivity|exact X].
  - destruct (IH _ H1 X) as [f' [I J]]. exists f'. split; [right; exact I|exact J].
Qed.
(** The lists of signals that emit are all that counts. *)
Lemma chain_grow ls ls' cur k :
  (forall g s, emitting k g = true -> In s (nth g ls []) -> In s (nth g ls' [])) -> chain ls cur k -> chain ls' cur k.
Proof.
  revert cur. induction k as [|f k IH]; intros cur G H; cbn [chain] in *; [exact H|].
  destruct H as [H [H1 H2]]. split; [|split; [|exact H2]].
  - assert (E : emitting (f :: k) (f_sig f) = true) by (apply emitting_in; left; reflexivity).
    destruct (f_in f).
    + destruct H as [H I]. split; [exact H|]. exact (G _ _ E I).
    + destruct H as [H|[c [H I]]]; [left; exact H|right; exists c; split; [exact H|exact (G _ _ E I)]].
  - apply IH; [|exact H1]. intros g s E. apply G. unfold emitting in *. cbn [existsb]. rewrite E. apply orb_true_r.
Qed.

Lemma current_live st c : inv st -> current st = Some c -> 0 < refs st c.
Proof.
  intros I E. destruct (chain_listed _ _ _ _ (i_chain _ I) E) as [f [_ J]]. exact (i_live _ I _ _ J).
Qed.

Lemma ask_live st : (forall c, current st = Some c -> 0 < refs st c) ->
  ask st = Ok (mkstate (slots st) (lists st) (stack st) (current st) (answers st ++ [current st])).
Proof.
  intros H. unfold ask. destruct (current st) as [c|]; [|reflexivity].
  specialize (H c eq_refl). destruct (refs st c =? 0) eqn:E; [apply Nat.eqb_eq in E; lia|reflexivity].
Qed.

Lemma refs_upd sl ls k cu an s x i :
  nth_error sl s <> None -> refs (mkstate (upd sl s x) ls k cu an) i = if s =? i then s_refs x else refs (mkstate sl ls k cu an) i.
Proof.
  intros N. unfold refs. cbn. rewrite nth_err_upd. destruct (s =? i); [|reflexivity].
  destruct (nth_error sl s); [reflexivity|congruence].
Qed.
Lemma refs_slots a b : slots a = slots b -> forall i, refs a i = refs b i.
Proof. intros E i. unfold refs. rewrite E. reflexivity. Qed.

(** A slot let go of that is not the current one, or is but is held by others. *)
Lemma release_ok st s : 0 < refs st s ->
  (forall c, current st = Some c -> (if s =? c then 1 else 0) < refs st c) ->
  exists st', release st s = Ok st' /\ lists st' = lists st /\ stack st' = stack st /\ current st' = current st /\
    (forall i, refs st' i = if s =? i then refs st s - 1 else refs st i) /\
    (forall i x, nth_error (slots st) i = Some x -> i <> s -> nth_error (slots st') i = Some x) /\
    answers st' = answers st ++ (if (refs st s =? 1) && asking st s then [current st] else []).
Proof.
  intros L H.
  destruct (nth_error (slots st) s) as [x|] eqn:E; [|unfold refs in L; rewrite E in L; lia].
  assert (Es : refs st s = s_refs x) by (unfold refs; rewrite E; reflexivity).
  unfold release, asking. rewrite E. rewrite Es in *.
  destruct (s_refs x) as [|n] eqn:En; [lia|].
  set (st1 := set_slots st (upd (slots st) s (mkslot n (s_connected x) (s_asks x)))).
  assert (R : forall i, refs st1 i = if s =? i then n else refs st i).
  { intros i. unfold st1, set_slots. rewrite refs_upd by (rewrite E; discriminate). reflexivity. }
  assert (K : forall i y, nth_error (slots st) i = Some y -> i <> s -> nth_error (slots st1) i = Some y).
  { intros i y Ey N. unfold st1. cbn. rewrite nth_err_upd. destruct (s =? i) eqn:Q; [apply Nat.eqb_eq in Q; congruence|exact Ey]. }
  replace (S n =? 1) with (n =? 0) by reflexivity.
  replace (S n - 1) with n by lia.
  destruct ((n =? 0) && s_asks x) eqn:Q.
  - rewrite ask_live.
    + eexists. split; [reflexivity|]. repeat split; try reflexivity; [|exact K].
      intros i. rewrite <- (R i). unfold refs. reflexivity.
    + intros c Ec. rewrite R. cbn in Ec. specialize (H c Ec). destruct (s =? c) eqn:W; [|exact H].
      apply Nat.eqb_eq in W. subst c. lia.
  - exists st1. split; [reflexivity|]. repeat split; try reflexivity; [exact R|exact K|]. cbn. symmetry. apply app_nil_r.
Qed.
Lemma release_dead st s c : nth_error (slots st) s <> None -> refs st s = 1 -> asking st s = true -> current st = Some c -> (c = s \/ refs st c = 0) ->
  release st s = UB.
Proof.
  intros N L A Ec D. unfold release, refs, asking in *.
  destruct (nth_error (slots st) s) as [x|] eqn:E; [|congruence]. rewrite L, A. cbn [Nat.eqb andb].
  unfold ask. cbn [current set_slots]. rewrite Ec.
  assert (R : refs (set_slots st (upd (slots st) s (mkslot 0 (s_connected x) true))) c = 0).
  { unfold set_slots. rewrite refs_upd by (rewrite E; discriminate). cbn. destruct (s =? c) eqn:W; [reflexivity|].
    destruct D as [D|D]; [subst; rewrite Nat.eqb_refl in W; discriminate|exact D]. }
  rewrite R. reflexivity.
Qed.
(** Functions that do not ask are destroyed whatever the current slot is. *)
Lemma release_still st s : 0 < refs st s -> refs st s <> 1 \/ asking st s = false ->
  exists st', release st s = Ok st' /\ lists st' = lists st /\ stack st' = stack st /\ current st' = current st /\
    (forall i, refs st' i = if s =? i then refs st s - 1 else refs st i) /\
    (forall i x, nth_error (slots st) i = Some x -> i <> s -> nth_error (slots st') i = Some x) /\
    answers st' = answers st.
Proof.
  intros L H.
  destruct (nth_error (slots st) s) as [x|] eqn:E; [|unfold refs in L; rewrite E in L; lia].
  assert (Es : refs st s = s_refs x) by (unfold refs; rewrite E; reflexivity).
  unfold release, asking in *. rewrite E in *. rewrite Es in *.
  destruct (s_refs x) as [|n] eqn:En; [lia|].
  replace ((n =? 0) && s_asks x) with false.
  - eexists. split; [reflexivity|]. repeat split; try reflexivity.
    + intros i. unfold set_slots. rewrite refs_upd by (rewrite E; discriminate). destruct (s =? i); [cbn; lia|reflexivity].
    + intros i y Ey Ne. cbn. rewrite nth_err_upd. destruct (s =? i) eqn:Q; [apply Nat.eqb_eq in Q; congruence|exact Ey].
  - destruct H as [H|H]; [destruct n; [lia|reflexivity]|rewrite H; symmetry; apply andb_false_r].
Qed.

Lemma unlink_keep g s st : slots (unlink g s st) = slots st /\ stack (unlink g s st) = stack st /\ current (unlink g s st) = current st /\ answers (unlink g s st) = answers st.
Proof. repeat split. Qed.
Lemma unlink_list g s st h : g < length (lists st) ->
  nth h (lists (unlink g s st)) [] = if g =? h then filter (fun k => negb (k =? s)) (nth g (lists st) []) else nth h (lists st) [].
Proof.
  intros L. cbn. rewrite nth_upd_d. replace (g <? length (lists st)) with true by (symmetry; apply Nat.ltb_lt; exact L).
  rewrite andb_true_r. reflexivity.
Qed.

Definition fails (st : state) (l : list nat) : Prop :=
  exists c a x b, current st = Some c /\ l = a ++ x :: b /\ doomed st x = true /\ asking st x = true /\
    (refs st c = 0 \/ (In c (a ++ [x]) /\ doomed st c = true)).

Lemma doomed_refs st s : doomed st s = true -> refs st s = 1 /\ exists x, nth_error (slots st) s = Some x /\ s_connected x = false.
Proof.
  unfold doomed, refs. destruct (nth_error (slots st) s) as [x|]; [|discriminate]. intros H. apply andb_prop in H as [H1 H2].
  apply Nat.eqb_eq in H2. split; [exact H2|]. exists x. split; [reflexivity|]. destruct (s_connected x); [discriminate|reflexivity].
Qed.

Lemma doomed_same st st' i x : nth_error (slots st) i = Some x -> nth_error (slots st') i = Some x -> doomed st' i = doomed st i /\ asking st' i = asking st i /\ refs st' i = refs st i.
Proof. intros A B. unfold doomed, asking, refs. rewrite A, B. auto. Qed.

(** What the end of the outermost emission does. *)
Record cleaned (g : nat) (l : list nat) (st st' : state) : Prop := mkcleaned {
  c_stack : stack st' = stack st;
  c_current : current st' = current st;
  c_len : length (lists st') = length (lists st);
  c_lists : forall h s, In s (nth h (lists st') []) <->
     In s (nth h (lists st) []) /\ (h = g -> In s l -> exists x, nth_error (slots st) s = Some x /\ s_connected x = true);
  c_nodup : (forall h, NoDup (nth h (lists st) [])) -> forall h, NoDup (nth h (lists st') []);
  c_refs : forall i, refs st' i = match nth_error (slots st) i with
     | Some x => if existsb (Nat.eqb i) l && negb (s_connected x) then s_refs x - 1 else s_refs x | None => 0 end;
  c_answers : answers st' = answers st ++ map (fun _ => current st) (filter (fun s => doomed st s && asking st s) l) }.

Lemma fails_connected st s l : (exists x, nth_error (slots st) s = Some x /\ s_connected x = true) -> (fails st (s :: l) <-> fails st l).
Proof.
  intros [y [Ey Cy]]. assert (N : doomed st s = false) by (unfold doomed; rewrite Ey, Cy; reflexivity).
  split.
  - intros [c [a [x [b [H1 [H2 [H3 [H4 H5]]]]]]]]. destruct a as [|z a]; cbn in H2; inversion H2; subst; [congruence|].
    exists c, a, x, b. repeat split; auto. destruct H5 as [H5|[H5 H6]]; [left; exact H5|]. right. split; [|exact H6].
    destruct H5 as [H5|H5]; [subst; congruence|exact H5].
  - intros [c [a [x [b [H1 [H2 [H3 [H4 H5]]]]]]]]. exists c, (s :: a), x, b. subst. repeat split; auto.
    destruct H5 as [H5|[H5 H6]]; [left; exact H5|]. right. split; [right; exact H5|exact H6].
Qed.

Definition worse (st : state) (s : nat) : Prop :=
  doomed st s = true /\ asking st s = true /\ exists c, current st = Some c /\ (c = s \/ refs st c = 0).
Lemma worse_dec st s : {worse st s} + {~ worse st s}.
Proof.
  unfold worse. destruct (doomed st s); [|right; intros [H _]; discriminate].
  destruct (asking st s); [|right; intros [_ [H _]]; discriminate].
  destruct (current st) as [c|]; [|right; intros [_ [_ [c [H _]]]]; discriminate].
  destruct (Nat.eq_dec c s) as [E|E]; [left; repeat split; exists c; auto|].
  destruct (Nat.eq_dec (refs st c) 0) as [Z|Z]; [left; repeat split; exists c; auto|].
  right. intros [_ [_ [d [H [D|D]]]]]; congruence.
Qed.

Lemma fails_cons st st' s l : ~ In s l -> 0 < refs st s ->
  (exists x, nth_error (slots st) s = Some x /\ s_connected x = false) ->
  current st' = current st -> (forall i, refs st' i = if s =? i then refs st s - 1 else refs st i) ->
  (forall i x, nth_error (slots st) i = Some x -> i <> s -> nth_error (slots st') i = Some x) ->
  (forall i, In i l -> exists x, nth_error (slots st) i = Some x) ->
  ~ worse st s -> (fails st (s :: l) <-> fails st' l).
Proof.
  intros N L [y [Ey Cy]] Ec R K X W.
  assert (SM : forall i, In i l -> doomed st' i = doomed st i /\ asking st' i = asking st i).
  { intros i I. destruct (X i I) as [x Ex]. assert (i <> s) by congruence.
    destruct (doomed_same st st' i x Ex (K _ _ Ex H)) as [A [B _]]. auto. }
  assert (Ds : doomed st s = (refs st s =? 1)) by (unfold doomed, refs; rewrite Ey, Cy; reflexivity).
  split.
  - intros [c [a [x [b [H1 [H2 [H3 [H4 H5]]]]]]]]. destruct a as [|z a]; cbn in H2; inversion H2; subst.
    + exfalso. apply W. split; [exact H3|]. split; [exact H4|]. exists c. split; [exact H1|].
      destruct H5 as [H5|[[H5|[]] _]]; auto.
    + assert (Ix : In x (a ++ x :: b)) by (apply in_or_app; right; left; reflexivity).
      destruct (SM _ Ix) as [Sx Tx].
      exists c, a, x, b. rewrite Ec, Sx, Tx. repeat split; auto.
      destruct H5 as [H5|[[H5|H5] H6]].
      * left. rewrite R. destruct (z =? c) eqn:Q; [apply Nat.eqb_eq in Q; subst; lia|exact H5].
      * subst. left. rewrite R, Nat.eqb_refl. rewrite Ds in H6. apply Nat.eqb_eq in H6. lia.
      * right. split; [exact H5|]. assert (Ic : In c (a ++ x :: b)).
        { apply in_app_or in H5 as [H5|[H5|[]]]; apply in_or_app; [left; exact H5|right; left; exact H5]. }
        destruct (SM _ Ic) as [Sc _]. rewrite Sc. exact H6.
  - intros [c [a [x [b [H1 [H2 [H3 [H4 H5]]]]]]]]. subst l.
    assert (Ix : In x (a ++ x :: b)) by (apply in_or_app; right; left; reflexivity).
    destruct (SM _ Ix) as [Sx Tx]. exists c, (s :: a), x, b. rewrite <- Ec, <- Sx, <- Tx. repeat split; auto.
    destruct H5 as [H5|[H5 H6]].
    + rewrite R in H5. destruct (s =? c) eqn:Q; [|left; exact H5]. apply Nat.eqb_eq in Q. subst c. right. split; [left; reflexivity|].
      rewrite Ds. apply Nat.eqb_eq. lia.
    + right. split; [right; exact H5|]. assert (Ic : In c (a ++ x :: b)).
      { apply in_app_or in H5 as [H5|[H5|[]]]; apply in_or_app; [left; exact H5|right; left; exact H5]. }
      destruct (SM _ Ic) as [Sc _]. rewrite <- Sc. exact H6.
Qed.

(** Letting go of a slot that is disconnected and off its list. *)
Lemma release_any st s : 0 < refs st s -> (exists x, nth_error (slots st) s = Some x /\ s_connected x = false) -> ~ worse st s ->
  exists st', release st s = Ok st' /\ lists st' = lists st /\ stack st' = stack st /\ current st' = current st /\
    (forall i, refs st' i = if s =? i then refs st s - 1 else refs st i) /\
    (forall i x, nth_error (slots st) i = Some x -> i <> s -> nth_error (slots st') i = Some x) /\
    answers st' = answers st ++ (if doomed st s && asking st s then [current st] else []).
Proof.
  intros L [y [Ey Cy]] W.
  assert (Ds : doomed st s = (refs st s =? 1)) by (unfold doomed, refs; rewrite Ey, Cy; reflexivity).
  destruct (doomed st s && asking st s) eqn:D.
  - apply andb_prop in D as [D A]. destruct (release_ok st s L) as [st' H].
    + intros c Ec. assert (N : c <> s /\ refs st c <> 0).
      { split; intro Z; apply W; split; auto; split; auto; exists c; auto. }
      destruct N as [N1 N2]. destruct (s =? c) eqn:Q; [apply Nat.eqb_eq in Q; congruence|lia].
    + exists st'. rewrite <- Ds, D, A in H. exact H.
  - destruct (release_still st s L) as [st' [H1 [H2 [H3 [H4 [H5 [H6 H7]]]]]]].
    + rewrite Ds in D. apply andb_false_iff in D as [D|D]; [left; apply Nat.eqb_neq; exact D|right; exact D].
    + exists st'. rewrite app_nil_r. auto 10.
Qed.

Lemma refs_some st s : 0 < refs st s -> exists x, nth_error (slots st) s = Some x.
Proof. unfold refs. destruct (nth_error (slots st) s); [eauto|lia]. Qed.

Lemma filter_nodup {A} (f : A -> bool) l : NoDup l -> NoDup (filter f l).
Proof. apply NoDup_filter. Qed.

Lemma cleanup_spec g l : forall st, g < length (lists st) -> NoDup l -> (forall s, In s l -> 0 < refs st s) ->
  (fails st l /\ cleanup g l st = UB) \/ (~ fails st l /\ exists st', cleanup g l st = Ok st' /\ cleaned g l st st').
Proof.
  induction l as [|s l IH]; intros st G N L.
  - right. split.
    + intros [c [a [x [b [_ [H _]]]]]]. destruct a; discriminate.
    + exists st. split; [reflexivity|]. split; try reflexivity; auto.
      * intros h s. split; [intros H; split; [exact H|intros _ []]|intros [H _]; exact H].
      * cbn. symmetry. apply app_nil_r.
  - inversion N as [|? ? Ns Nl]; subst.
    destruct (refs_some _ _ (L s (or_introl eq_refl))) as [x Ex].
    cbn [cleanup]. rewrite Ex. destruct (s_connected x) eqn:C.
    + destruct (IH st G Nl (fun i I => L i (or_intror I))) as [[F U]|[F [st' [E H]]]].
      * left. split; [|exact U]. apply fails_connected; [exists x; auto|exact F].
      * right. split; [intros F'; apply F; apply fails_connected in F'; [exact F'|exists x; auto]|].
        exists st'. split; [exact E|]. destruct H as [H1 H2 H2' H3 H4 H5 H6]. split; auto.
        -- intros h i. rewrite H3. split; intros [I J]; (split; [exact I|]).
           ++ intros Eh [Ei|Ii]; [subst; exists x; auto|apply J; auto].
           ++ intros Eh Ii. apply J; [exact Eh|right; exact Ii].
        -- intros i. rewrite H5. cbn [existsb]. destruct (Nat.eqb i s) eqn:Q; [|reflexivity].
           apply Nat.eqb_eq in Q. subst i. rewrite Ex, C. cbn. rewrite andb_false_r. reflexivity.
        -- rewrite H6. cbn [filter]. unfold doomed at 2. rewrite Ex, C. reflexivity.
    + set (st1 := unlink g s st).
      assert (X1 : exists y, nth_error (slots st1) s = Some y /\ s_connected y = false) by (exists x; auto).
      destruct (worse_dec st1 s) as [W|W].
      * left. destruct W as [D [A [c [Ec Hc]]]]. split.
        -- exists c, [], s, l. repeat split; auto. destruct Hc as [Hc|Hc]; [subst; right; split; [left; reflexivity|exact D]|left; exact Hc].
        -- destruct (doomed_refs _ _ D) as [R1 _].
           rewrite (release_dead st1 s c); auto. destruct X1 as [y [Ey _]]. rewrite Ey. discriminate.
      * destruct (release_any st1 s (L s (or_introl eq_refl)) X1 W) as [st2 [E2 [Hl [Hk [Hc [Hr [Hs Ha]]]]]]].
        rewrite E2. cbn [obind].
        assert (F : fails st (s :: l) <-> fails st2 l).
        { apply (fails_cons st st2 s l); auto.
          - exact (L s (or_introl eq_refl)).
          - intros i I. apply refs_some. apply L. right. exact I. }
        assert (Len : length (lists st2) = length (lists st)) by (rewrite Hl; cbn; apply length_upd).
        assert (L2 : forall i, In i l -> 0 < refs st2 i).
        { intros i I. rewrite Hr. destruct (s =? i) eqn:Q; [apply Nat.eqb_eq in Q; congruence|]. apply L. right. exact I. }
        assert (G2 : g < length (lists st2)) by (rewrite Len; exact G).
        assert (Li : forall h i, In i (nth h (lists st2) []) <-> In i (nth h (lists st) []) /\ (h = g -> i <> s)).
        { intros h i. rewrite Hl. unfold st1. rewrite unlink_list by exact G. destruct (g =? h) eqn:Q.
          - apply Nat.eqb_eq in Q. subst h. rewrite filter_In. rewrite negb_true_iff, Nat.eqb_neq. tauto.
          - apply Nat.eqb_neq in Q. split; [intros I; split; [exact I|congruence]|tauto]. }
        destruct (IH st2 G2 Nl L2) as [[F2 U]|[F2 [st' [E H]]]]; [left; tauto|right]. split; [tauto|].
        exists st'. split; [exact E|]. destruct H as [H1 H2 H2' H3 H4 H5 H6]. split.
        -- rewrite H1, Hk. reflexivity.
        -- rewrite H2, Hc. reflexivity.
        -- rewrite H2', Len. reflexivity.
        -- intros h i. rewrite H3, Li. split.
           ++ intros [[I J] M]. split; [exact I|]. intros Eh [Ei|Ii]; [exfalso; exact (J Eh (eq_sym Ei))|].
              destruct (M Eh Ii) as [y [Ey Cy]]. destruct (refs_some _ _ (L i (or_intror Ii))) as [z Ez].
              assert (i <> s) by (intro; subst; auto). pose proof (Hs i z Ez H). exists z. split; [exact Ez|]. congruence.
           ++ intros [I M]. assert (Z : h = g -> i <> s).
              { intros Eh Ei. subst. destruct (M eq_refl (or_introl eq_refl)) as [y [Ey Cy]]. congruence. }
              split; [split; [exact I|exact Z]|]. intros Eh Ii. destruct (M Eh (or_intror Ii)) as [y [Ey Cy]].
              exists y. split; [|exact Cy]. apply Hs; [exact Ey|exact (Z Eh)].
        -- intros ND. apply H4. intros h. rewrite Hl. unfold st1. rewrite unlink_list by exact G.
           destruct (g =? h); [apply filter_nodup|]; apply ND.
        -- intros i. rewrite H5. cbn [existsb]. destruct (Nat.eqb i s) eqn:Q.
           ++ apply Nat.eqb_eq in Q. subst i. rewrite Ex, C. cbn.
              assert (Z : existsb (Nat.eqb s) l = false).
              { destruct (existsb (Nat.eqb s) l) eqn:B; [apply existsb_in in B; contradiction|reflexivity]. }
              rewrite Z. specialize (Hr s). rewrite Nat.eqb_refl in Hr. unfold refs in Hr. cbn in Hr. rewrite Ex in Hr.
              destruct (nth_error (slots st2) s); cbn; lia.
           ++ cbn [orb]. apply Nat.eqb_neq in Q.
              destruct (nth_error (slots st) i) as [z|] eqn:Ez; [rewrite (Hs i z Ez Q); reflexivity|].
              specialize (Hr i). rewrite (proj2 (Nat.eqb_neq s i)) in Hr by congruence. unfold refs in Hr. cbn in Hr. rewrite Ez in Hr.
              destruct (nth_error (slots st2) i) as [w|]; [|reflexivity]. rewrite Hr. destruct (existsb (Nat.eqb i) l && negb (s_connected w)); reflexivity.
        -- rewrite H6, Ha, Hc. cbn [filter].
           assert (Q : filter (fun i => doomed st2 i && asking st2 i) l = filter (fun i => doomed st i && asking st i) l).
           { apply filter_ext_in. intros i I. destruct (refs_some _ _ (L i (or_intror I))) as [z Ez].
             assert (i <> s) by (intro; subst; auto).
             destruct (doomed_same st st2 i z Ez (Hs i z Ez H)) as [A [B _]]. rewrite A, B. reflexivity. }
           rewrite Q. change (doomed st1 s) with (doomed st s). change (asking st1 s) with (asking st s).
           change (current st1) with (current st). change (answers st1) with (answers st).
           destruct (doomed st s && asking st s); cbn [map app]; rewrite <- app_assoc; reflexivity.
Qed.
