From Coq Require Import List Arith Bool Lia.
From Verif Require Import Base HandModel HandSpec HandSamples HandProofs HandStepProofs HandRunProofs HandAllProofs HandSeenProofs.
Import ListNotations.

Lemma on_more w v g : on (more w v) g <-> on w g.
Proof. reflexivity. Qed.
Lemma on_put w i v g : on (put w i v) g <-> on w g.
Proof. reflexivity. Qed.
Lemma slots_cut n w s : slots (cut n w) s = option_map (filter (fun x => match n with Some g => negb (Nat.eqb g x) | None => true end)) (slots w s).
Proof.
  destruct n as [g|]; cbn [cut].
  - unfold slots. cbn. exact (map_nth (option_map (filter (fun x => negb (Nat.eqb g x)))) (w_sigs w) None s).
  - destruct (slots w s) as [l|]; [|reflexivity]. cbn. f_equal. induction l as [|x l IH]; cbn; [reflexivity | now f_equal].
Qed.
Lemma on_cut n w g : on (cut n w) g <-> on w g /\ n <> Some g.
Proof.
  split.
  - intros (s & l & E & H). rewrite slots_cut in E. destruct (slots w s) as [r|] eqn:Er; [|discriminate]. injection E as <-.
    apply filter_In in H as [H H']. split; [now exists s, r|]. intros ->. now rewrite Nat.eqb_refl in H'.
  - intros [(s & l & E & H) N]. exists s, (filter (fun x => match n with Some g => negb (Nat.eqb g x) | None => true end) l).
    split; [now rewrite slots_cut, E|]. apply filter_In. split; [exact H|]. destruct n as [x|]; [|reflexivity].
    destruct (Nat.eqb_spec x g) as [->|_]; [now destruct N | reflexivity].
Qed.
Lemma slots_upd w s v t : slots (sigs w (upd (w_sigs w) s v)) t = if Nat.eqb s t && Nat.ltb s (length (w_sigs w)) then v else slots w t.
Proof. unfold slots. cbn [sigs w_sigs]. apply nth_upd. Qed.
Lemma slots_in w s l : slots w s = Some l -> s < length (w_sigs w).
Proof. unfold slots. intros H. destruct (Nat.lt_ge_cases s (length (w_sigs w))); [assumption|]. rewrite nth_overflow in H by assumption. discriminate. Qed.
Definition single (w : world) : Prop := forall s t l r g, slots w s = Some l -> slots w t = Some r -> In g l -> In g r -> s = t.

Lemma slots_app w l t : slots (sigs w (w_sigs w ++ [Some l])) t = if Nat.eqb t (length (w_sigs w)) then Some l else slots w t.
Proof. unfold slots. cbn [sigs w_sigs]. apply nth_app_one. Qed.
Lemma on_emptied w s g v : single w -> (v = None \/ v = Some []) ->
  on (sigs w (upd (w_sigs w) s v)) g <-> on w g /\ ~ exists l, slots w s = Some l /\ In g l.
Proof.
  intros U V. split.
  - intros (t & l & E & H). rewrite slots_upd in E. destruct (Nat.eqb_spec s t) as [Q|N]; [subst t|]; cbn [andb] in E.
    + destruct (Nat.ltb_spec s (length (w_sigs w))) as [L|L].
      * destruct V as [-> | ->]; [discriminate | injection E as <-; destruct H].
      * unfold slots in E. rewrite nth_overflow in E by exact L. discriminate.
    + split; [now exists t, l|]. intros (r & Er & Hr). apply N. exact (U s t r l g Er E Hr H).
  - intros [(t & l & E & H) N]. exists t, l. split; [|exact H]. rewrite slots_upd. destruct (Nat.eqb_spec s t) as [Q|_]; [|exact E].
    subst t. exfalso. apply N. now exists l.
Qed.
Theorem on_act w o g : single w -> g < w_calls w -> on (act o w) g <-> on w g /\ ~ cuts w o g.
Proof.
  intros U L. destruct o; cbn [act cuts].
  - (* New_signal *) split.
    + intros (t & l & E & H). rewrite slots_app in E. destruct (Nat.eqb t _); [injection E as <-; destruct H|]. split; [now exists t, l | tauto].
    + intros [(t & l & E & H) _]. exists t, l. split; [|exact H]. rewrite slots_app. apply slots_in in E as E'.
      destruct (Nat.eqb_spec t (length (w_sigs w))); [lia | exact E].
  - (* Connect *) destruct (slots w s) as [l|] eqn:E; [|tauto]. rewrite on_more. pose proof (slots_in w s l E) as Ls. split.
    + intros (t & r & Er & H). split; [|tauto]. unfold slots in Er. cbn [w_sigs] in Er. rewrite nth_upd in Er.
      destruct (Nat.eqb_spec s t) as [Q|N]; [subst t|]; cbn [andb] in Er.
      * apply Nat.ltb_lt in Ls. rewrite Ls in Er. injection Er as <-. exists s, l. split; [exact E|].
        destruct front; [destruct H as [H|H]; [lia | exact H]|]. apply in_app_or in H as [H|[H|[]]]; [exact H | lia].
      * now exists t, r.
    + intros [(t & r & Er & H) _]. destruct (Nat.eqb_spec s t) as [Q|N].
      * subst t. rewrite E in Er. injection Er as <-. exists s, (if front then w_calls w :: l else l ++ [w_calls w]). unfold slots. cbn [w_sigs].
        rewrite nth_upd, Nat.eqb_refl. apply Nat.ltb_lt in Ls. rewrite Ls. split; [reflexivity|]. destruct front; [now right | apply in_or_app; now left].
      * exists t, r. unfold slots. cbn [w_sigs]. rewrite nth_upd. apply Nat.eqb_neq in N. rewrite N. split; [exact Er | exact H].
  - rewrite on_more. tauto.
  - rewrite on_more. tauto.
  - destruct (named w i) as [[[] ?]|]; rewrite ?on_more; tauto.
  - destruct (named w i) as [[? ?]|]; [|tauto]. destruct (named w j) as [[? ?]|]; [|tauto]. destruct (_ && _); rewrite ?on_put; tauto.
  - destruct (named w i) as [[? ?]|]; rewrite ?on_more, ?on_put; tauto.
  - destruct (named w i) as [[? ?]|]; [|tauto]. destruct (named w j) as [[? ?]|]; [|tauto]. destruct (kind_eqb _ _); rewrite ?on_put; tauto.
  - destruct (named w i) as [[? ?]|]; [|tauto]. destruct (named w j) as [[? ?]|]; [|tauto]. destruct (kind_eqb _ _); rewrite ?on_put; tauto.
  - (* Destroy *) destruct (named w i) as [[[] n]|]; rewrite ?on_put, ?on_cut; try (split; [intros H; split; [exact H | discriminate] | tauto]).
    split; intros [H N]; (split; [exact H|]); intros Q; apply N; congruence.
  - (* Disconnect *) destruct (named w i) as [[[] n]|]; rewrite ?on_put, ?on_cut; try (split; [intros H; split; [exact H | discriminate] | tauto]).
    split; intros [H N]; (split; [exact H|]); intros Q; apply N; congruence.
  - destruct (named w i) as [[[] ?]|]; rewrite ?on_more, ?on_put; tauto.
  - destruct (named w i) as [[[] ?]|]; rewrite ?on_more, ?on_put; tauto.
  - destruct (named w i) as [[[] ?]|]; rewrite ?on_more, ?on_put; tauto.
  - destruct (named w i) as [[[] ?]|]; rewrite ?on_more, ?on_put; tauto.
  - (* Disconnect_all *) destruct (slots w s) as [l|] eqn:E; [|split; [intros H; split; [exact H|]; intros (? & Q & _); discriminate | tauto]].
    rewrite on_emptied by (auto). rewrite E. reflexivity.
  - rewrite on_emptied by auto. reflexivity.
  - (* Swap_signals *) destruct (slots w s) as [l|] eqn:E; [|tauto]. destruct (slots w t) as [r|] eqn:E'; [|tauto].
    assert (X : forall u, slots (sigs w (upd (upd (w_sigs w) s (Some r)) t (Some l))) u =
              if Nat.eqb t u then Some l else if Nat.eqb s u then Some r else slots w u).
    { intros u. unfold slots. cbn [sigs w_sigs]. rewrite !nth_upd, length_upd. apply slots_in in E, E'. apply Nat.ltb_lt in E, E'. rewrite E, E', !andb_true_r. reflexivity. }
    split.
    + intros (u & q & Eq & H). split; [|tauto]. rewrite X in Eq. destruct (Nat.eqb t u); [injection Eq as <-; now exists s, l|].
      destruct (Nat.eqb s u); [injection Eq as <-; now exists t, r | now exists u, q].
    + intros [(u & q & Eq & H) _]. destruct (Nat.eqb_spec s u) as [Q|N1]; [|destruct (Nat.eqb_spec t u) as [Q|N2]].
      * subst u. rewrite E in Eq. injection Eq as <-. exists t, l. rewrite X, Nat.eqb_refl. auto.
      * subst u. rewrite E' in Eq. injection Eq as <-. exists s, r. rewrite X, Nat.eqb_refl.
        destruct (Nat.eqb_spec t s) as [Q|_]; [subst t; congruence | auto].
      * exists u, q. rewrite X. apply Nat.eqb_neq in N1, N2. rewrite N1, N2. auto.
  - (* Move_signal *) destruct (slots w s) as [l|] eqn:E; [|tauto]. pose proof (slots_in w s l E) as Ls.
    assert (X : forall u, slots (sigs w (upd (w_sigs w) s (Some []) ++ [Some l])) u =
              if Nat.eqb u (length (w_sigs w)) then Some l else if Nat.eqb s u then Some [] else slots w u).
    { intros u. unfold slots. cbn [sigs w_sigs]. rewrite nth_app_one, nth_upd, length_upd. apply Nat.ltb_lt in Ls. now rewrite Ls, andb_true_r. }
    split.
    + intros (u & q & Eq & H). split; [|tauto]. rewrite X in Eq. destruct (Nat.eqb u _); [injection Eq as <-; now exists s, l|].
      destruct (Nat.eqb s u); [injection Eq as <-; destruct H | now exists u, q].
    + intros [(u & q & Eq & H) _]. destruct (Nat.eqb_spec s u) as [Q|N].
      * subst u. rewrite E in Eq. injection Eq as <-. exists (length (w_sigs w)), l. rewrite X, Nat.eqb_refl. auto.
      * exists u, q. rewrite X. apply slots_in in Eq as Lu. destruct (Nat.eqb_spec u (length (w_sigs w))); [lia|]. apply Nat.eqb_neq in N. rewrite N. auto.
Qed.
Lemma calls_act w o : w_calls w <= w_calls (act o w).
Proof.
  destruct o; cbn [act]; try reflexivity;
    repeat match goal with |- context [match ?x with _ => _ end] => destruct x; cbn [more put sigs w_calls cut]; try lia end;
    try (match goal with |- context [cut ?n w] => destruct n; cbn; lia end); cbn; lia.
Qed.

Lemma good_single st : good st -> single (abs st).
Proof.
  intros I s t l r g El Er Hl Hr. destruct (slots_inv st s l El) as (p & Ep & ->). destruct (slots_inv st t r Er) as (q & Eq & ->).
  apply in_map_iff in Hl as (a & Ea & Ha). apply in_map_iff in Hr as (b & Eb & Hb).
  assert (La := live_on st _ _ _ s p a I Ep Ha). assert (Lb := live_on st _ _ _ t q b I Eq Hb).
  assert (a = b) as <- by (apply (name_inj st a b I La Lb); congruence).
  destruct (st_mem st a) as [c|] eqn:M; [|now destruct La].
  assert (c_sender c = Some s) by (apply (i_sender _ _ _ _ I a c s M (fun H => H)); now exists p).
  assert (c_sender c = Some t) by (apply (i_sender _ _ _ _ I a c t M (fun H => H)); now exists q). congruence.
Qed.
Lemma acts_app os os' w : acts (os ++ os') w = acts os' (acts os w).
Proof. apply fold_left_app. Qed.
Lemma first_free_honest : honest first_free.
Proof.
  intros n m (a & La & E). unfold first_free. destruct (find _ _) as [b|] eqn:F.
  - apply find_some in F as [_ F]. destruct (m b); [discriminate | reflexivity].
  - pose proof (find_none _ _ F a) as X. cbv beta in X. rewrite E in X. discriminate X. apply in_seq. lia.
Qed.
Lemma reached os : exists st, good st /\ abs st = acts os nothing.
Proof. destruct (run_ok first_free os first_free_honest) as (st & _ & I & A). now exists st. Qed.
Lemma reached_single os : single (acts os nothing).
Proof. destruct (reached os) as (st & I & <-). now apply good_single. Qed.
Lemma on_called os g : on (acts os nothing) g -> g < w_calls (acts os nothing).
Proof.
  destruct (reached os) as (st & I & <-). intros H. assert (U : in_use (abs st) g) by now left.
  apply (alive_in_use st g I) in U as (a & c & M & <-). exact (i_calls _ _ _ _ I a c M).
Qed.
Lemma named_called os i k g : named (acts os nothing) i = Some (k, Some g) -> g < w_calls (acts os nothing).
Proof.
  destruct (reached os) as (st & I & <-). intros H. assert (U : in_use (abs st) g) by (right; now exists i, k).
  apply (alive_in_use st g I) in U as (a & c & M & <-). exact (i_calls _ _ _ _ I a c M).
Qed.
Lemma cuts_called os o g : cuts (acts os nothing) o g -> g < w_calls (acts os nothing).
Proof.
  destruct o; cbn [cuts]; try tauto; try exact (named_called os _ _ g); intros (l & E & H); apply on_called; now exists s, l.
Qed.
Theorem connected_until_cut os o g : g < w_calls (acts os nothing) ->
  on (acts (os ++ [o]) nothing) g <-> on (acts os nothing) g /\ ~ cuts (acts os nothing) o g.
Proof. intros L. rewrite acts_app. exact (on_act _ o g (reached_single os) L). Qed.
Lemma calls_acts os w : w_calls w <= w_calls (acts os w).
Proof. revert w. induction os as [|o os IH]; intros w; [reflexivity|]. etransitivity; [apply (calls_act w o) | apply (IH (act o w))]. Qed.
Lemma off_for_good os os' g : g < w_calls (acts os nothing) -> ~ on (acts os nothing) g -> ~ on (acts (os ++ os') nothing) g.
Proof.
  revert os. induction os' as [|o os' IH]; intros os L N; [now rewrite app_nil_r|].
  replace (os ++ o :: os') with ((os ++ [o]) ++ os') by now rewrite <- app_assoc. apply IH.
  - rewrite acts_app. eapply Nat.lt_le_trans; [exact L|]. apply (calls_acts [o]).
  - intros H. apply connected_until_cut in H; tauto.
Qed.
Lemma off_silent st g : good st -> ~ on (abs st) g -> silent st g.
Proof.
  intros I N s. destruct (slots (abs st) s) as [l|] eqn:E.
  - destruct (emit_calls st s l I E) as (f & _ & R). exists (filter f l). split; [exact R|]. intros H. apply filter_In in H as [H _]. apply N. now exists s, l.
  - exists []. split; [|auto]. unfold emit. unfold abs in E. rewrite slots_view in E. now destruct (sig st s).
Qed.
Theorem cut_for_good pick os o os' st g : honest pick -> run pick (os ++ o :: os') start = Ok st -> cuts (acts os nothing) o g -> silent st g.
Proof.
  intros Hp R C. destruct (run_good pick _ st Hp R) as [I A]. apply (off_silent st g I). rewrite A.
  replace (os ++ o :: os') with ((os ++ [o]) ++ os') by now rewrite <- app_assoc. pose proof (cuts_called os o g C) as L. apply off_for_good.
  - rewrite acts_app. eapply Nat.lt_le_trans; [exact L|]. apply (calls_acts [o]).
  - intros H. apply connected_until_cut in H; tauto.
Qed.
Lemma named_in w i v : named w i = Some v -> i < length (w_vars w).
Proof. unfold named. intros H. destruct (Nat.lt_ge_cases i (length (w_vars w))); [assumption|]. rewrite nth_overflow in H by assumption. discriminate. Qed.
Lemma named_put w i v j : named (put w i v) j = if Nat.eqb i j && Nat.ltb i (length (w_vars w)) then v else named w j.
Proof. unfold named. cbn [put w_vars]. apply nth_upd. Qed.
Theorem scoped_replaced pick os i j n os' st g : honest pick ->
  named (acts os nothing) i = Some (Scoped, Some g) -> named (acts os nothing) j = Some (Scoped, n) -> i <> j ->
  run pick (os ++ Move_assign i j :: Destroy j :: os') start = Ok st -> silent st g.
Proof.
  intros Hp Ei Ej N R. replace (os ++ Move_assign i j :: Destroy j :: os') with ((os ++ [Move_assign i j]) ++ Destroy j :: os') in R by now rewrite <- app_assoc.
  apply (cut_for_good pick _ _ _ st g Hp R). rewrite acts_app. cbn [acts fold_left act cuts]. fold (acts os nothing). rewrite Ei, Ej. cbn [kind_eqb].
  rewrite named_put, Nat.eqb_refl. cbn [put w_vars]. rewrite length_upd. apply named_in in Ej. apply Nat.ltb_lt in Ej. now rewrite Ej.
Qed.
Theorem released_stays os i g : on (acts os nothing) g -> named (acts os nothing) i = Some (Scoped, Some g) -> on (acts (os ++ [Release i; Destroy i]) nothing) g.
Proof.
  intros H E. pose proof (on_called os g H) as L. replace (os ++ [Release i; Destroy i]) with ((os ++ [Release i]) ++ [Destroy i]) by now rewrite <- app_assoc.
  apply connected_until_cut.
  - rewrite acts_app. eapply Nat.lt_le_trans; [exact L|]. apply (calls_acts [Release i]).
  - split; [apply connected_until_cut; [exact L | split; [exact H | auto]]|]. rewrite acts_app. cbn [acts fold_left act cuts]. fold (acts os nothing). rewrite E.
    unfold named. cbn [more put w_vars]. rewrite nth_app_one, nth_upd, length_upd, Nat.eqb_refl. apply named_in in E. apply Nat.ltb_lt in E as E'.
    rewrite E'. cbn [andb]. destruct (Nat.eqb_spec i (length (w_vars (acts os nothing)))); [lia | discriminate].
Qed.

Lemma run_app pick os os' st : run pick (os ++ os') st = obind (run pick os st) (run pick os').
Proof. revert st. induction os as [|o os IH]; intros st; [reflexivity|]. cbn. destruct (step pick o st); cbn; [apply IH | reflexivity..]. Qed.
Lemma run_vars pick os j : forall st st', run pick os st = Ok st' -> var st j <> None -> Forall (fun o => ~ In j (writes o)) os -> var st' j = var st j.
Proof.
  induction os as [|o os IH]; intros st st' R V W; [now injection R as <-|]. cbn [run] in R. apply obind_ok in R as (st1 & S & R).
  inversion W as [|? ? W1 W2]; subst. pose proof (step_vars pick o st st1 j S V W1) as E. rewrite <- E. apply IH; [exact R | congruence | exact W2].
Qed.
Theorem keys_stay pick os i j st st' h : run pick os st = Ok st' -> var st i <> None -> var st j <> None ->
  Forall (fun o => ~ In i (writes o) /\ ~ In j (writes o)) os ->
  equal st' i j = equal st i j /\ less st' i j = less st i j /\ hash h st' i = hash h st i.
Proof.
  intros R Vi Vj W. assert (Ei : var st' i = var st i) by (apply (run_vars pick os i st st' R Vi); eapply Forall_impl; [|exact W]; intros o []; assumption).
  assert (Ej : var st' j = var st j) by (apply (run_vars pick os j st st' R Vj); eapply Forall_impl; [|exact W]; intros o []; assumption).
  unfold equal, less, hash, both. now rewrite Ei, Ej.
Qed.
Theorem names_seen pick os : honest pick -> exists st, run pick os start = Ok st /\ let w := acts os nothing in
  (forall s l, slots w s = Some l -> num_slots st s = Ok (length l) /\
     exists f, (forall g, f g = true <-> In g l /\ ~ blocked w g) /\ emit st s = Ok (filter f l)) /\
  (forall i, exists b, connected st i = Ok b /\ (b = true <-> exists k g, named w i = Some (k, Some g) /\ on w g)).
Proof.
  intros Hp. destruct (run_ok pick os Hp) as (st & R & I & A). exists st. split; [exact R|]. cbv zeta. rewrite <- A. split.
  - intros s l E. split; [now apply num_slots_length | now apply emit_calls].
  - intros i. now apply connected_on.
Qed.
Theorem equal_seen pick os st i j n n' : honest pick -> run pick os start = Ok st -> comparable (acts os nothing) i j n n' ->
  exists b, equal st i j = Some b /\ (b = true <-> n = n').
Proof. intros Hp R. destruct (run_good pick os st Hp R) as [I <-]. now apply equal_names. Qed.
Theorem less_seen pick os st i j n n' : honest pick -> run pick os start = Ok st -> comparable (acts os nothing) i j n n' ->
  exists b b', less st i j = Some b /\ less st j i = Some b' /\ (n = n' -> b = false /\ b' = false) /\ (n <> n' -> b = negb b').
Proof. intros Hp R. destruct (run_good pick os st Hp R) as [I <-]. now apply less_names. Qed.
Theorem hash_seen pick os st i j n h : honest pick -> run pick os start = Ok st -> comparable (acts os nothing) i j n n ->
  exists x, hash h st i = Some x /\ hash h st j = Some x.
Proof. intros Hp R. destruct (run_good pick os st Hp R) as [I <-]. now apply hash_names. Qed.
Theorem alive_seen pick os st g : honest pick -> run pick os start = Ok st -> (exists a c, st_mem st a = Some c /\ c_call c = g) <-> in_use (acts os nothing) g.
Proof. intros Hp R. destruct (run_good pick os st Hp R) as [I <-]. now apply alive_in_use. Qed.
