(** Whole programs, and the claims. *)
From Coq Require Import List Arith Bool Lia Relations.
From Verif Require Import Base CaptModel CaptSpec CaptProofs CaptReleaseProofs CaptSignalProofs CaptOpProofs.
Import ListNotations.

Lemma good_empty : good empty.
Proof.
  split; [|split].
  - split; try (intros s; intros; destruct s; discriminate).
    intros s _. reflexivity.
  - intros g r H. destruct g; discriminate.
  - intros s x c H. destruct s; discriminate.
Qed.
Lemma nth_app_inv {A} (l : list A) a i b : nth_error (l ++ [a]) i = Some b -> nth_error l i = Some b \/ (i = length l /\ b = a).
Proof.
  intro H. destruct (Nat.lt_ge_cases i (length l)) as [K|K].
  - rewrite nth_error_app1 in H by exact K. left. exact H.
  - rewrite nth_error_app2 in H by exact K. destruct (i - length l) as [|n] eqn:E; [|destruct n; discriminate]. cbn in H. injection H as ->.
    right. split; [lia|reflexivity].
Qed.
Lemma new_signal_good st : good st -> good (mkstate (slots st) (sigs st ++ [mksig true [] 0 false false]) (handles st)).
Proof.
  intros (I & U & O). set (st' := mkstate _ _ _).
  assert (N : forall k, namesP [] st' k = namesP [] st k).
  { intro k. unfold namesP, names, listed, st'. cbn [sigs]. rewrite total_app, total_cons. cbn [g_slots]. change (times k []) with 0.
    change (total (fun r => times k (g_slots r)) []) with 0. unfold held, owned. cbn [handles slots]. lia. }
  split; [|split].
  - split.
    + intros k y E. rewrite N. apply (i_refs _ _ I _ _ E).
    + apply (i_pos _ _ I).
    + intros k E. rewrite N. apply (i_range _ _ I _ E).
    + intros k y g E F. destruct (i_sender _ _ I _ _ _ E F) as (r & R1 & R2). exists r. split; [|exact R2]. cbn.
      rewrite nth_error_app1; [exact R1|]. apply nth_error_Some. congruence.
    + intros g r E. cbn in E. apply nth_app_inv in E. destruct E as [E|(-> & ->)]; [apply (i_nodup _ _ I _ _ E)|constructor].
    + intros g r E. cbn in E. apply nth_app_inv in E. destruct E as [E|(-> & ->)]; [apply (i_dead _ _ I _ _ E)|discriminate].
    + apply (i_caps _ _ I).
    + intros g r s x h E K. cbn in E. apply nth_app_inv in E. destruct E as [E|(-> & ->)]; [apply (i_where _ _ I _ _ _ _ _ E K)|destruct K].
  - intros g r E. cbn in E. apply nth_app_inv in E. destruct E as [E|(-> & ->)]; [apply (U _ _ E)|reflexivity].
  - exact O.
Qed.

Lemma connect_good st g r (front : bool) : good st -> nth_error (sigs st) g = Some r -> g_live r = true ->
  good (mkstate (slots st ++ [mkslot true 2 (Some g) []])
     (upd (sigs st) g (mksig true (if front then length (slots st) :: g_slots r else g_slots r ++ [length (slots st)]) (g_active r) (g_deferred r) false))
     (handles st ++ [Some (length (slots st))])).
Proof.
  intros (I & U & O) G L. set (s := length (slots st)). set (nl := if front then s :: g_slots r else g_slots r ++ [s]). set (st' := mkstate _ _ _).
  assert (Z : namesP [] st s = 0) by (apply (i_range _ _ I); apply le_n).
  assert (NI : ~ In s (g_slots r)).
  { intro K. pose proof (listed_in _ _ _ _ G K). unfold namesP, names in Z. lia. }
  assert (IN : forall k, In k nl <-> In k (g_slots r) \/ k = s).
  { intro k. unfold nl. destruct front; [cbn; intuition congruence|]. rewrite in_app_iff. cbn. intuition congruence. }
  assert (T : forall k, times k nl = times k (g_slots r) + times k [s]).
  { intro k. unfold nl. destruct front; [rewrite !times_cons; change (times k []) with 0; lia|apply times_app]. }
  assert (N : forall k, namesP [] st' k = namesP [] st k + 2 * times k [s]).
  { intro k. unfold namesP, names. change (times k []) with 0.
    assert (A : listed st' k = listed st k + times k [s]).
    { pose proof (total_upd (fun r => times k (g_slots r)) (sigs st) g (mksig true nl (g_active r) (g_deferred r) false) r G) as Q.
      cbn [g_slots] in Q. rewrite T in Q. unfold listed, st'. cbn [sigs]. lia. }
    assert (B : held st' k = held st k + times k [s]).
    { change (held st' k) with (total (hold k) (handles st ++ [Some s])). rewrite total_app, total_cons, hold_times. change (total (hold k) []) with 0.
      change (held st k) with (total (hold k) (handles st)). lia. }
    assert (C : owned st' k = owned st k).
    { unfold owned, st'. cbn [slots]. rewrite total_app, total_cons. cbn [s_live s_caps map]. change (times k []) with 0.
      change (total (fun x => if s_live x then times k (map snd (s_caps x)) else 0) []) with 0. lia. }
    lia. }
  assert (ST : times s [s] = 1) by (rewrite times_cons; destruct (Nat.eq_dec s s); [reflexivity|congruence]).
  assert (OT : forall k, k <> s -> times k [s] = 0) by (intros k K; rewrite times_cons; destruct (Nat.eq_dec s k); [congruence|reflexivity]).
  assert (LT : forall k y, nth_error (slots st) k = Some y -> k < s) by (intros k y E; apply nth_error_Some; congruence).
  split; [|split].
  - split.
    + intros k y E. rewrite N. cbn in E. apply nth_app_inv in E. destruct E as [E|(-> & ->)].
      * rewrite (OT k) by (pose proof (LT _ _ E); lia). rewrite (i_refs _ _ I _ _ E). lia.
      * fold s. rewrite Z, ST. reflexivity.
    + intros k y E. cbn in E. apply nth_app_inv in E. destruct E as [E|(-> & ->)]; [apply (i_pos _ _ I _ _ E)|discriminate].
    + intros k E. cbn in E. rewrite app_length in E. cbn in E. fold s in E. rewrite N, (OT k) by lia. rewrite (i_range _ _ I); [lia|]. fold s. lia.
    + intros k y h E F. cbn in E. cbn [sigs st']. unfold st'. cbn [sigs]. apply nth_app_inv in E. destruct E as [E|(-> & ->)].
      * destruct (i_sender _ _ I _ _ _ E F) as (r0 & R1 & R2 & R3). destruct (Nat.eq_dec h g) as [->|Q].
        -- rewrite (nth_upd_here _ _ _ _ G). assert (r0 = r) by congruence. subst r0. eexists. split; [reflexivity|]. split; [reflexivity|]. cbn.
           apply IN. left. exact R3.
        -- rewrite nth_upd_other by exact Q. exists r0. repeat split; assumption.
      * cbn in F. injection F as <-. rewrite (nth_upd_here _ _ _ _ G). eexists. split; [reflexivity|]. split; [reflexivity|]. cbn. apply IN. right. reflexivity.
    + intros h r0 E. cbn in E. apply nth_upd_inv in E. destruct E as [(-> & ->)|(Q & E)]; [|apply (i_nodup _ _ I _ _ E)]. cbn.
      pose proof (i_nodup _ _ I _ _ G) as ND. unfold nl. destruct front; [constructor; assumption|].
      apply NoDup_rev in ND. rewrite <- (rev_involutive (g_slots r ++ [s])). apply NoDup_rev. rewrite rev_app_distr. cbn. constructor; [|exact ND].
      rewrite <- in_rev. exact NI.
    + intros h r0 E. cbn in E. apply nth_upd_inv in E. destruct E as [(-> & ->)|(Q & E)]; [discriminate|apply (i_dead _ _ I _ _ E)].
    + intros k y b c E C. unfold st'. cbn [slots]. rewrite app_length. cbn. cbn in E. apply nth_app_inv in E. destruct E as [E|(-> & ->)]; [|destruct C].
      pose proof (i_caps _ _ I _ _ _ _ E C). lia.
    + intros h r0 k y j E K F Y. cbn in E, F. apply nth_upd_inv in E. apply nth_app_inv in F. destruct E as [(-> & ->)|(Q & E)].
      * cbn in K. apply IN in K. destruct F as [F|(-> & ->)].
        -- destruct K as [K|K]; [apply (i_where _ _ I _ _ _ _ _ G K F Y)|]. pose proof (LT _ _ F). lia.
        -- cbn in Y. congruence.
      * destruct F as [F|(-> & ->)]; [apply (i_where _ _ I _ _ _ _ _ E K F Y)|]. exfalso. pose proof (listed_in _ _ _ _ E K) as X.
        fold s in X. unfold namesP, names in Z. lia.
  - intros h r0 E. cbn in E. apply nth_upd_inv in E. destruct E as [(-> & ->)|(Q & E)]; [reflexivity|apply (U _ _ E)].
  - intros k y c E V C z F. cbn in E, F. apply nth_app_inv in E. destruct E as [E|(-> & ->)]; [|discriminate].
    apply nth_app_inv in F. destruct F as [F|(-> & ->)]; [apply (O k y c E V C z F)|].
    pose proof (i_caps _ _ I _ _ _ _ E C). fold s in H. unfold s in H. lia.
Qed.

(** Where a deadlock comes from. *)
Definition trapped (o : op) (st : state) : Prop :=
  match o with
  | Disconnect_all g | Destroy g =>
      exists r l1 s l2 c, nth_error (sigs st) g = Some r /\ g_active r = 0 /\ g_slots r = l1 ++ s :: l2 /\ may_cut st s c /\ connected_to st c g /\ ~ In c (l1 ++ [s])
  | End g => exists r s c, nth_error (sigs st) g = Some r /\ g_active r = 1 /\ In s (g_slots r) /\ disconnected st s /\ may_cut st s c /\ connected_to st c g
  | _ => False
  end.

Lemma moved_good st hs : good st -> unlocked (set_handles st hs) /\ owned_cut (set_handles st hs).
Proof. intros (_ & U & O). split; assumption. Qed.

Lemma run_op_spec o st : good st -> (exists st', run_op o st = Done st' /\ good st') \/ (run_op o st = Deadlock /\ trapped o st).
Proof.
  intros GD. pose proof GD as (I & U & O). pose proof (enough st) as F.
  assert (NOP : exists st', Done st = Done st' /\ good st') by (exists st; split; [reflexivity|exact GD]).
  destruct o as [|g front|h|h|h|h s k|s i|g|g|g|g]; cbn [run_op].
  - left. eexists. split; [reflexivity|]. apply new_signal_good, GD.
  - destruct (nth_error (sigs st) g) as [r|] eqn:G; [|left; exact NOP]. destruct (g_live r) eqn:L; [|left; exact NOP].
    left. rewrite (lock_ok _ _ _ U G L). cbn [bind]. set (stL := set_sig _ _ _).
    assert (GL : nth_error (sigs stL) g = Some (mksig true (g_slots r) (g_active r) (g_deferred r) true)) by (apply (nth_upd_here _ _ _ _ G)).
    rewrite (with_sig_live _ _ _ _ GL eq_refl). cbn [g_slots g_active g_deferred g_locked bind].
    unfold unlock. erewrite with_sig_live; [|cbn; apply (nth_upd_here _ _ _ _ GL)|reflexivity]. cbn [g_slots g_active g_deferred].
    eexists. split; [reflexivity|]. unfold set_sig, stL. cbn. rewrite !upd_upd. apply (connect_good st g r front GD G L).
  - destruct (nth_error (handles st) h) as [[s|]|] eqn:H; [|left; exact NOP|left; exact NOP].
    left. assert (NZ : namesP [] st s <> 0).
    { unfold namesP, names. pose proof (total_ge (hold s) (handles st) h _ H) as Q. rewrite hold_self in Q. change (held st s) with (total (hold s) (handles st)). lia. }
    destruct (named_live _ _ _ I NZ) as (x & E & L & R). unfold add_ref. rewrite (with_slot_live _ _ _ _ E L). cbn [bind].
    eexists. split; [reflexivity|].
    assert (I2 : inv [s] (set_slot st s (mkslot true (S (s_refs x)) (s_sender x) (s_caps x)))).
    { apply (caps_inv [] [s] st s x); try assumption; [|discriminate|].
      - intro k. rewrite times_cons. change (times k []) with 0. destruct (Nat.eq_dec s k); lia.
      - intros b c C. apply (i_caps _ _ I _ _ _ _ E C). }
    split; [apply (kept_inv [] _ s I2)|]. split; [exact U|apply (caps_owned _ _ _ _ _ E O)].
  - destruct (nth_error (handles st) h) as [[s|]|] eqn:H; [|left; exact NOP|left; exact NOP].
    pose proof (taken_inv _ _ _ _ I H) as I1. destruct (moved_good st (upd (handles st) h None) GD) as (U1 & O1).
    destruct (release_spec (fuel_for st) s [] (set_handles st (upd (handles st) h None)) F I1) as [(st' & E & I' & L')|(E & c & _ & B)]; [|contradiction (unblocked _ _ U1 B)].
    left. exists st'. split; [exact E|apply (later_good _ _ I' L' U1 O1)].
  - destruct (nth_error (handles st) h) as [[s|]|] eqn:H; [|left; exact NOP|left; exact NOP].
    pose proof (taken_inv _ _ _ _ I H) as I1. destruct (moved_good st (upd (handles st) h None) GD) as (U1 & O1).
    destruct (disconnect_spec (fuel_for st) s [] (set_handles st (upd (handles st) h None)) F I1) as [(st' & E & I' & L' & _)|(E & [B|(c & _ & B)])]; try contradiction (unblocked _ _ U1 B).
    left. exists st'. split; [exact E|apply (later_good _ _ I' L' U1 O1)].
  - destruct (nth_error (handles st) h) as [[c|]|] eqn:H; [|left; exact NOP|left; exact NOP].
    destruct (nth_error (slots st) s) as [x|] eqn:E; [|left; exact NOP]. destruct (s_live x) eqn:L; [|left; exact NOP].
    pose proof (taken_inv _ _ _ _ I H) as I1. destruct (moved_good st (upd (handles st) h None) GD) as (U1 & O1).
    left. eexists. split; [reflexivity|]. split; [|split; [exact U1|apply (caps_owned _ _ _ _ _ E O1)]].
    apply (caps_inv [c] [] _ s x); try assumption.
    + intro j. rewrite map_app, times_app. cbn [map snd]. change (times j []) with 0. lia.
    + apply (i_pos _ _ I _ _ E L).
    + intros b d D. apply in_app_or in D. destruct D as [D|[D|[]]]; [apply (i_caps _ _ I _ _ _ _ E D)|]. injection D as <- <-.
      destruct (pending_live _ _ _ I1) as (y & Y & _). cbn in Y. apply nth_error_Some. cbn. rewrite Y. discriminate.
  - destruct (nth_error (slots st) s) as [x|] eqn:E; [|left; exact NOP]. destruct (s_live x) eqn:L; [|left; exact NOP].
    destruct (nth_error (s_caps x) i) as [(k, c)|] eqn:C; [|left; exact NOP].
    set (st1 := set_slot st s (mkslot true (s_refs x) (s_sender x) (drop_nth i (s_caps x)))).
    assert (I1 : inv [c] st1).
    { apply (caps_inv [] [c] st s x); try assumption; [|apply (i_pos _ _ I _ _ E L)|].
      - intro j. pose proof (times_drop j i _ _ _ C). change (times j []) with 0. destruct (Nat.eq_dec s j); lia.
      - intros b d D. apply in_drop in D. apply (i_caps _ _ I _ _ _ _ E D). }
    assert (F1 : live_of st1 < fuel_for st). { unfold st1. rewrite (live_of_set st s x _ E) by (cbn; congruence). exact F. }
    assert (U1 : unlocked st1) by exact U. pose proof (caps_owned _ _ _ (drop_nth i (s_caps x)) (s_refs x) E O) as O1. fold st1 in O1.
    destruct (disconnect_spec (fuel_for st) c [] st1 F1 I1) as [(st' & E' & I' & L' & _)|(E' & [B|(d & _ & B)])]; try contradiction (unblocked _ _ U1 B).
    left. exists st'. split; [exact E'|apply (later_good _ _ I' L' U1 O1)].
  - destruct (nth_error (sigs st) g) as [r|] eqn:G; [|left; exact NOP]. destruct (g_live r) eqn:L; [|left; exact NOP].
    destruct (disconnect_all_spec (fuel_for st) st g r F GD G L) as [(st' & E & G' & _)|(E & A & l1 & s & l2 & c & C)].
    + left. exists st'. split; assumption.
    + right. split; [exact E|]. exists r, l1, s, l2, c. split; [exact G|]. split; [exact A|exact C].
  - destruct (nth_error (sigs st) g) as [r|] eqn:G; [|left; exact NOP]. destruct (g_live r) eqn:L; [|left; exact NOP].
    destruct (begin_spec st g r GD G L) as (st' & E & G' & _). left. exists st'. split; assumption.
  - destruct (nth_error (sigs st) g) as [r|] eqn:G; [|left; exact NOP]. destruct (g_live r) eqn:L; cbn [andb]; [|left; exact NOP].
    destruct (g_active r) as [|n] eqn:A; cbn [Nat.eqb negb]; [left; exact NOP|].
    destruct (end_spec (fuel_for st) st g r n F GD G L A) as [(st' & E & G' & _)|(E & N & D & s & c & C)].
    + left. exists st'. split; assumption.
    + right. split; [exact E|]. exists r, s, c. subst n. split; [exact G|]. split; [exact A|exact C].
  - destruct (nth_error (sigs st) g) as [r|] eqn:G; [|left; exact NOP]. destruct (g_live r) eqn:L; cbn [andb]; [|left; exact NOP].
    destruct (Nat.eqb_spec (g_active r) 0) as [A|A]; [|left; exact NOP].
    destruct (disconnect_all_spec (fuel_for st) st g r F GD G L) as [(st' & E & (I' & U' & O') & W & D & r' & R1 & R2 & R3 & R4)|(E & _ & l1 & s & l2 & c & C)]; rewrite E; cbn [bind].
    + left. rewrite (with_sig_live _ _ _ _ R1 R2). eexists. split; [reflexivity|].
      specialize (R4 A). rewrite R4. split; [|split].
      * assert (N : forall k, namesP [] (set_sig st' g (mksig false [] 0 (g_deferred r') (g_locked r'))) k = namesP [] st' k).
        { intro k. unfold namesP, names, listed. cbn [set_sig sigs]. rewrite (total_same _ _ _ _ _ R1) by (rewrite R4; reflexivity). reflexivity. }
        split.
        -- intros k y Y. rewrite N. apply (i_refs _ _ I' _ _ Y).
        -- apply (i_pos _ _ I').
        -- intros k Y. rewrite N. apply (i_range _ _ I' _ Y).
        -- intros k y h Y Z. destruct (i_sender _ _ I' _ _ _ Y Z) as (r0 & Q1 & Q2 & Q3). cbn. destruct (Nat.eq_dec h g) as [->|Q].
           ++ assert (r0 = r') by congruence. subst r0. rewrite R4 in Q3. destruct Q3.
           ++ rewrite nth_upd_other by exact Q. exists r0. repeat split; assumption.
        -- intros h r0 Y. cbn in Y. apply nth_upd_inv in Y. destruct Y as [(-> & ->)|(Q & Y)]; [constructor|apply (i_nodup _ _ I' _ _ Y)].
        -- intros h r0 Y. cbn in Y. apply nth_upd_inv in Y. destruct Y as [(-> & ->)|(Q & Y)]; [intros _; split; [apply (U' _ _ R1)|reflexivity]|apply (i_dead _ _ I' _ _ Y)].
        -- apply (i_caps _ _ I').
        -- intros h r0 k y j Y K. cbn in Y. apply nth_upd_inv in Y. destruct Y as [(-> & ->)|(Q & Y)]; [destruct K|apply (i_where _ _ I' _ _ _ _ _ Y K)].
      * intros h r0 Y. cbn in Y. apply nth_upd_inv in Y. destruct Y as [(-> & ->)|(Q & Y)]; [apply (U' _ _ R1)|apply (U' _ _ Y)].
      * exact O'.
    + right. split; [reflexivity|]. exists r, l1, s, l2, c. split; [exact G|]. split; [exact A|exact C].
Qed.

Lemma run_spec os : forall st, good st -> (exists st', run os st = Done st' /\ good st') \/ run os st = Deadlock.
Proof.
  induction os as [|o os IH]; intros st G; [left; exists st; split; [reflexivity|exact G]|].
  cbn [run]. destruct (run_op_spec o st G) as [(st' & E & G')|(E & _)]; rewrite E; cbn [bind]; [apply (IH st' G')|right; reflexivity].
Qed.
Lemma run_good os st : run os empty = Done st -> good st.
Proof. intro E. destruct (run_spec os empty good_empty) as [(st' & E' & G)|E']; congruence. Qed.

Lemma good_accounted st : good st -> accounted st.
Proof.
  intros (I & _). assert (N : forall s, namesP [] st s = names st s) by (intro s; unfold namesP; change (times s []) with 0; lia).
  split; [|split].
  - intros s x H L. pose proof (i_refs _ _ I _ _ H) as R. unfold count in R. rewrite L, N in R. split; [exact R|]. pose proof (i_pos _ _ I _ _ H L). lia.
  - intros s x H L. pose proof (i_refs _ _ I _ _ H) as R. unfold count in R. rewrite L, N in R. lia.
  - intros s H. rewrite <- N. apply (i_range _ _ I _ H).
Qed.

(** * The claims *)

Lemma owners_are_safe os :
  (exists st, run os empty = Done st /\ accounted st /\ unlocked st) \/ run os empty = Deadlock.
Proof.
  destruct (run_spec os empty good_empty) as [(st & E & G)|E]; [left|right; exact E].
  exists st. split; [exact E|]. split; [apply good_accounted, G|apply G].
Qed.
Lemma quiet_never_waits os st o : run os empty = Done st -> quiet o = true -> exists st', run_op o st = Done st'.
Proof.
  intros E Q. destruct (run_op_spec o st (run_good _ _ E)) as [(st' & E' & _)|(_ & T)]; [exists st'; exact E'|].
  destruct o; try discriminate; destruct T.
Qed.
Lemma quiet_runs os : forallb quiet os = true -> exists st, run os empty = Done st.
Proof.
  intro H. enough (K : forall st, good st -> exists st', run os st = Done st') by apply (K empty good_empty).
  revert H. induction os as [|o os IH]; intros H st G; [exists st; reflexivity|].
  cbn in H. apply andb_true_iff in H. destruct H as (H1 & H2). cbn [run].
  destruct (run_op_spec o st G) as [(st' & E' & G')|(_ & T)]; [rewrite E'; apply (IH H2 st' G')|]. destruct o; try discriminate; destruct T.
Qed.
Lemma all_taken_away os st g r : run os empty = Done st -> nth_error (sigs st) g = Some r -> g_live r = true ->
  (forall l1 s l2 c, g_slots r = l1 ++ s :: l2 -> may_cut st s c -> connected_to st c g -> In c (l1 ++ [s])) ->
  exists st', run_op (Disconnect_all g) st = Done st' /\ forall s, In s (g_slots r) -> disconnected st' s.
Proof.
  intros E G L C. cbn [run_op]. rewrite G, L.
  destruct (disconnect_all_spec (fuel_for st) st g r (enough st) (run_good _ _ E) G L) as [(st' & E' & _ & _ & D & _)|(_ & _ & l1 & s & l2 & c & C1 & C2 & C3 & C4)].
  - exists st'. split; assumption.
  - contradiction (C4 (C l1 s l2 c C1 C2 C3)).
Qed.
Lemma destroyed os st g r : run os empty = Done st -> nth_error (sigs st) g = Some r ->
  (forall l1 s l2 c, g_slots r = l1 ++ s :: l2 -> may_cut st s c -> connected_to st c g -> In c (l1 ++ [s])) ->
  exists st', run_op (Destroy g) st = Done st'.
Proof.
  intros E G C. destruct (run_op_spec (Destroy g) st (run_good _ _ E)) as [(st' & E' & _)|(_ & r' & l1 & s & l2 & c & C0 & _ & C1 & C2 & C3 & C4)].
  - exists st'. exact E'.
  - assert (r' = r) by congruence. subst r'. contradiction (C4 (C l1 s l2 c C1 C2 C3)).
Qed.
Lemma emission_ends os st g r : run os empty = Done st -> nth_error (sigs st) g = Some r ->
  (forall s c, In s (g_slots r) -> disconnected st s -> may_cut st s c -> ~ connected_to st c g) ->
  exists st', run_op (End g) st = Done st'.
Proof.
  intros E G C. destruct (run_op_spec (End g) st (run_good _ _ E)) as [(st' & E' & _)|(_ & r' & s & c & C0 & _ & C1 & C2 & C3 & C4)].
  - exists st'. exact E'.
  - assert (r' = r) by congruence. subst r'. contradiction (C s c C1 C2 C3 C4).
Qed.

Lemma layered_op level o st : good st -> layered level st -> exists st', run_op o st = Done st' /\ good st'.
Proof.
  intros G (L1 & L2). destruct (run_op_spec o st G) as [E|(_ & T)]; [exact E|exfalso].
  assert (M : forall s c, may_cut st s c -> level c < level s).
  { intros s c (b & H & (x & K1 & K2)). assert (Q : level c < level b) by (apply L1; exists x, true; split; assumption).
    enough (level b <= level s) by lia. clear -H L1. induction H as [a b H| |a b c _ H1 _ H2]; [pose proof (L1 _ _ H); lia|lia|lia]. }
  assert (W : forall c g, connected_to st c g -> exists r, nth_error (sigs st) g = Some r /\ In c (g_slots r)).
  { intros c g (x & H1 & H2). destruct G as (I & _). destruct (i_sender _ _ I _ _ _ H1 H2) as (r & R1 & _ & R2). exists r. split; assumption. }
  assert (K : forall g r s c, nth_error (sigs st) g = Some r -> In s (g_slots r) -> may_cut st s c -> connected_to st c g -> False).
  { intros g r s c H1 H2 H3 H4. destruct (W _ _ H4) as (r' & R1 & R2). assert (r' = r) by congruence. subst r'.
    pose proof (M _ _ H3). pose proof (L2 g r s c H1 H2 R2). lia. }
  destruct o; try exact T.
  - destruct T as (r & l1 & s & l2 & c & H1 & _ & H2 & H3 & H4 & _). apply (K _ _ s c H1); try assumption. rewrite H2. apply in_or_app. right. left. reflexivity.
  - destruct T as (r & s & c & H1 & _ & H2 & _ & H3 & H4). apply (K _ _ s c H1); assumption.
  - destruct T as (r & l1 & s & l2 & c & H1 & _ & H2 & H3 & H4 & _). apply (K _ _ s c H1); try assumption. rewrite H2. apply in_or_app. right. left. reflexivity.
Qed.
Lemma run_app os os' st : run (os ++ os') st = bind (run os st) (run os').
Proof. revert st. induction os as [|o os IH]; intro st; [reflexivity|]. cbn [app run]. destruct (run_op o st); cbn [bind]; try reflexivity. apply IH. Qed.
Lemma layered_runs level os : (forall os1 os2 st, os = os1 ++ os2 -> run os1 empty = Done st -> layered level st) -> exists st, run os empty = Done st.
Proof.
  intro H. enough (K : forall os1 os2, os = os1 ++ os2 -> exists st, run os1 empty = Done st).
  { apply (K os []). rewrite app_nil_r. reflexivity. }
  intros os1. induction os1 as [|o os1 IH] using rev_ind; intros os2 E; [exists empty; reflexivity|].
  destruct (IH (o :: os2)) as (st & R). { rewrite E, <- app_assoc. reflexivity. }
  assert (L : layered level st). { apply (H os1 (o :: os2) st); [|exact R]. rewrite E, <- app_assoc. reflexivity. }
  destruct (layered_op level o st (run_good _ _ R) L) as (st' & E' & _). exists st'. rewrite run_app, R. cbn [bind run]. rewrite E'. reflexivity.
Qed.

Lemma taking_all_deadlocks os st g r l1 s l2 x c :
  run os empty = Done st -> nth_error (sigs st) g = Some r -> g_live r = true -> g_active r = 0 -> g_slots r = l1 ++ s :: l2 ->
  nth_error (slots st) s = Some x -> names st s = 1 -> In (true, c) (s_caps x) -> In c l2 -> connected_to st c g ->
  run_op (Disconnect_all g) st = Deadlock /\ run_op (Destroy g) st = Deadlock.
Proof.
  intros E G L A S' H N C1 C2 C3. pose proof (run_good _ _ E) as GD.
  assert (R : s_refs x = 1).
  { destruct GD as (I & _). destruct (listed_live [] st g r s I G) as (y & Y1 & Y2); [rewrite S'; apply in_or_app; right; left; reflexivity|].
    assert (y = x) by congruence. subst y. destruct (good_accounted st (run_good _ _ E)) as (Q & _). destruct (Q s x H Y2) as (Q1 & _). congruence. }
  pose proof (disconnect_all_dead (fuel_for st) st g r s x c l1 l2 (enough st) GD G L A S' H R C1 C2 C3) as D.
  cbn [run_op]. rewrite G, L, A. cbn [andb Nat.eqb]. rewrite D. split; reflexivity.
Qed.
Lemma emission_end_deadlocks os st g r s x c :
  run os empty = Done st -> nth_error (sigs st) g = Some r -> g_live r = true -> g_active r = 1 -> g_deferred r = true -> In s (g_slots r) ->
  nth_error (slots st) s = Some x -> names st s = 1 -> s_sender x = None -> In (true, c) (s_caps x) -> connected_to st c g ->
  run_op (End g) st = Deadlock.
Proof.
  intros E G L A D S' H N Z C1 C3. pose proof (run_good _ _ E) as GD.
  assert (R : s_refs x = 1).
  { destruct GD as (I & _). destruct (listed_live [] st g r s I G S') as (y & Y1 & Y2).
    assert (y = x) by congruence. subst y. destruct (good_accounted st (run_good _ _ E)) as (Q & _). destruct (Q s x H Y2) as (Q1 & _). congruence. }
  cbn [run_op]. rewrite G, L, A. cbn [andb negb Nat.eqb].
  apply (end_dead (fuel_for st) st g r s x c (enough st) GD G L A D S' H R Z C1 C3).
Qed.
Lemma dead_owners_cut os st s x c : run os empty = Done st -> nth_error (slots st) s = Some x -> s_live x = false -> In (true, c) (s_caps x) -> disconnected st c.
Proof. intros E H L C. apply (proj2 (proj2 (run_good _ _ E)) s x c H L C). Qed.

Lemma owned_by st s : owned st s <> 0 -> exists a, live_slot st a /\ owns st a s.
Proof.
  intro H. apply total_pos in H. destruct H as (a & x & H1 & H2). destruct (s_live x) eqn:L; [|contradiction H2; reflexivity].
  exists a. split; [exists x; split; assumption|]. apply times_in in H2. apply in_map_iff in H2. destruct H2 as ((k, b) & <- & K). exists x, k. split; assumption.
Qed.
Lemma owns_owned st a s : live_slot st a -> owns st a s -> owned st s <> 0.
Proof.
  intros (x & H & L) (y & k & Y1 & Y2). assert (y = x) by congruence. subst y. unfold owned.
  pose proof (total_ge (fun x => if s_live x then times s (map snd (s_caps x)) else 0) (slots st) a x H) as Q. cbn beta in Q. rewrite L in Q.
  assert (Z : In s (map snd (s_caps x))) by (apply in_map_iff; exists (k, s); split; [reflexivity|exact Y2]). apply times_in in Z. lia.
Qed.
Lemma rooted_live st s : accounted st -> rooted st s -> live_slot st s.
Proof.
  intros (A & B & C) R. assert (N : names st s <> 0).
  { destruct R as [s H|s H|a s H _ K]; unfold names; [lia|lia|]. pose proof (owns_owned _ _ _ H K). lia. }
  destruct (nth_error (slots st) s) as [x|] eqn:E.
  - exists x. split; [exact E|]. destruct (s_live x) eqn:L; [reflexivity|]. contradiction (N (B s x E L)).
  - apply nth_error_None in E. contradiction (N (C s E)).
Qed.
Lemma live_rooted st : accounted st -> acyclic st -> forall s, live_slot st s -> rooted st s.
Proof.
  intros AC (rank & K).
  pose (top := S (list_max (map rank (seq 0 (length (slots st)))))).
  assert (T : forall s, live_slot st s -> rank s < top).
  { intros s (x & H & _). unfold top. apply Nat.lt_succ_r.
    pose proof (proj1 (list_max_le (map rank (seq 0 (length (slots st)))) _) (le_n _)) as Q. rewrite Forall_forall in Q. apply Q.
    apply in_map_iff. exists s. split; [reflexivity|]. apply in_seq. assert (s < length (slots st)) by (apply nth_error_Some; congruence). lia. }
  intros s. remember (top - rank s) as n eqn:E. revert s E. induction n as [n IH] using lt_wf_ind. intros s E L.
  destruct (proj1 AC s) with (x := match nth_error (slots st) s with Some x => x | None => mkslot true 0 None [] end) as (_ & N).
  { destruct L as (x & H & _). rewrite H. reflexivity. }
  { destruct L as (x & H & V). rewrite H. exact V. }
  unfold names in N. destruct (Nat.eq_dec (listed st s) 0) as [N1|N1]; [|apply root_listed, N1].
  destruct (Nat.eq_dec (held st s) 0) as [N2|N2]; [|apply root_held, N2].
  destruct (owned_by st s ltac:(lia)) as (a & A1 & A2). apply (root_owned st a s A1); [|exact A2].
  apply (IH (top - rank a)); [|reflexivity|exact A1]. pose proof (K a s A2 A1). pose proof (T a A1). lia.
Qed.
Lemma live_iff_rooted os st : run os empty = Done st -> acyclic st -> forall s, live_slot st s <-> rooted st s.
Proof.
  intros E A s. pose proof (good_accounted st (run_good _ _ E)) as AC. split; [apply (live_rooted st AC A s)|apply (rooted_live st s AC)].
Qed.
Lemma rooted_kept os st s : run os empty = Done st -> rooted st s -> live_slot st s.
Proof. intros E. apply rooted_live, good_accounted, (run_good _ _ E). Qed.
Lemma all_freed os st : run os empty = Done st -> acyclic st ->
  (forall h, In h (handles st) -> h = None) -> (forall g r, nth_error (sigs st) g = Some r -> g_live r = false) ->
  forall s x, nth_error (slots st) s = Some x -> s_live x = false.
Proof.
  intros E A H G s x S'. destruct (s_live x) eqn:L; [|reflexivity]. exfalso.
  assert (R : rooted st s) by (apply (live_iff_rooted os st E A); exists x; split; assumption).
  clear S' L x. induction R as [s R|s R|a s _ _ IH _]; [| |exact IH].
  - apply total_pos in R. destruct R as (g & r & R1 & R2). destruct (run_good _ _ E) as (I & _).
    rewrite (proj2 (i_dead _ _ I _ _ R1 (G g r R1))) in R2. apply R2. reflexivity.
  - apply total_pos in R. destruct R as (h & o & R1 & R2). rewrite (H o (nth_error_In _ _ R1)) in R2. apply R2. reflexivity.
Qed.
