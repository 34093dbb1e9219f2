(** Every step of the signal machine is matched by the ideal machine. *)
From Coq Require Import List Arith Bool Lia.
From Verif Require Import Base XinfoProofs SignalModel SignalSpec SignalMemProofs SignalRelProofs.
Import ListNotations.
Local Open Scope outcome_scope.

Lemma ir_one i t l i' r : istep i t l = Some (i', r) -> ideal_runs i (event_of t l r) i'.
Proof. intros E. rewrite <- (app_nil_r (event_of t l r)). econstructor; eauto. constructor. Qed.

Lemma ir_app i evs i' evs' i'' : ideal_runs i evs i' -> ideal_runs i' evs' i'' -> ideal_runs i (evs ++ evs') i''.
Proof.
  intros R. induction R as [|i t l j r evs k E R IH]; intros R'; auto.
  rewrite <- app_assoc. econstructor; eauto.
Qed.

Lemma ir_tau i t i' evs i'' : istep i t Tau = Some (i', ONone) -> ideal_runs i' evs i'' -> ideal_runs i evs i''.
Proof. intros E R. change evs with (event_of t Tau ONone ++ evs). econstructor; eauto. Qed.

(* ------------------------------------------------------------ rebuilding rel *)

Definition outcome_ok (st : state) (t : nat) (l : label) (i : ideal) : Prop :=
  match step st t l with
  | Crash => False
  | Terminate => match l with User (USwap _ _) | User (UMove _) => True | _ => False end
  | Disabled => l = Tau -> forall th, nth_error (threads st) t = Some th -> user_ready th = true
  | Next st' r => exists i' L' H', ideal_runs i (event_of t l r) i' /\ rel st' i' L' H'
  end.

Lemma mid_disconnecting st s g : mid st s g -> disconnecting st g.
Proof. intros (t & th & E & Hi). exists t, th, s. auto. Qed.

Lemma A_pos st g : 0 < A st g <-> emitting st g.
Proof.
  unfold A. split.
  - intros H. assert (exists th, In th (threads st) /\ 0 < thread_emits g th) as (th & Hi & Hp).
    { induction (threads st) as [|th l IH]; cbn in H; [lia|].
      destruct (thread_emits g th) eqn:E.
      - destruct IH as (th' & Hi & Hp); [lia|]. exists th'. split; auto. right; auto.
      - exists th. split; [left; auto|lia]. }
    unfold thread_emits in Hp.
    assert (exists f, In f (th_stack th) /\ 0 < frame_emits g f) as (f & Hf & Hp').
    { induction (th_stack th) as [|f l IH]; cbn in Hp; [lia|].
      destruct (frame_emits g f) eqn:E.
      - destruct IH as (f' & Hf & Hp'); [lia|]. exists f'. split; auto. right; auto.
      - exists f. split; [left; auto|lia]. }
    destruct f as [e|]; cbn in Hp'; [|lia]. destruct (Nat.eqb_spec (e_sig e) g) as [E|]; cbn in Hp'; [|lia].
    apply In_nth_error in Hi. destruct Hi as [t Et]. exists t, th, e. auto.
  - intros (t & th & e & Et & He & Eg).
    pose proof (tot_pos (thread_emits g) _ _ _ Et) as H1. unfold thread_emits at 1 in H1.
    pose proof (tot_in (frame_emits g) _ _ He) as H2. cbn in H2. rewrite Eg, Nat.eqb_refl in H2. cbn in H2. lia.
Qed.

(** How memory may change while the other threads look on. *)
Record mem_ok (st : state) (L : nat -> list nat) (m' : mem) (L' : nat -> list nat) : Prop := {
  mo_len : length (heap (mm st)) <= length (heap m');
  mo_conn : forall s, s < length (heap (mm st)) -> connected m' s = true -> connected (mm st) s = true;
  mo_list : forall g, emitting st g -> exists p q, L' g = p ++ L g ++ q;
  mo_live : forall g, emitting st g \/ disconnecting st g -> glive (mm st) g = true -> glive m' g = true
}.

Lemma mem_ok_world st i L H m' L' t th is :
  rel st i L H -> mem_ok st L m' L' -> nth_error (threads st) t = Some th ->
  stack_rel (world_of (mm st) L) (th_tls th) (th_stack th) is ->
  world_ok (world_of (mm st) L) (world_of m' L') (th_stack th).
Proof.
  intros R [Hl Hc He Hv] Et Rs. split; [exact Hl|]. split; [exact Hc|]. split; [|split]; cbn.
  - intros e Hi. assert (emitting st (e_sig e)) as Hm by (exists t, th, e; auto). split; auto.
    apply Hv; auto. change (w_live (world_of (mm st) L) (e_sig e) = true). eapply stack_rel_emit; eauto.
  - intros s g Hi. apply Hv.
    + right. exists t, th, s. auto.
    + change (w_live (world_of (mm st) L) g = true). eapply stack_rel_disc; eauto.
  - intros g s Hi. eapply minv_bound; eauto. apply (r_minv _ _ _ _ R).
Qed.

Lemma threads_same st i L H m' L' :
  rel st i L H -> mem_ok st L m' L' ->
  Forall2 (fun th is => stack_rel (world_of m' L') (th_tls th) (th_stack th) is) (threads st) (i_threads i).
Proof.
  intros R M. eapply Forall2_change; [apply (r_threads _ _ _ _ R)|].
  intros t th is Et _ Rs; cbn beta in Rs. eapply stack_rel_mono; [|exact Rs]. eapply (mem_ok_world st i L H); eauto.
Qed.

Lemma threads_upd st i L H m' L' t tl' fs' is' :
  rel st i L H -> mem_ok st L m' L' -> t < length (threads st) ->
  stack_rel (world_of m' L') tl' fs' is' ->
  Forall2 (fun th is => stack_rel (world_of m' L') (th_tls th) (th_stack th) is)
    (upd (threads st) t (mkthread tl' fs')) (put (i_threads i) t is').
Proof.
  intros R M Ht Rs. change (@put) with (@upd). eapply Forall2_upd; [apply (r_threads _ _ _ _ R)|auto| |exact Rs].
  intros j th is _ Et _ Rj; cbn beta in Rj. eapply stack_rel_mono; [|exact Rj]. eapply (mem_ok_world st i L H); eauto.
Qed.

Lemma mem_ok_same st L m' : same (mm st) m' -> mem_ok st L m' L.
Proof.
  intros [Sc Sd Sg Sh Ss]. constructor.
  - lia.
  - intros s _. unfold connected. now rewrite Sc.
  - intros g _. exists [], []. now rewrite app_nil_r.
  - intros g _. now rewrite Sg.
Qed.

Lemma world_same m m' L : same m m' -> forall fs, 
  (forall e, In (FEmit e) fs -> glive m (e_sig e) = true) ->
  (forall s g, In (FDisc s (DRegion g)) fs -> glive m g = true) ->
  (forall g s, In s (L g) -> s < length (heap m)) ->
  world_ok (world_of m L) (world_of m' L) fs.
Proof.
  intros [Sc Sd Sg Sh Ss] fs He Hd Hb. split; [cbn; lia|]. split; [cbn|split; [|split]]; cbn.
  - intros s _. unfold connected. now rewrite Sc.
  - intros e Hi. split; [exists [], []; now rewrite app_nil_r|]. rewrite Sg. auto.
  - intros s g Hi. rewrite Sg. eauto.
  - auto.
Qed.

(** Threads and lists stay, memory keeps its connections. *)
Lemma rel_tables st i L H m' hs bs :
  rel st i L H -> same (mm st) m' ->
  minv m' L H (X (mkstate m' (threads st) hs bs (lost st) (fresh st)))
              (B (mkstate m' (threads st) hs bs (lost st) (fresh st))) (A st) ->
  rel (mkstate m' (threads st) hs bs (lost st) (fresh st))
      (mkideal (i_slots i) (i_order i) (i_live i) (i_threads i) hs bs (i_fresh i)) L H.
Proof.
  intros R S I. pose proof (mem_ok_same _ L _ S) as M. destruct S as [Sc Sd Sg Sh Ss].
  pose proof (threads_same _ _ _ _ _ _ R M) as Th.
  destruct R as [r_minv0 r_sender0 r_dead0 r_dfr0 r_gone0 r_handles0 r_blockers0 r_fresh0 r_slen0 r_slots0 r_olen0 r_order0 r_llen0 r_live0 r_threads0]. constructor; cbn [mm threads handles blockers lost fresh i_slots i_order i_live i_threads i_handles i_blockers i_fresh]; auto.
  - intros s g E. rewrite Sc in E. auto.
  - intros s g E1 E2. rewrite Sc in E2. rewrite Sd. destruct (r_dead0 s g E1 E2) as [|(t & th & E & Hi)]; auto. right. exists t, th. auto.
  - intros g E. rewrite Sd in E. apply r_dfr0; auto.
  - intros g E. rewrite Sg in E. auto.
  - congruence.
  - intros s. rewrite Sc. auto.
  - congruence.
  - intros g. rewrite r_order0. apply filter_ext. intros s. unfold connected. now rewrite Sc.
  - congruence.
  - intros g. rewrite Sg. auto.
Qed.

Lemma hold_eq k c : hold k c = b2n (is_slot c k).
Proof. reflexivity. Qed.

Ltac xsolve :=
  change (@put) with (@upd); unfold X, B, A; cbn [mm threads handles blockers lost fresh]; rewrite ?tot_app; cbn [tot];
  rewrite ?hold_eq; cbn [is_slot];
  repeat match goal with
  | |- context [b2n (is_slot ?o ?s)] => destruct (is_slot o s)
  | |- context [if is_slot ?o ?s then _ else _] => destruct (is_slot o s)
  | |- context [b2n (Nat.eqb ?a ?b)] => destruct (Nat.eqb a b)
  | |- context [if Nat.eqb ?a ?b then _ else _] => destruct (Nat.eqb a b)
  end; cbn [b2n]; intros; try lia.

Lemma hold_some s : hold s (Some s) = 1.
Proof. unfold hold. cbn. now rewrite Nat.eqb_refl. Qed.

Lemma handle_X st h s : nth_error (handles st) h = Some (Some s) -> 0 < X st s.
Proof. intros E. pose proof (tot_pos (hold s) _ _ _ E) as P. rewrite hold_some in P. unfold X. lia. Qed.
Lemma blocker_X st b s : nth_error (blockers st) b = Some (Some s) -> 0 < X st s /\ 0 < B st s.
Proof. intros E. pose proof (tot_pos (hold s) _ _ _ E) as P. rewrite hold_some in P. unfold X, B. lia. Qed.

Lemma X_refs st i L H s : rel st i L H -> 0 < X st s -> 0 < refs (mm st) s.
Proof. intros R P. rewrite (mi_refs _ _ _ _ _ _ (r_minv _ _ _ _ R)). lia. Qed.

Lemma frame_X st t th f s : nth_error (threads st) t = Some th -> In f (th_stack th) -> frame_holds s f <= X st s.
Proof.
  intros E Hi. pose proof (tot_pos (thread_holds s) _ _ _ E) as P1. unfold thread_holds at 1 in P1.
  pose proof (tot_in (frame_holds s) _ _ Hi) as P2. unfold X. lia.
Qed.

(* ------------------------------------------------ connections and blockers *)

Section Tables.
Variables (st : state) (i : ideal) (L : nat -> list nat) (H : nat -> option nat) (t : nat) (th : thread) (is : list iframe).
Hypothesis R : rel st i L H.
Hypothesis Et : nth_error (threads st) t = Some th.
Hypothesis Ei : nth_error (i_threads i) t = Some is.
Hypothesis Hr : user_ready th = true.
Hypothesis Hir : i_ready is = true.

Lemma user_go o res :
  user_step st t th o = res -> step st t (User o) = res.
Proof. unfold step. rewrite Et, Hr. auto. Qed.

Lemma iuser_go o j r : i_user i t is o = Some (j, r) -> ideal_runs i [EUser t o r] j.
Proof.
  intros E. apply (ir_one i t (User o)). unfold istep. now rewrite Ei, Hir.
Qed.

Lemma st_eta : mkstate (mm st) (threads st) (handles st) (blockers st) (lost st) (fresh st) = st.
Proof. destruct st; reflexivity. Qed.
Lemma i_eta : mkideal (i_slots i) (i_order i) (i_live i) (i_threads i) (i_handles i) (i_blockers i) (i_fresh i) = i.
Proof. destruct i; reflexivity. Qed.

Ltac start o := unfold outcome_ok; rewrite (user_go o _ eq_refl); cbn [user_step].
Ltac ideal_is := 
  eexists; exists L, H; split; [eapply iuser_go; cbn [i_user]; rewrite ?(r_handles _ _ _ _ R), ?(r_blockers _ _ _ _ R); reflexivity|].

Lemma ok_same_tables hs bs :
  (forall k, tot (hold k) hs = tot (hold k) (handles st)) ->
  (forall k, tot (hold k) bs = tot (hold k) (blockers st)) ->
  rel (mkstate (mm st) (threads st) hs bs (lost st) (fresh st))
      (mkideal (i_slots i) (i_order i) (i_live i) (i_threads i) hs bs (i_fresh i)) L H.
Proof.
  intros E1 E2. apply (rel_tables st i L H); auto; [apply same_refl|]. eapply minv_ext; [apply (r_minv _ _ _ _ R)| | | | |]; auto.
  all: intros k; unfold X, B; cbn; rewrite ?E1, ?E2; auto.
Qed.

Lemma rel_self : rel st (mkideal (i_slots i) (i_order i) (i_live i) (i_threads i) (handles st) (blockers st) (i_fresh i)) L H.
Proof. rewrite <- st_eta at 1. apply ok_same_tables; auto. Qed.

Lemma ok_copy h : outcome_ok st t (User (UCopy h)) i.
Proof.
  start (UCopy h). destruct (nth_error (handles st) h) as [c|] eqn:Eh; [|discriminate].
  destruct (add_ref_opt_ok _ _ _ _ _ _ c (r_minv _ _ _ _ R)) as (m' & E & I & S).
  { intros s ->. eapply X_refs; eauto. eapply handle_X; eauto. }
  rewrite E. cbn [lift].
  exists (i_set_handles i (i_handles i ++ [c])), L, H. split.
  { eapply iuser_go. cbn [i_user]. rewrite (r_handles _ _ _ _ R), Eh. reflexivity. }
  unfold i_set_handles. rewrite (r_handles _ _ _ _ R), (r_blockers _ _ _ _ R). apply (rel_tables st i L H); auto.
  eapply minv_ext; eauto; intros k; xsolve.
Qed.

Lemma ok_drop h : outcome_ok st t (User (UDrop h)) i.
Proof.
  start (UDrop h). destruct (nth_error (handles st) h) as [c|] eqn:Eh; [|discriminate].
  destruct (release_opt_ok _ _ _ _ _ _ c (r_minv _ _ _ _ R)) as (m' & E & I & S).
  { intros s ->. eapply handle_X; eauto. }
  rewrite E. cbn [lift].
  exists (i_set_handles i (put (i_handles i) h None)), L, H. split.
  { eapply iuser_go. cbn [i_user]. rewrite (r_handles _ _ _ _ R), Eh. reflexivity. }
  unfold i_set_handles. rewrite (r_handles _ _ _ _ R), (r_blockers _ _ _ _ R). apply (rel_tables st i L H); auto.
  eapply minv_ext; eauto; intros k;
  pose proof (tot_upd (hold k) _ _ _ None Eh) as U; revert U; xsolve.
Qed.

Lemma ok_assign h h' : outcome_ok st t (User (UAssign h h')) i.
Proof.
  start (UAssign h h'). destruct (nth_error (handles st) h) as [c|] eqn:Eh; [|discriminate].
  destruct (nth_error (handles st) h') as [c'|] eqn:Eh'; [|discriminate].
  assert (ideal_runs i [EUser t (UAssign h h') ONone] (i_set_handles i (put (i_handles i) h c'))) as IR.
  { eapply iuser_go. cbn [i_user]. rewrite (r_handles _ _ _ _ R), Eh, Eh'. reflexivity. }
  destruct (Nat.eqb_spec h h') as [<- | n].
  - eexists. exists L, H. split; [exact IR|].
    unfold i_set_handles. rewrite (r_handles _ _ _ _ R), (r_blockers _ _ _ _ R).
    assert (put (handles st) h c' = handles st) as ->; [|apply rel_self].
    assert (c' = c) as -> by congruence. clear -Eh. revert h Eh. induction (handles st) as [|x l IH]; intros [|h] E; try discriminate; cbn in *.
    + congruence.
    + f_equal. auto.
  - destruct (release_opt_ok _ _ _ _ _ _ c (r_minv _ _ _ _ R)) as (m1 & E1 & I1 & S1).
    { intros s ->. eapply handle_X; eauto. }
    rewrite E1. cbn [lift].
    destruct (add_ref_opt_ok _ _ _ _ _ _ c' I1) as (m2 & E2 & I2 & S2).
    { intros s ->. rewrite (mi_refs _ _ _ _ _ _ I1).
      assert (nth_error (upd (handles st) h None) h' = Some (Some s)) as En by (rewrite nth_upd_other; auto).
      pose proof (tot_pos (hold s) _ _ _ En) as P. rewrite hold_some in P.
      pose proof (tot_upd (hold s) _ _ _ None Eh) as U. unfold X. revert P U. xsolve. }
    rewrite E2. cbn [lift].
    eexists. exists L, H. split; [exact IR|].
    unfold i_set_handles. rewrite (r_handles _ _ _ _ R), (r_blockers _ _ _ _ R). apply (rel_tables st i L H); auto.
    { eapply same_trans; eauto. }
    eapply minv_ext; eauto; intros k;
    pose proof (tot_upd (hold k) _ _ _ c' Eh) as U; pose proof (tot_pos (hold k) _ _ _ Eh) as P; revert U P; xsolve.
Qed.

Lemma ok_move_handle h : outcome_ok st t (User (UMoveHandle h)) i.
Proof.
  start (UMoveHandle h). destruct (nth_error (handles st) h) as [c|] eqn:Eh; [|discriminate].
  eexists. exists L, H. split.
  { eapply iuser_go. cbn [i_user]. rewrite (r_handles _ _ _ _ R), Eh. reflexivity. }
  unfold i_set_handles. rewrite (r_blockers _ _ _ _ R). apply ok_same_tables; auto.
  intros k. pose proof (tot_upd (hold k) _ _ _ None Eh) as U. revert U. xsolve.
Qed.

Lemma tot_swap (f : option nat -> nat) (l : list (option nat)) a b x y :
  nth_error l a = Some x -> nth_error l b = Some y -> tot f (upd (upd l a y) b x) = tot f l.
Proof.
  intros Ea Eb. pose proof (tot_upd f _ _ _ y Ea) as U1.
  destruct (Nat.eq_dec b a) as [-> | n].
  - assert (nth_error (upd l a y) a = Some y) as E by (apply nth_upd_same; apply nth_error_Some; congruence).
    pose proof (tot_upd f _ _ _ x E) as U2. lia.
  - assert (nth_error (upd l a y) b = Some y) as E by (rewrite nth_upd_other; auto).
    pose proof (tot_upd f _ _ _ x E) as U2. lia.
Qed.

Lemma ok_swap_handles h h' : outcome_ok st t (User (USwapHandles h h')) i.
Proof.
  start (USwapHandles h h'). destruct (nth_error (handles st) h) as [c|] eqn:Eh; [|discriminate].
  destruct (nth_error (handles st) h') as [c'|] eqn:Eh'; [|discriminate].
  eexists. exists L, H. split.
  { eapply iuser_go. cbn [i_user]. rewrite (r_handles _ _ _ _ R), Eh, Eh'. reflexivity. }
  unfold i_set_handles. rewrite (r_blockers _ _ _ _ R). apply ok_same_tables; auto.
  intros k. apply tot_swap; auto.
Qed.

Lemma ok_connected h : outcome_ok st t (User (UConnected h)) i.
Proof.
  start (UConnected h). destruct (nth_error (handles st) h) as [[s|]|] eqn:Eh; [| |discriminate].
  - assert (0 < refs (mm st) s) as Hp by (eapply X_refs; eauto; eapply handle_X; eauto).
    rewrite (get_slot_ok _ _ (mi_wf _ _ _ _ _ _ (r_minv _ _ _ _ R)) Hp). cbn [lift].
    exists i, L, H. split; auto.
    eapply iuser_go. cbn [i_user]. rewrite (r_handles _ _ _ _ R), Eh. unfold i_conn. rewrite (r_slots _ _ _ _ R). reflexivity.
  - exists i, L, H. split; auto. eapply iuser_go. cbn [i_user]. rewrite (r_handles _ _ _ _ R), Eh. reflexivity.
Qed.

Lemma ok_add_blocker o c :
  user_step st t th o = lift (add_ref_opt (mm st) c) (fun m => lift (block_opt m c) (fun m =>
            Next (set_blockers (set_mem st m) (blockers st ++ [c])) ONone)) ->
  i_user i t is o = Some (i_set_blockers i (i_blockers i ++ [c]), ONone) ->
  (forall s, c = Some s -> 0 < X st s) ->
  outcome_ok st t (User o) i.
Proof.
  intros Eu Eiu Hc. unfold outcome_ok. rewrite (user_go o _ Eu).
  destruct (add_ref_opt_ok _ _ _ _ _ _ c (r_minv _ _ _ _ R)) as (m1 & E1 & I1 & S1).
  { intros s ->. eapply X_refs; eauto. }
  rewrite E1. cbn [lift].
  destruct (block_opt_ok _ _ _ _ _ _ c I1) as (m2 & E2 & I2 & S2).
  { intros s ->. rewrite (mi_refs _ _ _ _ _ _ I1). specialize (Hc s eq_refl). cbn. rewrite Nat.eqb_refl. lia. }
  rewrite E2. cbn [lift].
  exists (i_set_blockers i (i_blockers i ++ [c])), L, H. split; [eapply iuser_go; eauto|].
  unfold i_set_blockers. rewrite (r_handles _ _ _ _ R), (r_blockers _ _ _ _ R). apply (rel_tables st i L H); auto.
  { eapply same_trans; eauto. }
  eapply minv_ext; eauto; intros k; xsolve.
Qed.

Lemma ok_block h : outcome_ok st t (User (UBlock h)) i.
Proof.
  destruct (nth_error (handles st) h) as [c|] eqn:Eh.
  - eapply (ok_add_blocker (UBlock h) c).
    + cbn [user_step]. rewrite Eh. reflexivity.
    + cbn [i_user]. rewrite (r_handles _ _ _ _ R), Eh. reflexivity.
    + intros s ->. eapply handle_X; eauto.
  - start (UBlock h). rewrite Eh. discriminate.
Qed.

Lemma ok_copy_blocker b : outcome_ok st t (User (UCopyBlocker b)) i.
Proof.
  destruct (nth_error (blockers st) b) as [c|] eqn:Eh.
  - eapply (ok_add_blocker (UCopyBlocker b) c).
    + cbn [user_step]. rewrite Eh. reflexivity.
    + cbn [i_user]. rewrite (r_blockers _ _ _ _ R), Eh. reflexivity.
    + intros s ->. eapply blocker_X; eauto.
  - start (UCopyBlocker b). rewrite Eh. discriminate.
Qed.

Lemma ok_move_blocker h : outcome_ok st t (User (UMoveBlocker h)) i.
Proof.
  start (UMoveBlocker h). destruct (nth_error (blockers st) h) as [c|] eqn:Eh; [|discriminate].
  eexists. exists L, H. split.
  { eapply iuser_go. cbn [i_user]. rewrite (r_blockers _ _ _ _ R), Eh. reflexivity. }
  unfold i_set_blockers. rewrite (r_handles _ _ _ _ R). apply ok_same_tables; auto.
  intros k. pose proof (tot_upd (hold k) _ _ _ None Eh) as U. revert U. xsolve.
Qed.

Lemma ok_swap_blockers h h' : outcome_ok st t (User (USwapBlockers h h')) i.
Proof.
  start (USwapBlockers h h'). destruct (nth_error (blockers st) h) as [c|] eqn:Eh; [|discriminate].
  destruct (nth_error (blockers st) h') as [c'|] eqn:Eh'; [|discriminate].
  eexists. exists L, H. split.
  { eapply iuser_go. cbn [i_user]. rewrite (r_blockers _ _ _ _ R), Eh, Eh'. reflexivity. }
  unfold i_set_blockers. rewrite (r_handles _ _ _ _ R). apply ok_same_tables; auto.
  intros k. apply tot_swap; auto.
Qed.

Lemma ok_drop_blocker b : outcome_ok st t (User (UDropBlocker b)) i.
Proof.
  start (UDropBlocker b). destruct (nth_error (blockers st) b) as [c|] eqn:Eh; [|discriminate].
  destruct (unblock_opt_ok _ _ _ _ _ _ c (r_minv _ _ _ _ R)) as (m1 & E1 & I1 & S1).
  { intros s ->. destruct (blocker_X _ _ _ Eh). split; auto. eapply X_refs; eauto. }
  rewrite E1. cbn [lift].
  destruct (release_opt_ok _ _ _ _ _ _ c I1) as (m2 & E2 & I2 & S2).
  { intros s ->. eapply blocker_X; eauto. }
  rewrite E2. cbn [lift].
  exists (i_set_blockers i (put (i_blockers i) b None)), L, H. split.
  { eapply iuser_go. cbn [i_user]. rewrite (r_blockers _ _ _ _ R), Eh. reflexivity. }
  unfold i_set_blockers. rewrite (r_handles _ _ _ _ R), (r_blockers _ _ _ _ R). apply (rel_tables st i L H); auto.
  { eapply same_trans; eauto. }
  eapply minv_ext; eauto; intros k; pose proof (tot_upd (hold k) _ _ _ None Eh) as U; revert U; xsolve.
Qed.

Lemma ok_assign_blocker b b' : outcome_ok st t (User (UAssignBlocker b b')) i.
Proof.
  start (UAssignBlocker b b'). destruct (nth_error (blockers st) b) as [c|] eqn:Eh; [|discriminate].
  destruct (nth_error (blockers st) b') as [c'|] eqn:Eh'; [|discriminate].
  assert (ideal_runs i [EUser t (UAssignBlocker b b') ONone] (i_set_blockers i (put (i_blockers i) b c'))) as IR.
  { eapply iuser_go. cbn [i_user]. rewrite (r_blockers _ _ _ _ R), Eh, Eh'. reflexivity. }
  destruct (Nat.eqb_spec b b') as [<- | n].
  - eexists. exists L, H. split; [exact IR|].
    unfold i_set_blockers. rewrite (r_handles _ _ _ _ R), (r_blockers _ _ _ _ R).
    assert (put (blockers st) b c' = blockers st) as ->; [|apply rel_self].
    assert (c' = c) as -> by congruence. clear -Eh. revert b Eh. induction (blockers st) as [|x l IH]; intros [|h] E; try discriminate; cbn in *.
    + congruence.
    + f_equal. auto.
  - destruct (unblock_opt_ok _ _ _ _ _ _ c (r_minv _ _ _ _ R)) as (m1 & E1 & I1 & S1).
    { intros s ->. destruct (blocker_X _ _ _ Eh). split; auto. eapply X_refs; eauto. }
    rewrite E1. cbn [lift].
    destruct (release_opt_ok _ _ _ _ _ _ c I1) as (m2 & E2 & I2 & S2).
    { intros s ->. eapply blocker_X; eauto. }
    rewrite E2. cbn [lift].
    assert (forall s, c' = Some s -> 0 < refs m2 s) as Hp.
    { intros s ->. rewrite (mi_refs _ _ _ _ _ _ I2).
      assert (nth_error (upd (blockers st) b None) b' = Some (Some s)) as En by (rewrite nth_upd_other; auto).
      pose proof (tot_pos (hold s) _ _ _ En) as P. rewrite hold_some in P.
      pose proof (tot_upd (hold s) _ _ _ None Eh) as U. unfold X. revert P U. xsolve. }
    destruct (add_ref_opt_ok _ _ _ _ _ _ c' I2 Hp) as (m3 & E3 & I3 & S3).
    rewrite E3. cbn [lift].
    destruct (block_opt_ok _ _ _ _ _ _ c' I3) as (m4 & E4 & I4 & S4).
    { intros s Es. specialize (Hp s Es). rewrite (mi_refs _ _ _ _ _ _ I2) in Hp. rewrite (mi_refs _ _ _ _ _ _ I3).
      destruct (is_slot c' s); lia. }
    rewrite E4. cbn [lift].
    eexists. exists L, H. split; [exact IR|].
    unfold i_set_blockers. rewrite (r_handles _ _ _ _ R), (r_blockers _ _ _ _ R). apply (rel_tables st i L H); auto.
    { eapply same_trans; [|eauto]. eapply same_trans; [|eauto]. eapply same_trans; eauto. }
    eapply minv_ext; eauto; intros k;
    pose proof (tot_upd (hold k) _ _ _ c' Eh) as U; pose proof (tot_pos (hold k) _ _ _ Eh) as P; revert U P; xsolve.
Qed.

Lemma ok_num_slots g : outcome_ok st t (User (UNumSlots g)) i.
Proof.
  start (UNumSlots g). destruct (sig_live (mm st) g) eqn:Eg; [|discriminate].
  assert (glive (mm st) g = true) as Hg by exact Eg.
  rewrite (num_slots_ok _ _ _ _ _ _ _ (r_minv _ _ _ _ R) Hg). cbn [lift].
  exists i, L, H. split; auto.
  eapply iuser_go. cbn [i_user]. unfold i_alive. rewrite (r_live _ _ _ _ R), Hg, (r_order _ _ _ _ R). reflexivity.
Qed.

End Tables.

(* --------------------------------------------------------------- signals *)

Lemma nth_put {T} (l : list T) g v d k :
  g < length l -> nth k (put l g v) d = if Nat.eqb k g then v else nth k l d.
Proof.
  revert g k. induction l as [|x l IH]; intros g k Hg; cbn in Hg; [lia|].
  destruct g as [|g], k as [|k]; cbn; auto. apply IH. lia.
Qed.

Lemma length_put {T} (l : list T) g v : length (put l g v) = length l.
Proof. apply length_upd. Qed.

Lemma nth_snoc {T} (l : list T) v d k : nth k (l ++ [v]) d = if Nat.eqb k (length l) then v else nth k l d.
Proof.
  destruct (Nat.eqb_spec k (length l)) as [-> | n].
  - rewrite app_nth2, Nat.sub_diag; auto.
  - destruct (le_lt_dec (length l) k) as [Hl|Hl].
    + rewrite app_nth2 by auto. destruct (k - length l) as [|j] eqn:E; [lia|]. cbn.
      rewrite (nth_overflow l) by auto. destruct j; auto.
    + rewrite app_nth1 by auto. auto.
Qed.

Lemma nth_map_none (f : option nat -> option nat) l s : f None = None -> nth s (map f l) None = f (nth s l None).
Proof. intros E. rewrite <- E at 1. apply map_nth. Qed.

Lemma connected_eq m m' s : conn m' s = conn m s -> connected m' s = connected m s.
Proof. unfold connected. now intros ->. Qed.

Section Signals.
Variables (st : state) (i : ideal) (L : nat -> list nat) (H : nat -> option nat) (t : nat) (th : thread) (is : list iframe).
Hypothesis R : rel st i L H.
Hypothesis Et : nth_error (threads st) t = Some th.
Hypothesis Ei : nth_error (i_threads i) t = Some is.
Hypothesis Hr : user_ready th = true.
Hypothesis Hir : i_ready is = true.

Ltac start o := unfold outcome_ok; rewrite (user_go st t th Et Hr o _ eq_refl); cbn [user_step].
Ltac cbns := unfold set_mem, set_handles, set_blockers, set_thread; cbn [mm threads handles blockers lost fresh i_slots i_order i_live i_threads i_handles i_blockers i_fresh].

Lemma in_list s g : In s (L g) <-> H s = Some g.
Proof. apply (mi_in _ _ _ _ _ _ (r_minv _ _ _ _ R)). Qed.

Lemma list_old s g : In s (L g) -> s < length (heap (mm st)).
Proof. eapply minv_bound. apply (r_minv _ _ _ _ R). Qed.

Lemma dead_elsewhere s : H s = None -> conn (mm st) s = None.
Proof. intros E. destruct (conn (mm st) s) as [g|] eqn:Ec; auto. apply (r_sender _ _ _ _ R) in Ec. congruence. Qed.

Lemma ok_new_signal : outcome_ok st t (User UNewSignal) i.
Proof.
  start UNewSignal. eexists. exists L, H. split.
  { eapply iuser_go; eauto. reflexivity. }
  destruct (new_sig_ok _ _ _ _ _ _ (r_minv _ _ _ _ R)) as [I [Sc Sd Sg Sh Ss]].
  set (m' := mkmem _ _) in *.
  assert (mem_ok st L m' L) as M.
  { constructor.
    - lia.
    - intros s _. rewrite (connected_eq _ _ _ (Sc s)). auto.
    - intros g _. exists [], []. now rewrite app_nil_r.
    - intros g _ E. rewrite Sg. unfold fupd. destruct (Nat.eqb g _); auto. }
  pose proof (threads_same _ _ _ _ _ _ R M) as Th.
  destruct R as [r_minv0 r_sender0 r_dead0 r_dfr0 r_gone0 r_handles0 r_blockers0 r_fresh0 r_slen0 r_slots0 r_olen0 r_order0 r_llen0 r_live0 r_threads0].
  constructor; cbns; auto.
  - intros s g E1 E2. destruct (r_dead0 s g E1 E2) as [E|E]; auto. left. rewrite Sd. auto.
  - intros g E. rewrite Sd in E. apply r_dfr0; auto.
  - intros g E. rewrite Sg in E. unfold fupd in E. destruct (Nat.eqb g _); [discriminate|auto].
  - cbn. rewrite !app_length. cbn. lia.
  - intros g. rewrite nth_snoc. destruct (Nat.eqb_spec g (length (i_order i))) as [-> | n]; [|apply r_order0].
    destruct (minv_out _ _ _ _ _ _ (length (i_order i)) r_minv0) as [E _]; [lia|]. now rewrite E.
  - cbn. rewrite !app_length. cbn. lia.
  - intros g. rewrite nth_snoc. rewrite Sg. unfold fupd. rewrite r_llen0. destruct (Nat.eqb g _); auto.
Qed.

Lemma ok_connect g (at_front : bool) : outcome_ok st t (User (UConnect g at_front)) i.
Proof.
  start (UConnect g at_front). destruct (sig_live (mm st) g) eqn:Eg; [|discriminate].
  assert (glive (mm st) g = true) as Hg by exact Eg.
  destruct (connect_ok _ _ _ _ _ _ g at_front (r_minv _ _ _ _ R) Hg) as (m' & E & I & [Sc Sd Sg Sh Ss]).
  rewrite E. cbn [lift fst snd]. set (s := length (heap (mm st))) in *.
  set (L' := fupd L g _) in *. set (H' := fupd H s _) in *.
  assert (forall k, ~ In s (L k)) as Hns by (intros k Hk; apply list_old in Hk; unfold s in Hk; lia).
  assert (forall k, k < s -> conn m' k = conn (mm st) k) as Hc by (intros k Hk; rewrite Sc, fupd_other; auto; lia).
  eexists. exists L', H'. split.
  { eapply iuser_go; eauto. cbn [i_user]. unfold i_alive. rewrite (r_live _ _ _ _ R), Hg.
    rewrite (r_slen _ _ _ _ R). fold s. reflexivity. }
  assert (mem_ok st L m' L') as M.
  { constructor.
    - lia.
    - intros k Hk. rewrite (connected_eq (mm st)); auto.
    - intros k _. unfold L', fupd. destruct (Nat.eqb_spec k g) as [-> | n].
      + destruct at_front; [exists [s], []; now rewrite app_nil_r|exists [], [s]; auto].
      + exists [], []. now rewrite app_nil_r.
    - intros k _ Ek. now rewrite Sg. }
  pose proof (threads_same _ _ _ _ _ _ R M) as Th.
  assert (forall k, filter (connected m') (L k) = filter (connected (mm st)) (L k)) as Hf.
  { intros k. apply filter_ext_in. intros x Hx. apply connected_eq, Hc. apply list_old in Hx. auto. }
  assert (connected m' s = true) as Hcs by (unfold connected; rewrite Sc, fupd_same; auto).
  pose proof (r_order _ _ _ _ R g) as Og.
  pose proof in_list as Hin.
  destruct R as [r_minv0 r_sender0 r_dead0 r_dfr0 r_gone0 r_handles0 r_blockers0 r_fresh0 r_slen0 r_slots0 r_olen0 r_order0 r_llen0 r_live0 r_threads0].
  constructor; cbns; auto.
  - eapply minv_ext; eauto. intros k.
    change (X st k) with (tot (hold k) (handles st) + tot (hold k) (blockers st) + tot (thread_holds k) (threads st) +
       tot (fun j => b2n (Nat.eqb j k)) (lost st)).
    unfold X; cbns. rewrite tot_app. cbn [tot]. rewrite (hold_eq k (Some s)). cbn [is_slot]. rewrite (Nat.eqb_sym s k).
    destruct (Nat.eqb k s); cbn [b2n]; lia.
  - intros x k E1. rewrite Sc in E1. unfold H', fupd in *. fold s in E1. destruct (Nat.eqb x s); auto.
  - intros x k E1 E2. rewrite Sc in E2. unfold H', fupd in *. fold s in E2. destruct (Nat.eqb x s) eqn:Ex; [discriminate|].
    rewrite Sd. apply r_dead0; auto.
  - intros k E1. rewrite Sd in E1. apply r_dfr0; auto.
  - intros k E1. rewrite Sg in E1. unfold L', fupd. destruct (Nat.eqb_spec k g) as [-> | n]; [congruence|auto].
  - now rewrite r_handles0.
  - rewrite app_length, r_slen0, Sh. cbn. lia.
  - intros k. rewrite nth_snoc, r_slen0. fold s. rewrite Sc. unfold fupd. fold s. destruct (Nat.eqb k s); auto.
  - rewrite length_put. congruence.
  - intros k. rewrite nth_put by (rewrite r_olen0; apply glive_range; auto). unfold L', fupd.
    destruct (Nat.eqb_spec k g) as [-> | n].
    + rewrite Og. destruct at_front; cbn [filter].
      * rewrite Hcs, Hf. auto.
      * rewrite filter_app, Hf. cbn [filter]. rewrite Hcs. auto.
    + rewrite Hf. auto.
  - congruence.
  - intros k. rewrite Sg. auto.
Qed.

Lemma ideal_dropped g s :
  (match nth s (i_slots i) None with Some k => if Nat.eqb k g then None else nth s (i_slots i) None | None => None end)
  = resend L g None (conn (mm st)) s.
Proof.
  rewrite (r_slots _ _ _ _ R). unfold resend. destruct (in_dec Nat.eq_dec s (L g)) as [Hi|Hi].
  - destruct (conn (mm st) s) as [k|] eqn:Ec; auto. apply (r_sender _ _ _ _ R) in Ec.
    apply in_list in Hi. assert (k = g) as -> by congruence. now rewrite Nat.eqb_refl.
  - destruct (conn (mm st) s) as [k|] eqn:Ec; auto. destruct (Nat.eqb_spec k g) as [-> | n]; auto.
    apply (r_sender _ _ _ _ R) in Ec. apply in_list in Ec. contradiction.
Qed.

Lemma resend_none_conn g m' : (forall s, conn m' s = resend L g None (conn (mm st)) s) ->
  (forall s, connected m' s = true -> connected (mm st) s = true) /\
  (forall s, In s (L g) -> connected m' s = false) /\
  (forall k, k <> g -> filter (connected m') (L k) = filter (connected (mm st)) (L k)).
Proof.
  intros Hc. repeat split.
  - intros s. unfold connected. rewrite Hc. unfold resend. destruct (in_dec Nat.eq_dec s (L g)); auto. discriminate.
  - intros s Hs. unfold connected. rewrite Hc. unfold resend. destruct (in_dec Nat.eq_dec s (L g)); auto. contradiction.
  - intros k Hk. apply filter_ext_in. intros s Hs. apply connected_eq. rewrite Hc. unfold resend.
    destruct (in_dec Nat.eq_dec s (L g)) as [Hi|]; auto. apply in_list in Hi. apply in_list in Hs. congruence.
Qed.

Lemma filter_false {T} (f : T -> bool) l : (forall x, In x l -> f x = false) -> filter f l = [].
Proof. induction l as [|x l IH]; cbn; intros Hx; auto. rewrite Hx by auto. auto. Qed.

Lemma ok_disconnect_all g : outcome_ok st t (User (UDisconnectAll g)) i.
Proof.
  start (UDisconnectAll g). destruct (sig_live (mm st) g) eqn:Eg; [|discriminate].
  assert (glive (mm st) g = true) as Hg by exact Eg.
  destruct (disconnect_all_ok _ _ _ _ _ _ g (r_minv _ _ _ _ R) Hg) as (m' & E & Z1 & Z2).
  rewrite E. cbn [lift].
  assert (ideal_runs i [EUser t (UDisconnectAll g) ONone] (i_disconnect_all i g)) as IR.
  { eapply iuser_go; eauto. cbn [i_user]. unfold i_alive. rewrite (r_live _ _ _ _ R), Hg. reflexivity. }
  pose proof (mi_act _ _ _ _ _ _ (r_minv _ _ _ _ R) g) as Ea.
  pose proof ideal_dropped as ID. pose proof in_list as Hin.
  destruct (Nat.eq_dec (gact (mm st) g) 0) as [e|e].
  - destruct (Z1 e) as [I [Sc Sd Sg Sh Ss]]. destruct (resend_none_conn g m' Sc) as (C1 & C2 & C3).
    exists (i_disconnect_all i g), (fupd L g []), (drop_all L g H). split; auto.
    assert (mem_ok st L m' (fupd L g [])) as M.
    { constructor; [lia|auto| |intros k _; now rewrite Sg].
      intros k Hk. apply A_pos in Hk. unfold fupd. destruct (Nat.eqb_spec k g) as [-> | n]; [lia|].
      exists [], []. now rewrite app_nil_r. }
    pose proof (threads_same _ _ _ _ _ _ R M) as Th.
    destruct R as [r_minv0 r_sender0 r_dead0 r_dfr0 r_gone0 r_handles0 r_blockers0 r_fresh0 r_slen0 r_slots0 r_olen0 r_order0 r_llen0 r_live0 r_threads0].
    constructor; cbns; auto.
    + intros s k Es. rewrite Sc in Es. unfold resend, drop_all in *. destruct (in_dec Nat.eq_dec s (L g)); [discriminate|auto].
    + intros s k E1 E2. rewrite Sc in E2. unfold resend, drop_all in *. destruct (in_dec Nat.eq_dec s (L g)); [discriminate|].
      rewrite Sd. apply r_dead0; auto.
    + intros k Ek. rewrite Sd in Ek. apply r_dfr0; auto.
    + intros k Ek. rewrite Sg in Ek. unfold fupd. destruct (Nat.eqb k g); auto.
    + cbn. rewrite map_length. congruence.
    + intros s. cbn. rewrite (nth_map_none (fun c => match c with Some k => if Nat.eqb k g then None else c | None => None end)) by auto.
      rewrite Sc. apply ID.
    + cbn. rewrite length_put. congruence.
    + intros k. cbn. rewrite nth_put by (rewrite r_olen0; apply glive_range; auto). unfold fupd.
      destruct (Nat.eqb_spec k g) as [-> | n]; auto. rewrite C3; auto.
    + cbn. congruence.
    + intros k. rewrite Sg. apply r_live0.
  - destruct (Z2 e) as [I [Sc Sd Sg Sh Ss]]. destruct (resend_none_conn g m' Sc) as (C1 & C2 & C3).
    exists (i_disconnect_all i g), L, H. split; auto.
    assert (forall k, gdfr (mm st) k = true -> gdfr m' k = true) as Sd1.
    { intros k Ek. rewrite Sd. destruct (L g); auto. unfold fupd. destruct (Nat.eqb k g); auto. }
    assert (L g <> [] -> gdfr m' g = true) as Sd2.
    { intros Hn. rewrite Sd. destruct (L g); [contradiction|]. apply fupd_same. }
    assert (mem_ok st L m' L) as M.
    { constructor; [lia|auto| |intros k _; now rewrite Sg].
      intros k Hk. exists [], []. now rewrite app_nil_r. }
    pose proof (threads_same _ _ _ _ _ _ R M) as Th.
    destruct R as [r_minv0 r_sender0 r_dead0 r_dfr0 r_gone0 r_handles0 r_blockers0 r_fresh0 r_slen0 r_slots0 r_olen0 r_order0 r_llen0 r_live0 r_threads0].
    constructor; cbns; auto.
    + intros s k Es. rewrite Sc in Es. unfold resend in *. destruct (in_dec Nat.eq_dec s (L g)); [discriminate|auto].
    + intros s k E1 E2. rewrite Sc in E2. unfold resend in *. destruct (in_dec Nat.eq_dec s (L g)) as [Hi|Hi].
      * left. assert (k = g) as -> by (apply Hin in Hi; congruence). apply Sd2. intros En. rewrite En in Hi. destruct Hi.
      * destruct (r_dead0 s k E1 E2); auto.
    + intros k Ek. rewrite Sd in Ek. destruct (L g) as [|y yl]; [apply r_dfr0; auto|].
      unfold fupd in Ek. destruct (Nat.eqb_spec k g) as [Ekg|n0]; [rewrite Ekg; rewrite Ea in e; unfold A in *; cbns; lia|apply r_dfr0; auto].
    + intros k Ek. rewrite Sg in Ek. auto.
    + cbn. rewrite map_length. congruence.
    + intros s. cbn. rewrite (nth_map_none (fun c => match c with Some k => if Nat.eqb k g then None else c | None => None end)) by auto.
      rewrite Sc. apply ID.
    + cbn. rewrite length_put. congruence.
    + intros k. cbn. rewrite nth_put by (rewrite r_olen0; apply glive_range; auto).
      destruct (Nat.eqb_spec k g) as [-> | n].
      * symmetry. apply filter_false. auto.
      * rewrite C3; auto.
    + cbn. congruence.
    + intros k. rewrite Sg. apply r_live0.
Qed.

Lemma not_dfr g : gact (mm st) g = 0 -> gdfr (mm st) g = false.
Proof.
  intros E. destruct (gdfr (mm st) g) eqn:Ed; auto. apply (r_dfr _ _ _ _ R) in Ed.
  rewrite (mi_act _ _ _ _ _ _ (r_minv _ _ _ _ R)) in E. lia.
Qed.

(** With no emission and no disconnect under way every slot in the list is connected. *)
Lemma all_connected g : gact (mm st) g = 0 -> ~ disconnecting st g -> forall s, In s (L g) -> conn (mm st) s = Some g.
Proof.
  intros Ea Hd s Hs. apply in_list in Hs. destruct (conn (mm st) s) as [k|] eqn:Ec.
  - apply (r_sender _ _ _ _ R) in Ec. congruence.
  - destruct (r_dead _ _ _ _ R s g Hs Ec) as [E|E]; [rewrite (not_dfr g Ea) in E; discriminate|].
    apply mid_disconnecting in E. contradiction.
Qed.

Lemma ok_destroy g : ~ disconnecting st g -> ~ emitting st g -> outcome_ok st t (User (UDestroy g)) i.
Proof.
  intros Hd He. start (UDestroy g). destruct (sig_live (mm st) g) eqn:Eg; [|discriminate].
  assert (glive (mm st) g = true) as Hg by exact Eg.
  assert (gact (mm st) g = 0) as Ha.
  { rewrite (mi_act _ _ _ _ _ _ (r_minv _ _ _ _ R)). rewrite <- A_pos in He. lia. }
  destruct (destroy_ok _ _ _ _ _ _ g (r_minv _ _ _ _ R) Hg Ha) as (m' & E & I & [Sc Sd Sg Sh Ss]).
  rewrite E. cbn [lift].
  eexists. exists (fupd L g []), (drop_all L g H). split.
  { eapply iuser_go; eauto. cbn [i_user]. unfold i_alive. rewrite (r_live _ _ _ _ R), Hg. reflexivity. }
  pose proof ideal_dropped as ID. pose proof in_list as Hin.
  destruct (resend_none_conn g m' Sc) as (C1 & C2 & C3).
  assert (mem_ok st L m' (fupd L g [])) as M.
  { constructor; [lia|auto| |].
    - intros k Hk. unfold fupd. destruct (Nat.eqb_spec k g) as [-> | n]; [contradiction|].
      exists [], []. now rewrite app_nil_r.
    - intros k Hk Ek. rewrite Sg. unfold fupd. destruct (Nat.eqb_spec k g) as [-> | n]; auto. destruct Hk; contradiction. }
  pose proof (threads_same _ _ _ _ _ _ R M) as Th.
  destruct R as [r_minv0 r_sender0 r_dead0 r_dfr0 r_gone0 r_handles0 r_blockers0 r_fresh0 r_slen0 r_slots0 r_olen0 r_order0 r_llen0 r_live0 r_threads0].
  pose proof (glive_range _ _ Hg) as Hlen.
  constructor; cbns; auto.
  + intros s k Es. rewrite Sc in Es. unfold resend, drop_all in *. destruct (in_dec Nat.eq_dec s (L g)); [discriminate|auto].
  + intros s k E1 E2. rewrite Sc in E2. unfold resend, drop_all in *. destruct (in_dec Nat.eq_dec s (L g)); [discriminate|].
    rewrite Sd. apply r_dead0; auto.
  + intros k Ek. rewrite Sd in Ek. apply r_dfr0; auto.
  + intros k Ek. rewrite Sg in Ek. unfold fupd in *. destruct (Nat.eqb k g); auto.
  + cbn. rewrite map_length. congruence.
  + intros s. cbn. rewrite (nth_map_none (fun c => match c with Some k => if Nat.eqb k g then None else c | None => None end)) by auto.
    rewrite Sc. apply ID.
  + cbn. rewrite length_put. congruence.
  + intros k. cbn. rewrite nth_put by (rewrite r_olen0; auto). unfold fupd.
    destruct (Nat.eqb_spec k g) as [-> | n]; auto. rewrite C3; auto.
  + cbn. rewrite length_put. congruence.
  + intros k. cbn. rewrite nth_put by (rewrite r_llen0; auto). rewrite Sg. unfold fupd. destruct (Nat.eqb k g); auto.
Qed.

Lemma nth_rename f l s : nth s (i_rename f l) None = match nth s l None with Some k => Some (f k) | None => None end.
Proof. unfold i_rename. apply (nth_map_none (fun c => match c with Some k => Some (f k) | None => None end)). auto. Qed.

Lemma ok_swap a b : (a <> b -> ~ disconnecting st a /\ ~ disconnecting st b) -> outcome_ok st t (User (USwap a b)) i.
Proof.
  intros Hd. start (USwap a b).
  destruct (sig_live (mm st) a) eqn:Ea; cbn [andb]; [|discriminate].
  destruct (sig_live (mm st) b) eqn:Eb; [|discriminate].
  assert (glive (mm st) a = true) as Ha by exact Ea. assert (glive (mm st) b = true) as Hb by exact Eb.
  pose proof (glive_range _ _ Ha) as La. pose proof (glive_range _ _ Hb) as Lb.
  assert (exists j, i_user i t is (USwap a b) = Some (j, ONone) /\
    j = mkideal (i_rename (fun k => if Nat.eqb k a then b else if Nat.eqb k b then a else k) (i_slots i))
                (put (put (i_order i) a (nth b (i_order i) [])) b (nth a (i_order i) [])) (i_live i)
                (i_threads i) (i_handles i) (i_blockers i) (i_fresh i)) as (j & Ej & Dj).
  { eexists. split; [|reflexivity]. cbn [i_user]. unfold i_alive. rewrite !(r_live _ _ _ _ R), Ha, Hb. reflexivity. }
  destruct (Nat.eq_dec a b) as [<- | n].
  - unfold swap_sigs. rewrite Nat.eqb_refl. cbn [lift].
    exists j, L, H. split; [eapply iuser_go; eauto|]. subst j. unfold set_mem.
    destruct R as [r_minv0 r_sender0 r_dead0 r_dfr0 r_gone0 r_handles0 r_blockers0 r_fresh0 r_slen0 r_slots0 r_olen0 r_order0 r_llen0 r_live0 r_threads0].
    constructor; cbns; auto.
    + unfold i_rename. rewrite map_length. auto.
    + intros s. rewrite nth_rename, r_slots0. destruct (conn (mm st) s) as [k|]; auto. destruct (Nat.eqb_spec k a); congruence.
    + rewrite !length_put. auto.
    + intros g. rewrite !nth_put by (rewrite ?length_put; lia). destruct (Nat.eqb_spec g a) as [-> | n]; auto.
  - unfold swap_sigs. destruct (Nat.eqb_spec a b) as [|_]; [contradiction|].
    rewrite (get_sig_ok _ _ Ha), (get_sig_ok _ _ Hb). cbn [obind g_active].
    destruct (Nat.eqb_spec (gact (mm st) a) 0) as [e1|e1]; cbn [andb negb lift]; auto.
    destruct (Nat.eqb_spec (gact (mm st) b) 0) as [e2|e2]; cbn [andb negb lift]; auto.
    destruct (swap_ok _ _ _ _ _ _ a b (r_minv _ _ _ _ R) n Ha Hb e1 e2 (not_dfr _ e1) (not_dfr _ e2)) as (m' & E & I & [Sc Sd Sg Sh Ss]).
    assert (forall A0 (x : outcome A0) (k : A0 -> result), lift x k = lift x k) as _ by auto.
    unfold swap_sigs in E. destruct (Nat.eqb_spec a b) as [|_]; [contradiction|].
    rewrite (get_sig_ok _ _ Ha), (get_sig_ok _ _ Hb) in E. cbn [obind g_active] in E.
    rewrite e1, e2 in E. cbn [Nat.eqb andb negb] in E. rewrite e1, e2. rewrite E. cbn [lift].
    destruct (Hd n) as [Hda Hdb].
    assert (forall s, In s (L a) -> conn (mm st) s = Some a) as Ca by (apply all_connected; auto).
    assert (forall s, In s (L b) -> conn (mm st) s = Some b) as Cb by (apply all_connected; auto).
    pose proof in_list as Hin.
    assert (forall s, conn m' s = match conn (mm st) s with Some k => Some (if Nat.eqb k a then b else if Nat.eqb k b then a else k) | None => None end) as Cm.
    { intros s. rewrite Sc. unfold resend. destruct (in_dec Nat.eq_dec s (L a)) as [Ia|Ia].
      - rewrite (Ca s Ia). now rewrite Nat.eqb_refl.
      - destruct (in_dec Nat.eq_dec s (L b)) as [Ib|Ib].
        + rewrite (Cb s Ib). destruct (Nat.eqb_spec b a); [congruence|]. now rewrite Nat.eqb_refl.
        + destruct (conn (mm st) s) as [k|] eqn:Ek; auto. apply (r_sender _ _ _ _ R) in Ek. apply in_list in Ek.
          destruct (Nat.eqb_spec k a) as [-> | n1]; [contradiction|]. destruct (Nat.eqb_spec k b) as [-> | n2]; [contradiction|auto]. }
    assert (forall s, connected m' s = connected (mm st) s) as Cn by (intros s; unfold connected; rewrite Cm; destruct (conn (mm st) s); auto).
    exists j, (swap_fn L a b), (fun s => swap_name a b (H s)). split; [eapply iuser_go; eauto|]. subst j.
    assert (mem_ok st L m' (swap_fn L a b)) as M.
    { constructor; [lia| | |intros k _; now rewrite Sg].
      - intros s _. now rewrite Cn.
      - intros k Hk. apply A_pos in Hk. rewrite (mi_act _ _ _ _ _ _ (r_minv _ _ _ _ R)) in e1, e2.
        unfold swap_fn, fupd. destruct (Nat.eqb_spec k b) as [-> | n1]; [lia|]. destruct (Nat.eqb_spec k a) as [-> | n2]; [lia|].
        exists [], []. now rewrite app_nil_r. }
    pose proof (threads_same _ _ _ _ _ _ R M) as Th.
    destruct R as [r_minv0 r_sender0 r_dead0 r_dfr0 r_gone0 r_handles0 r_blockers0 r_fresh0 r_slen0 r_slots0 r_olen0 r_order0 r_llen0 r_live0 r_threads0].
    constructor; cbns; auto.
    + intros s k Es. rewrite Cm in Es. destruct (conn (mm st) s) as [k'|] eqn:Ek; [|discriminate].
      apply r_sender0 in Ek. rewrite Ek. cbn. exact Es.
    + intros s k E1 E2. rewrite Cm in E2. destruct (conn (mm st) s) as [k'|] eqn:Ek; [discriminate|].
      destruct (H s) as [h|] eqn:Eh; [|discriminate]. cbn in E1. injection E1 as <-. rewrite Sd.
      destruct (r_dead0 s h Eh Ek) as [D|D].
      * destruct (Nat.eqb_spec h a) as [-> | n1]; [|destruct (Nat.eqb_spec h b) as [-> | n2]]; auto.
        -- apply Hin in Eh. rewrite (Ca s Eh) in Ek. discriminate.
        -- apply Hin in Eh. rewrite (Cb s Eh) in Ek. discriminate.
      * destruct (Nat.eqb_spec h a) as [-> | n1]; [|destruct (Nat.eqb_spec h b) as [-> | n2]]; auto.
        -- apply mid_disconnecting in D. contradiction.
        -- apply mid_disconnecting in D. contradiction.
    + intros k Ek. rewrite Sd in Ek. apply r_dfr0; auto.
    + intros k Ek. rewrite Sg in Ek. unfold swap_fn, fupd.
      destruct (Nat.eqb_spec k b) as [-> | n1]; [congruence|]. destruct (Nat.eqb_spec k a) as [-> | n2]; [congruence|auto].
    + unfold i_rename. rewrite map_length. congruence.
    + intros s. rewrite nth_rename, r_slots0, Cm. auto.
    + rewrite !length_put. congruence.
    + intros g. rewrite (filter_ext _ _ Cn). rewrite !nth_put by (rewrite ?length_put; lia). unfold swap_fn, fupd.
      destruct (Nat.eqb g b); auto. destruct (Nat.eqb g a); auto.
    + congruence.
    + intros g. rewrite Sg. auto.
Qed.

Lemma ok_move a : ~ disconnecting st a -> outcome_ok st t (User (UMove a)) i.
Proof.
  intros Hd. start (UMove a).
  destruct (sig_live (mm st) a) eqn:Ea; [|discriminate].
  assert (glive (mm st) a = true) as Ha by exact Ea.
  pose proof (glive_range _ _ Ha) as La.
  destruct (Nat.eq_dec (gact (mm st) a) 0) as [e1|e1].
  2: { unfold move_sig. rewrite (get_sig_ok _ _ Ha). cbn [obind g_active].
       destruct (Nat.eqb_spec (gact (mm st) a) 0); [contradiction|]. cbn. auto. }
  destruct (move_ok _ _ _ _ _ _ a (r_minv _ _ _ _ R) Ha e1 (not_dfr _ e1)) as (m' & E & I & [Sc Sd Sg Sh Ss]).
  rewrite E. cbn [lift]. set (n := length (sigs (mm st))) in *.
  assert (forall s, In s (L a) -> conn (mm st) s = Some a) as Ca by (apply all_connected; auto).
  pose proof in_list as Hin.
  assert (forall s, conn m' s = match conn (mm st) s with Some k => Some (if Nat.eqb k a then n else k) | None => None end) as Cm.
  { intros s. rewrite Sc. unfold resend. destruct (in_dec Nat.eq_dec s (L a)) as [Ia|Ia].
    - rewrite (Ca s Ia). now rewrite Nat.eqb_refl.
    - destruct (conn (mm st) s) as [k|] eqn:Ek; auto. apply (r_sender _ _ _ _ R) in Ek. apply in_list in Ek.
      destruct (Nat.eqb_spec k a) as [-> | n1]; [contradiction|auto]. }
  assert (forall s, connected m' s = connected (mm st) s) as Cn by (intros s; unfold connected; rewrite Cm; destruct (conn (mm st) s); auto).
  destruct (minv_out _ _ _ _ _ _ n (r_minv _ _ _ _ R) (le_n _)) as [Ln An].
  eexists. exists (fupd (fupd L a []) n (L a)), (fun s => match H s with Some k => Some (if Nat.eqb k a then n else k) | None => None end).
  split.
  { eapply iuser_go; eauto. cbn [i_user]. unfold i_alive. rewrite (r_live _ _ _ _ R), Ha. rewrite (r_olen _ _ _ _ R). fold n. reflexivity. }
  assert (mem_ok st L m' (fupd (fupd L a []) n (L a))) as M.
  { constructor; [lia| | |].
    - intros s _. now rewrite Cn.
    - intros k Hk. apply A_pos in Hk. rewrite (mi_act _ _ _ _ _ _ (r_minv _ _ _ _ R)) in e1.
      unfold fupd. destruct (Nat.eqb_spec k n) as [-> | n1]; [lia|]. destruct (Nat.eqb_spec k a) as [-> | n2]; [lia|].
      exists [], []. now rewrite app_nil_r.
    - intros k _ Ek. rewrite Sg. unfold fupd. destruct (Nat.eqb k _); auto. }
  pose proof (threads_same _ _ _ _ _ _ R M) as Th.
  destruct R as [r_minv0 r_sender0 r_dead0 r_dfr0 r_gone0 r_handles0 r_blockers0 r_fresh0 r_slen0 r_slots0 r_olen0 r_order0 r_llen0 r_live0 r_threads0].
  constructor; cbns; auto.
  + intros s k Es. rewrite Cm in Es. destruct (conn (mm st) s) as [k'|] eqn:Ek; [|discriminate].
    apply r_sender0 in Ek. rewrite Ek. exact Es.
  + intros s k E1 E2. rewrite Cm in E2. destruct (conn (mm st) s) as [k'|] eqn:Ek; [discriminate|].
    destruct (H s) as [h|] eqn:Eh; [|discriminate]. injection E1 as <-. rewrite Sd.
    destruct (r_dead0 s h Eh Ek) as [D|D].
    * destruct (Nat.eqb_spec h a) as [-> | n1]; auto. apply Hin in Eh. rewrite (Ca s Eh) in Ek. discriminate.
    * destruct (Nat.eqb_spec h a) as [-> | n1]; auto. apply mid_disconnecting in D. contradiction.
  + intros k Ek. rewrite Sd in Ek. apply r_dfr0; auto.
  + intros k Ek. rewrite Sg in Ek. unfold fupd in *. fold n in Ek.
    destruct (Nat.eqb k n); [discriminate|]. destruct (Nat.eqb k a); auto.
  + unfold i_rename. rewrite map_length. congruence.
  + intros s. rewrite nth_rename, r_slots0, Cm. auto.
  + rewrite app_length, length_put. cbn. lia.
  + intros g. rewrite (filter_ext _ _ Cn). rewrite nth_snoc, length_put. rewrite nth_put by lia. unfold fupd.
    rewrite r_olen0. fold n. destruct (Nat.eqb g n); auto. destruct (Nat.eqb g a); auto.
  + rewrite app_length. cbn. lia.
  + intros g. rewrite nth_snoc, Sg. unfold fupd. rewrite r_llen0. destruct (Nat.eqb g _); auto.
Qed.

End Signals.
