(** How the connected slots of a signal change, step by step. *)
From Coq Require Import List Arith Bool Lia.
From Verif Require Import Base XinfoProofs SignalModel SignalSpec SignalMemProofs SignalRelProofs SignalStepProofs SignalFrameProofs SignalTauProofs SignalEmitProofs SignalRunProofs SignalDeadProofs SignalTraceProofs SignalCallProofs SignalEndProofs SignalHoldProofs.
Import ListNotations.
Local Open Scope outcome_scope.

(* ----------------------------------------------------- who touches senders *)

Definition keeps (m m' : mem) : Prop := forall k, conn m' k = conn m k.

Lemma keeps_refl m : keeps m m. Proof. intros k; auto. Qed.
Lemma keeps_trans a b c : keeps a b -> keeps b c -> keeps a c.
Proof. intros H1 H2 k. rewrite H2. auto. Qed.

Lemma put_slot_conn m s x y k : nth_error (heap m) s = Some x -> conn (put_slot m s y) k = if Nat.eqb k s then s_sender y else conn m k.
Proof.
  intros E. unfold conn, slot_view, put_slot. cbn. rewrite nth_upd by (eapply nth_some_lt; eauto). destruct (Nat.eqb k s); auto.
Qed.
Lemma put_keeps m s x y : nth_error (heap m) s = Some x -> s_sender y = s_sender x -> keeps m (put_slot m s y).
Proof.
  intros E H k. rewrite (put_slot_conn _ _ _ _ _ E). destruct (Nat.eqb_spec k s) as [-> | n]; auto.
  unfold conn, slot_view. now rewrite E.
Qed.

Ltac slot_op E := unfold get_slot in E; match type of E with context [nth_error (heap ?m) ?s] =>
    destruct (nth_error (heap m) s) as [x|] eqn:Ex; [|discriminate E]; destruct (s_live x); [|discriminate E]; cbn [obind] in E end.

Lemma add_ref_keeps m s m' : add_ref m s = Ok m' -> keeps m m'.
Proof. intros E. unfold add_ref in E. slot_op E. injection E as <-. eapply put_keeps; eauto. Qed.
Lemma release_keeps m s m' : release m s = Ok m' -> keeps m m'.
Proof. intros E. unfold release in E. slot_op E. destruct (s_refs x); [discriminate|]. injection E as <-. eapply put_keeps; eauto. Qed.
Lemma block_keeps m s m' : block m s = Ok m' -> keeps m m' /\ same_links m m'.
Proof. intros E. unfold block in E. slot_op E. injection E as <-. split; [eapply put_keeps|eapply put_links]; eauto. Qed.
Lemma unblock_keeps m s m' : unblock m s = Ok m' -> keeps m m' /\ same_links m m'.
Proof. intros E. unfold unblock in E. slot_op E. destruct (s_block x); [discriminate|]. injection E as <-. split; [eapply put_keeps|eapply put_links]; eauto. Qed.
Lemma set_next_keeps m s o m' : set_next m s o = Ok m' -> keeps m m'.
Proof. intros E. unfold set_next in E. slot_op E. injection E as <-. eapply put_keeps; eauto. Qed.
Lemma rebind_conn m s o m' : rebind m s o = Ok m' -> forall k, conn m' k = if Nat.eqb k s then o else conn m k.
Proof. intros E k. unfold rebind in E. slot_op E. injection E as <-. rewrite (put_slot_conn _ _ _ _ _ Ex). auto. Qed.
Lemma rebind_links m s o m' : rebind m s o = Ok m' -> same_links m m'.
Proof. intros E. unfold rebind in E. slot_op E. injection E as <-. eapply put_links; eauto. Qed.

Lemma sig_keeps m g r : keeps m (put_sig m g r).
Proof. intros k. reflexivity. Qed.
Lemma set_head_keeps m g o m' : set_head m g o = Ok m' -> keeps m m'.
Proof. unfold set_head. destruct (get_sig m g); cbn; try discriminate. intros E. injection E as <-. apply sig_keeps. Qed.
Lemma set_tail_keeps m g o m' : set_tail m g o = Ok m' -> keeps m m'.
Proof. unfold set_tail. destruct (get_sig m g); cbn; try discriminate. intros E. injection E as <-. apply sig_keeps. Qed.
Lemma set_active_keeps m g o m' : set_active m g o = Ok m' -> keeps m m'.
Proof. unfold set_active. destruct (get_sig m g); cbn; try discriminate. intros E. injection E as <-. apply sig_keeps. Qed.
Lemma set_deferred_keeps m g o m' : set_deferred m g o = Ok m' -> keeps m m'.
Proof. unfold set_deferred. destruct (get_sig m g); cbn; try discriminate. intros E. injection E as <-. apply sig_keeps. Qed.

Lemma remove_keeps m g s prev m' o : remove_slot m g s prev = Ok (m', o) -> keeps m m'.
Proof.
  unfold remove_slot. destruct (get_sig m g) as [r| |]; cbn [obind]; try discriminate.
  destruct (negb (Nat.eqb (g_active r) 0)); [discriminate|]. destruct (get_slot m s) as [x| |]; cbn [obind]; try discriminate.
  destruct (match prev with Some p => set_next m p (s_next x) | None => if is_slot (g_head r) s then set_head m g (s_next x) else Ok m end) as [m1| |] eqn:E1;
    cbn [obind]; try discriminate.
  destruct (get_sig m1 g) as [r1| |]; cbn [obind]; try discriminate.
  destruct (if is_slot (g_tail r1) s then set_tail m1 g (match prev with Some p => Some p | None => g_head r1 end) else Ok m1) as [m2| |] eqn:E2; cbn [obind]; try discriminate.
  destruct (release m2 s) as [m3| |] eqn:E3; cbn [obind]; try discriminate. intros E. injection E as <- _.
  assert (keeps m m1) as K1.
  { destruct prev as [p|]; [eapply set_next_keeps; eauto|]. destruct (is_slot (g_head r) s); [eapply set_head_keeps; eauto|].
    injection E1 as <-. apply keeps_refl. }
  assert (keeps m1 m2) as K2.
  { destruct (is_slot (g_tail r1) s); [eapply set_tail_keeps; eauto|]. injection E2 as <-. apply keeps_refl. }
  eapply keeps_trans; [exact K1|]. eapply keeps_trans; [exact K2|]. eapply release_keeps; eauto.
Qed.

Lemma cleanup_loop_keeps g : forall fuel m it prev m', cleanup_loop fuel m g it prev = Ok m' -> keeps m m'.
Proof.
  induction fuel as [|f IH]; intros m it prev m' E; [discriminate|]. cbn in E. destruct it as [s|]; [|injection E as <-; apply keeps_refl].
  destruct (get_slot m s) as [x| |]; cbn [obind] in E; try discriminate. destruct (valid x); [eauto|].
  destruct (remove_slot m g s prev) as [[m1 o]| |] eqn:E1; cbn [obind fst snd] in E; try discriminate.
  eapply keeps_trans; [eapply remove_keeps; eauto|eauto].
Qed.

Lemma cleanup_keeps m g m' : cleanup m g = Ok m' -> keeps m m'.
Proof.
  unfold cleanup. destruct (get_sig m g) as [r| |]; cbn [obind]; try discriminate. destruct (negb (g_deferred r)).
  { intros E. injection E as <-. apply keeps_refl. }
  destruct (negb (Nat.eqb (g_active r) 0)); [apply set_deferred_keeps|].
  destruct (cleanup_loop (S (length (heap m))) m g (g_head r) None) as [m1| |] eqn:E1; cbn [obind]; try discriminate.
  intros E. eapply keeps_trans; [eapply cleanup_loop_keeps; eauto|eapply set_deferred_keeps; eauto].
Qed.

Lemma disconnect_loop_conn g id : forall fuel m it prev m', disconnect_loop fuel m g id it prev = Ok m' ->
  forall k, conn m' k = conn m k \/ k = id /\ conn m' k = None.
Proof.
  induction fuel as [|f IH]; intros m it prev m' E k; [discriminate|]. cbn in E. destruct it as [s|]; [|injection E as <-; auto].
  destruct (Nat.eqb_spec s id) as [-> | n].
  - destruct (rebind m id None) as [m1| |] eqn:E1; cbn [obind] in E; try discriminate.
    destruct (get_sig m1 g) as [r| |]; cbn [obind] in E; try discriminate.
    assert (keeps m1 m') as K.
    { destruct (Nat.eqb (g_active r) 0).
      - destruct (remove_slot m1 g id prev) as [[m2 o]| |] eqn:E2; cbn in E; try discriminate. injection E as <-. eapply remove_keeps; eauto.
      - eapply set_deferred_keeps; eauto. }
    rewrite K, (rebind_conn _ _ _ _ E1). destruct (Nat.eqb_spec k id); auto.
  - destruct (get_slot m s) as [x| |]; cbn [obind] in E; try discriminate. eapply IH; eauto.
Qed.

(* -------------------------------------------------------------- tau steps *)

Definition dropped (st : state) (t : nat) : option nat :=
  match nth_error (threads st) t with
  | Some th => match th_stack th with FDisc s DExchange :: _ => Some s | _ => None end
  | None => None
  end.

Lemma tau_sender n evs st t st' r : runs (init n) evs st -> step st t Tau = Next st' r ->
  forall s, sender st' s = if is_slot (dropped st t) s then None else sender st s.
Proof.
  intros Rn E s. rewrite !sender_is. unfold dropped. pose proof E as E0. unfold step in E.
  destruct (nth_error (threads st) t) as [th|] eqn:Et; [|discriminate]. unfold tau_step, lift in E.
  assert (forall m tl fs, keeps (mm st) m -> conn (mm (set_thread (set_mem st m) t (mkthread tl fs))) s = conn (mm st) s) as K.
  { intros m tl fs Hk. cbn. apply Hk. }
  destruct (th_stack th) as [|[e|s0 d] fs] eqn:Es; [discriminate| |].
  - cbn [is_slot]. destruct (e_phase e); break E; try discriminate E; inj E; apply K; try apply keeps_refl; try solve [eapply release_keeps; eauto].
    all: try match goal with H : add_ref_opt _ ?o = Ok _ |- _ => destruct o; cbn [add_ref_opt] in H; [eapply add_ref_keeps; eauto|injection H as <-; apply keeps_refl] end.
    all: try match goal with H : release_opt _ ?o = Ok _ |- _ => destruct o; cbn [release_opt] in H; [eapply release_keeps; eauto|injection H as <-; apply keeps_refl] end.
    eapply keeps_trans; [eapply set_active_keeps; eauto|]. destruct (Nat.eqb (g_active a) 1); [eapply cleanup_keeps; eauto|].
    injection Heqo1 as <-. apply keeps_refl.
  - destruct d as [|g|]; break E; inj E.
    + cbn [is_slot]. rewrite (Nat.eqb_sym s0 s). cbn. erewrite rebind_conn by eauto. auto.
    + cbn [is_slot]. rewrite (Nat.eqb_sym s0 s). cbn. erewrite rebind_conn by eauto. auto.
    + cbn [is_slot]. unfold disconnect_id in *. destruct (get_sig (mm st) g) as [r| |]; cbn [obind] in *; try discriminate.
      match goal with H : disconnect_loop _ _ _ _ _ _ = Ok _ |- _ => destruct (disconnect_loop_conn _ _ _ _ _ _ _ H s) as [W|[-> W]] end; cbn; auto.
      rewrite W. destruct (reach_rel _ _ _ Rn) as (i & L & H & _ & R).
      destruct (Forall2_nth _ _ _ _ _ (r_threads _ _ _ _ R) Et) as (is & Ei & Rs). cbn beta in Rs. rewrite Es in Rs.
      destruct is as [|[ie|s' fin] js]; cbn [stack_rel] in Rs; try contradiction.
      destruct Rs as (_ & _ & _ & Hn & _). destruct (Hn ltac:(discriminate)) as [_ H2]. cbn in H2. unfold connected in H2.
      destruct (conn (mm st) s0); [discriminate|auto].
    + cbn [is_slot]. apply K. eapply release_keeps; eauto.
Qed.

Lemma tau_order i evs j : ideal_runs i evs j -> users evs = 0 -> forall g, part_of (nth g (i_order j) []) (nth g (i_order i) []).
Proof.
  intros R. induction R as [|i u l j r evs k E R IH]; intros Hu g; [apply part_of_refl|]. rewrite users_app in Hu.
  destruct l as [o|]; [cbn in Hu; lia|]. destruct (istep_order _ _ _ _ _ g E eq_refl) as (P1 & _).
  eapply part_of_trans; [exact P1|]. apply IH. lia.
Qed.

Lemma part_filter {T} (P : T -> bool) : forall l l' : list T, part_of l' l -> NoDup l -> (forall s, In s l' <-> In s l /\ P s = true) -> l' = filter P l.
Proof.
  intros l l' Q. induction Q as [|l' a l Q IH|l' a l Q IH]; intros N Hm; auto; inversion N; subst; cbn.
  - destruct (P a) eqn:Ea.
    + exfalso. assert (In a l') as Hi by (apply Hm; split; [left|]; auto). apply (part_of_in _ _ _ Q) in Hi. contradiction.
    + apply IH; auto. intros s. rewrite Hm. cbn. split; [|intuition]. intros [[-> | Hs] Hp]; [congruence|auto].
  - assert (P a = true) as Ea by (apply Hm; left; auto). rewrite Ea. f_equal. apply IH; auto. intros s. split.
    + intros Hs. pose proof (part_of_in _ _ _ Q Hs) as Hl. split; auto. apply Hm. right; auto.
    + intros [Hs Hp]. destruct (proj2 (Hm s)) as [W|W]; auto. { split; auto. right; auto. } subst. contradiction.
Qed.

Lemma tau_slots n evs st t st' r g : runs (init n) evs st -> step st t Tau = Next st' r ->
  slots_of st' g = filter (fun s => negb (is_slot (dropped st t) s)) (slots_of st g).
Proof.
  intros Rn E. pose proof (tau_sender _ _ _ _ _ _ Rn E) as Hs. destruct (reach_rel _ _ _ Rn) as (i & L & H & _ & R).
  pose proof (step_ok st i L H t Tau R I) as O. unfold outcome_ok in O. rewrite E in O. destruct O as (i1 & L1 & H1 & IR & R1).
  destruct (slots_of_spec _ _ _ _ g R) as [N M]. destruct (slots_of_spec _ _ _ _ g R1) as [_ M1].
  apply part_filter; auto.
  - rewrite (slots_of_is _ _ _ _ _ R), (slots_of_is _ _ _ _ _ R1). eapply tau_order; eauto. destruct r; auto.
  - intros s. rewrite M, M1, Hs. destruct (is_slot (dropped st t) s); cbn; intuition; discriminate.
Qed.

(* ---------------------------------------------------------- user operations *)

(** Operations that touch no signal. *)
Definition aside (o : op) : Prop :=
  match o with
  | UConnect _ _ | UDisconnectAll _ | USwap _ _ | UMove _ | UDestroy _ => False
  | _ => True
  end.

Lemma calm_slots st st' : keeps (mm st) (mm st') -> same_links (mm st) (mm st') -> forall g, slots_of st' g = slots_of st g.
Proof.
  intros K Hl g. unfold slots_of. rewrite (listed_links _ _ _ Hl). apply filter_ext. intros s. unfold connected_to. now rewrite !sender_is, K.
Qed.

Lemma add_opt m o m' : add_ref_opt m o = Ok m' -> keeps m m' /\ same_links m m'.
Proof. destruct o; cbn; intros E; [split; [eapply add_ref_keeps|eapply add_ref_links]; eauto|]. injection E as <-. split; [apply keeps_refl|apply links_refl]. Qed.
Lemma release_optk m o m' : release_opt m o = Ok m' -> keeps m m' /\ same_links m m'.
Proof. destruct o; cbn; intros E; [split; [eapply release_keeps|eapply release_links]; eauto|]. injection E as <-. split; [apply keeps_refl|apply links_refl]. Qed.
Lemma block_optk m o m' : block_opt m o = Ok m' -> keeps m m' /\ same_links m m'.
Proof. destruct o; cbn; intros E; [eapply block_keeps; eauto|]. injection E as <-. split; [apply keeps_refl|apply links_refl]. Qed.
Lemma unblock_optk m o m' : unblock_opt m o = Ok m' -> keeps m m' /\ same_links m m'.
Proof. destruct o; cbn; intros E; [eapply unblock_keeps; eauto|]. injection E as <-. split; [apply keeps_refl|apply links_refl]. Qed.
Lemma both_trans a b c : keeps a b /\ same_links a b -> keeps b c /\ same_links b c -> keeps a c /\ same_links a c.
Proof. intros [A1 A2] [B1 B2]. split; [eapply keeps_trans|eapply links_trans]; eauto. Qed.
Lemma both_refl m : keeps m m /\ same_links m m.
Proof. split; [apply keeps_refl|apply links_refl]. Qed.

Lemma listed_heads st st' g : heap (mm st') = heap (mm st) ->
  (forall k, ghead (mm st') k = ghead (mm st) k) -> length (sigs (mm st')) = length (sigs (mm st)) -> listed st' g = listed st g.
Proof.
  intros E1 E2 E3. unfold listed. rewrite E1. specialize (E2 g). unfold ghead, sig_view in E2.
  destruct (nth_error (sigs (mm st')) g) eqn:W1, (nth_error (sigs (mm st)) g) eqn:W2; auto.
  - now rewrite E2.
  - exfalso. apply nth_error_None in W2. apply nth_some_lt in W1. lia.
  - exfalso. apply nth_error_None in W1. apply nth_some_lt in W2. lia.
Qed.

Lemma aside_slots st t o st' r : step st t (User o) = Next st' r -> aside o -> forall g, slots_of st' g = slots_of st g.
Proof.
  intros E Ha g. unfold step in E. destruct (nth_error (threads st) t) as [th|]; [|discriminate]. destruct (user_ready th); [|discriminate].
  assert (keeps (mm st) (mm st') /\ same_links (mm st) (mm st') -> slots_of st' g = slots_of st g) as Go by (intros [A1 A2]; apply calm_slots; auto).
  pose proof add_opt as P1. pose proof release_optk as P2. pose proof block_optk as P3. pose proof unblock_optk as P4. pose proof both_trans as P5.
  destruct o; try contradiction; cbn [user_step] in E; unfold lift in E; break E; inj E; try (apply Go; cbn; apply both_refl); try solve [apply Go; cbn; eauto 6].
  - (* a new signal *)
    unfold slots_of, listed. cbn [mm set_mem sigs heap]. destruct (Nat.lt_ge_cases g (length (sigs (mm st)))) as [Hl|Hl].
    + rewrite nth_error_app1 by auto. reflexivity.
    + rewrite nth_error_app2 by auto. assert (nth_error (sigs (mm st)) g = None) as -> by (apply nth_error_None; auto).
      destruct (g - length (sigs (mm st))) as [|[|]]; cbn; auto. destruct (length (heap (mm st))); auto.
  - apply Go. cbn. eapply P5; [eapply P4; eauto|]. eapply P5; [eapply P2; eauto|]. eapply P5; eauto.
  - clear Go. assert (slots_of st g = slots_of (set_mem st a0) g) as ->.
    { unfold set_active in *. rewrite Heqo in *. cbn [obind] in *. injection Heqo0 as <-. unfold slots_of.
      assert (listed (set_mem st (put_sig (mm st) g0 (mksig true (g_head a) (g_tail a) (g_active a + 1) (g_deferred a)))) g = listed st g) as W.
      { unfold get_sig in Heqo. destruct (nth_error (sigs (mm st)) g0) as [r0|] eqn:Er; [|discriminate]. destruct (g_live r0); [|discriminate]. injection Heqo as ->.
        apply listed_heads; auto.
        - intros k. unfold ghead, sig_view. cbn. rewrite nth_upd by (eapply nth_some_lt; eauto).
          destruct (Nat.eqb_spec k g0) as [-> | n]; auto. now rewrite Er.
        - cbn. now rewrite length_upd. }
      rewrite W. apply filter_ext. auto. }
    apply calm_slots; cbn; destruct (P5 _ _ _ (P1 _ _ _ Heqo1) (P1 _ _ _ Heqo2)); auto.
  - clear Go. assert (slots_of st g = slots_of (set_mem st a0) g) as ->.
    { unfold set_active in *. rewrite Heqo in *. cbn [obind] in *. injection Heqo0 as <-. unfold slots_of.
      assert (listed (set_mem st (put_sig (mm st) g0 (mksig true (g_head a) (g_tail a) (g_active a + 1) (g_deferred a)))) g = listed st g) as W.
      { unfold get_sig in Heqo. destruct (nth_error (sigs (mm st)) g0) as [r0|] eqn:Er; [|discriminate]. destruct (g_live r0); [|discriminate]. injection Heqo as ->.
        apply listed_heads; auto.
        - intros k. unfold ghead, sig_view. cbn. rewrite nth_upd by (eapply nth_some_lt; eauto).
          destruct (Nat.eqb_spec k g0) as [-> | n]; auto. now rewrite Er.
        - cbn. now rewrite length_upd. }
      rewrite W. apply filter_ext. auto. }
    apply calm_slots; cbn; destruct (P5 _ _ _ (P1 _ _ _ Heqo1) (P1 _ _ _ Heqo2)); auto.
  - apply Go. cbn. split; [eapply add_ref_keeps|eapply add_ref_links]; eauto.
Qed.

Lemma connect_slots n evs st t g (front : bool) st' r : runs (init n) evs st -> step st t (User (UConnect g front)) = Next st' r ->
  let s := length (heap (mm st)) in
  r = OSlot s /\ slots_of st' g = (if front then s :: slots_of st g else slots_of st g ++ [s]) /\
  (forall k, k <> g -> slots_of st' k = slots_of st k) /\ sender st' s = Some g /\ (forall k, k <> s -> sender st' k = sender st k).
Proof.
  intros Rn E s. destruct (reach_rel _ _ _ Rn) as (i & L & H & _ & R). unfold step in E.
  destruct (nth_error (threads st) t) as [th|]; [|discriminate]. destruct (user_ready th); [|discriminate].
  cbn [user_step] in E. destruct (sig_live (mm st) g) eqn:Eg; [|discriminate].
  assert (glive (mm st) g = true) as Hg by exact Eg.
  destruct (connect_ok _ _ _ _ _ _ g front (r_minv _ _ _ _ R) Hg) as (m' & E1 & I1 & G). rewrite E1 in E. cbn [lift fst snd] in E. inj E. fold s in E1, I1, G.
  assert (forall k, sender (set_handles (set_mem st m') (handles st ++ [Some s])) k = fupd (sender st) s (Some g) k) as Hs.
  { intros k. rewrite sender_is. cbn. rewrite (gr_conn _ _ _ G). fold s. unfold fupd. rewrite sender_is. auto. }
  assert (sender st s = None) as Ns.
  { unfold sender, s. assert (nth_error (heap (mm st)) (length (heap (mm st))) = None) as -> by (apply nth_error_None; lia). auto. }
  assert (forall k, ~ In s (L k)) as Nl.
  { intros k Hk. pose proof (minv_bound _ _ _ _ _ _ _ _ (r_minv _ _ _ _ R) Hk). unfold s in *. lia. }
  assert (forall k j, j <> s -> connected_to (set_handles (set_mem st m') (handles st ++ [Some s])) k j = connected_to st k j) as Hc.
  { intros k j n0. unfold connected_to. rewrite Hs. unfold fupd. destruct (Nat.eqb_spec j s); [contradiction|auto]. }
  assert (forall k l, ~ In s l -> filter (connected_to (set_handles (set_mem st m') (handles st ++ [Some s])) k) l = filter (connected_to st k) l) as Hf.
  { intros k l Hl. apply filter_ext_in. intros j Hj. apply Hc. congruence. }
  assert (connected_to (set_handles (set_mem st m') (handles st ++ [Some s])) g s = true) as Hcs.
  { unfold connected_to. rewrite Hs. unfold fupd. now rewrite !Nat.eqb_refl. }
  assert (forall k, listed (set_handles (set_mem st m') (handles st ++ [Some s])) k = fupd L g (if front then s :: L g else L g ++ [s]) k) as Hl.
  { intros k. unfold set_handles, set_mem. erewrite listed_minv by exact I1. auto. }
  split; [reflexivity|]. fold s. split; [|split; [|split]].
  - unfold slots_of. rewrite Hl, (listed_is _ _ _ _ g R). unfold fupd. rewrite Nat.eqb_refl. destruct front.
    + cbn [filter]. rewrite Hcs. f_equal. auto.
    + rewrite filter_app. cbn [filter]. rewrite Hcs. f_equal. auto.
  - intros k n0. unfold slots_of. rewrite Hl, (listed_is _ _ _ _ k R). unfold fupd.
    destruct (Nat.eqb_spec k g); [contradiction|]. apply Hf. auto.
  - rewrite Hs. unfold fupd. now rewrite Nat.eqb_refl.
  - intros k n0. rewrite Hs. unfold fupd. destruct (Nat.eqb_spec k s); [contradiction|auto].
Qed.
