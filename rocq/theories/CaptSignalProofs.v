(** Slots released while the mutex of their signal is held. *)
From Coq Require Import List Arith Bool Lia Relations.
From Verif Require Import Base CaptModel CaptSpec CaptProofs CaptReleaseProofs.
Import ListNotations.

(** What any operation leaves. *)
Record weak (st st' : state) : Prop := mkweak {
  w_len : length (slots st') = length (slots st);
  w_slots : forall s x, nth_error (slots st) s = Some x -> exists x', nth_error (slots st') s = Some x' /\
    s_caps x' = s_caps x /\ (s_live x' = true -> s_live x = true) /\ s_refs x' <= s_refs x /\
    (s_sender x' = s_sender x \/ s_sender x' = None) /\
    (s_live x = true -> s_live x' = false -> forall c, In (true, c) (s_caps x) -> disconnected st' c);
  w_slen : length (sigs st') = length (sigs st);
  w_handles : handles st' = handles st }.

Lemma later_weak st st' : later st st' -> weak st st'.
Proof.
  intro L. split; [apply (l_len _ _ L)| |apply (l_slen _ _ L)|apply (l_handles _ _ L)].
  intros s x H. destruct (l_slots _ _ L _ _ H) as (x' & H1 & H2 & H3 & H4 & H5 & H6 & _). exists x'. repeat split; try assumption.
Qed.
Lemma weak_back st st' s x' : weak st st' -> nth_error (slots st') s = Some x' -> exists x, nth_error (slots st) s = Some x.
Proof.
  intros L H. destruct (nth_error (slots st) s) as [x|] eqn:E; [exists x; reflexivity|].
  apply nth_error_None in E. rewrite <- (w_len _ _ L) in E. apply nth_error_None in E. congruence.
Qed.
Lemma weak_disconnected st st' c : weak st st' -> disconnected st c -> disconnected st' c.
Proof.
  intros L D x' H. destruct (weak_back _ _ _ _ L H) as (x & E).
  destruct (w_slots _ _ L _ _ E) as (y & H1 & _ & _ & _ & H2 & _). assert (y = x') by congruence. subst y.
  specialize (D x E). destruct H2; congruence.
Qed.
Lemma weak_trans st st1 st2 : weak st st1 -> weak st1 st2 -> weak st st2.
Proof.
  intros L M. split.
  - rewrite (w_len _ _ M). apply (w_len _ _ L).
  - intros s x H. destruct (w_slots _ _ L _ _ H) as (x1 & H1 & C1 & V1 & R1 & S1 & D1).
    destruct (w_slots _ _ M _ _ H1) as (x2 & H2 & C2 & V2 & R2 & S2 & D2).
    exists x2. split; [exact H2|]. split; [congruence|]. split; [tauto|]. split; [lia|].
    split; [destruct S2 as [S2|S2]; [rewrite S2; exact S1|right; exact S2]|].
    intros A Z c Hc. destruct (s_live x1) eqn:E1.
    + apply (D2 eq_refl Z). rewrite C1. exact Hc.
    + apply (weak_disconnected _ _ _ M). apply (D1 A eq_refl _ Hc).
  - rewrite (w_slen _ _ M). apply (w_slen _ _ L).
  - rewrite (w_handles _ _ M). apply (w_handles _ _ L).
Qed.
Lemma weak_sig st g r : weak st (set_sig st g r).
Proof.
  split; try reflexivity; [|cbn; apply length_upd]. intros s x H. exists x. cbn. repeat split; try tauto; try lia. intros. congruence.
Qed.
Lemma weak_refl st : weak st st. Proof. apply later_weak, later_refl. Qed.
Lemma weak_unsend st s x : nth_error (slots st) s = Some x -> s_live x = true -> weak st (set_slot st s (mkslot true (s_refs x) None (s_caps x))).
Proof.
  intros H L. split; try reflexivity; [cbn; apply length_upd|].
  intros k y E. cbn. destruct (Nat.eq_dec k s) as [->|D].
  - exists (mkslot true (s_refs x) None (s_caps x)). rewrite (nth_upd_here _ _ _ x H). assert (y = x) by congruence. subst y. cbn.
    repeat split; try tauto; try lia; try discriminate.
  - exists y. rewrite nth_upd_other by exact D. repeat split; try tauto; try lia. intros. congruence.
Qed.
Lemma weak_live st st' : weak st st' -> live_of st' <= live_of st.
Proof.
  intro L. unfold live_of. apply total_le; [apply (w_len _ _ L)|].
  intros i a b Ha Hb. destruct (w_slots _ _ L _ _ Hb) as (x & H1 & _ & V & _). assert (x = a) by congruence. subst x.
  destruct (s_live a); [rewrite (V eq_refl); lia|destruct (s_live b); lia].
Qed.
Lemma weak_owns st st' a b : weak st st' -> owns st' a b -> owns st a b.
Proof.
  intros L (x' & k & H1 & H2). destruct (weak_back _ _ _ _ L H1) as (x & E).
  destruct (w_slots _ _ L _ _ E) as (y & Y1 & Y2 & _). assert (y = x') by congruence. subst y.
  exists x, k. split; [exact E|congruence].
Qed.
Lemma weak_cut st st' a c : weak st st' -> may_cut st' a c -> may_cut st a c.
Proof.
  intros L (b & H & (x' & H1 & H2)). exists b. split.
  - clear H1 H2. induction H as [x y H| |x y z _ H1 _ H2].
    + apply rt_step, (weak_owns _ _ _ _ L H).
    + apply rt_refl.
    + apply (rt_trans _ _ _ _ _ H1 H2).
  - destruct (weak_back _ _ _ _ L H1) as (x & E).
    destruct (w_slots _ _ L _ _ E) as (y & Y1 & Y2 & _). assert (y = x') by congruence. subst y.
    exists x. split; [exact E|congruence].
Qed.
Lemma weak_connected st st' c g : weak st st' -> connected_to st' c g -> connected_to st c g.
Proof.
  intros L (x' & H1 & H2). destruct (weak_back _ _ _ _ L H1) as (x & E).
  destruct (w_slots _ _ L _ _ E) as (y & Y1 & _ & _ & _ & Y2 & _). assert (y = x') by congruence. subst y.
  exists x. split; [exact E|destruct Y2; congruence].
Qed.

(** The mutex of [g], and no other, is held; nothing emits [g]. *)
Definition under (g : nat) (L : list nat) (d : bool) (st : state) : Prop :=
  nth_error (sigs st) g = Some (mksig true L 0 d true) /\ forall h r, nth_error (sigs st) h = Some r -> g_locked r = true -> h = g.
Lemma under_blocked g L d st c : under g L d st -> (blocked st c <-> connected_to st c g).
Proof.
  intros (U & V). split.
  - intros (x & h & r & H1 & H2 & H3 & H4). rewrite (V h r H3 H4) in H2. exists x. split; assumption.
  - intros (x & H1 & H2). exists x, g, (mksig true L 0 d true). repeat split; assumption.
Qed.
Lemma under_later g L d st st' : under g L d st -> later st st' -> under g L d st'.
Proof.
  intros (U & V) M. split.
  - destruct (l_sigs _ _ M _ _ U) as (r' & H1 & _ & _ & _ & _ & B & _). rewrite H1, (B eq_refl). reflexivity.
  - intros h r' H K. destruct (later_sback _ _ _ _ M H) as (r & E). destruct (l_sigs _ _ M _ _ E) as (z & Z1 & _ & _ & Z2 & _).
    apply (V h r E). congruence.
Qed.
Lemma listed_live P st g r s : inv P st -> nth_error (sigs st) g = Some r -> In s (g_slots r) -> exists x, nth_error (slots st) s = Some x /\ s_live x = true.
Proof.
  intros I H K. destruct (named_live P st s I) as (x & E & L & _); [unfold namesP, names; pose proof (listed_in _ _ _ _ H K); lia|].
  exists x. split; assumption.
Qed.

(** One slot of the list that is disconnected: taken out and released. *)
Lemma remove_spec f g L d s P st : live_of st < f -> inv P st -> under g L d st -> In s L -> disconnected st s ->
  (exists st', remove_slot (release f) g s st = Done st' /\ inv P st' /\ under g (without s L) d st' /\ weak st st' /\
    forall c, connected_to st c g -> connected_to st' c g) \/
  (remove_slot (release f) g s st = Deadlock /\ exists c, may_cut st s c /\ connected_to st c g).
Proof.
  intros F I U K D. pose proof U as (U1 & U2). unfold remove_slot. rewrite (with_sig_live _ _ _ _ U1 eq_refl). cbn [g_slots g_active g_deferred g_locked].
  fold (without s L). set (stB := set_sig st g (mksig true (without s L) 0 d true)).
  assert (IB : inv (s :: P) stB) by (apply (unlist_inv P st g _ s d true I U1 eq_refl K D)).
  assert (UB : under g (without s L) d stB).
  { split; [apply (nth_upd_here _ _ _ _ U1)|]. intros h r H. unfold stB in H. cbn in H. apply nth_upd_inv in H.
    destruct H as [(-> & _)|(_ & H)]; [reflexivity|apply (U2 h r H)]. }
  assert (FB : live_of stB < f) by exact F.
  destruct (release_spec f s P stB FB IB) as [(st' & E & I' & L')|(E & c & C1 & C2)]; rewrite E.
  - left. exists st'. split; [reflexivity|]. split; [exact I'|]. split; [apply (under_later _ _ _ _ _ UB L')|].
    split; [apply (weak_trans _ stB); [apply weak_sig|apply (later_weak _ _ L')]|].
    intros c C. apply (under_blocked _ _ _ st' c (under_later _ _ _ _ _ UB L')). apply (later_blocked_same _ _ _ L').
    apply (under_blocked _ _ _ stB c UB). exact C.
  - right. split; [reflexivity|]. exists c. split; [exact C1|]. apply (under_blocked _ _ _ stB c UB). exact C2.
Qed.
(** ... and if it is the last reference to a function that owns a scoped connection to the same signal *)
Lemma destroy_dead f : forall caps P st c, live_of st < f -> inv (map snd caps ++ P) st -> In (true, c) caps -> blocked st c ->
  destroy (release f) caps st = Deadlock.
Proof.
  induction caps as [|(k, s) caps IC]; intros P st c F I H B; [destruct H|].
  cbn [map snd app] in I. cbn [destroy].
  assert (T : (exists st1, (if k then disconnect (release f) s st else release f s st) = Done st1 /\ inv (map snd caps ++ P) st1 /\ later st st1 /\
                (k = true -> s <> c)) \/
              (if k then disconnect (release f) s st else release f s st) = Deadlock).
  { destruct k.
    - destruct (disconnect_spec f s _ st F I) as [(st1 & E & I1 & L1 & D1)|(E & _)]; rewrite E; [left|right; reflexivity].
      exists st1. split; [reflexivity|]. split; [exact I1|]. split; [exact L1|]. intros _ ->. destruct (later_blocked_same _ _ _ L1 B) as (x & g & r & X1 & X2 & _).
      rewrite (D1 x X1) in X2. discriminate.
    - destruct (release_spec f s _ st F I) as [(st1 & E & I1 & L1)|(E & _)]; rewrite E; [left|right; reflexivity].
      exists st1. split; [reflexivity|]. split; [exact I1|]. split; [exact L1|]. discriminate. }
  destruct T as [(st1 & E & I1 & L1 & N)|E]; rewrite E; cbn [bind]; [|reflexivity].
  destruct H as [H|H]; [injection H as -> ->; contradiction (N eq_refl); reflexivity|].
  apply (IC P st1 c); try assumption; [pose proof (later_live _ _ L1); lia|apply (later_blocked_same _ _ _ L1 B)].
Qed.
Lemma remove_dead f g L d s x c P st : live_of st < f -> inv P st -> under g L d st -> In s L -> disconnected st s ->
  nth_error (slots st) s = Some x -> s_refs x = 1 -> In (true, c) (s_caps x) -> connected_to st c g ->
  remove_slot (release f) g s st = Deadlock.
Proof.
  intros F I U K D H R C1 C2. pose proof U as (U1 & U2). unfold remove_slot. rewrite (with_sig_live _ _ _ _ U1 eq_refl). cbn [g_slots g_active g_deferred g_locked].
  fold (without s L). set (stB := set_sig st g (mksig true (without s L) 0 d true)).
  assert (IB : inv (s :: P) stB) by (apply (unlist_inv P st g _ s d true I U1 eq_refl K D)).
  destruct (listed_live P st g _ s I U1 K) as (y & Y1 & Y2). assert (y = x) by congruence. subst y.
  destruct f as [|f]; [lia|]. cbn [release]. assert (HB : nth_error (slots stB) s = Some x) by exact H.
  rewrite (with_slot_live _ _ _ _ HB Y2), R.
  pose proof (last_inv _ _ _ _ IB HB Y2 R) as I0.
  pose proof (last_live stB s x (mkslot false 0 (s_sender x) (s_caps x)) HB Y2 eq_refl) as V.
  assert (VB : live_of stB = live_of st) by reflexivity.
  apply (destroy_dead f (s_caps x) P _ c); [lia|exact I0|exact C1|].
  destruct C2 as (z & Z1 & Z2). 
  assert (Q : c <> s). { intro Q. subst c. pose proof (D z Z1). congruence. }
  exists z, g, (mksig true (without s L) 0 d true). cbn. rewrite nth_upd_other by exact Q. repeat split; try assumption.
  apply (nth_upd_here _ _ _ _ U1).
Qed.

(** * Slots removed one after the other *)

Lemma all_spec f g d : forall l L P st, live_of st < f -> inv P st -> under g L d st -> incl l L -> NoDup l ->
  (exists st', remove_each (release f) g true l st = Done st' /\ inv P st' /\ under g (fold_left (fun L s => without s L) l L) d st' /\ weak st st' /\
    forall s, In s l -> disconnected st' s) \/
  (remove_each (release f) g true l st = Deadlock /\
    exists l1 s l2 c, l = l1 ++ s :: l2 /\ may_cut st s c /\ connected_to st c g /\ ~ In c (l1 ++ [s])).
Proof.
  induction l as [|s l IH]; intros L P st F I U S' N.
  - left. exists st. split; [reflexivity|]. split; [exact I|]. split; [exact U|]. split; [apply weak_refl|intros s []].
  - cbn [remove_each]. assert (K : In s L) by (apply S'; left; reflexivity).
    destruct (listed_live P st g _ s I (proj1 U) K) as (x & H & V). rewrite (with_slot_live _ _ _ _ H V).
    unfold invalidate. rewrite (with_slot_live _ _ _ _ H V). cbn [bind].
    set (stI := set_slot st s (mkslot true (s_refs x) None (s_caps x))).
    assert (WI : weak st stI) by (apply weak_unsend; assumption).
    assert (II : inv P stI) by (apply unsend_inv; assumption).
    assert (DI : disconnected stI s). { intros y Y. unfold stI in Y. cbn in Y. rewrite (nth_upd_here _ _ _ _ H) in Y. injection Y as <-. reflexivity. }
    pose proof (weak_live _ _ WI) as FI.
    destruct (remove_spec f g L d s P stI ltac:(lia) II U K DI) as [(st2 & E2 & I2 & U2 & W2 & _)|(E2 & c & C1 & C2)]; rewrite E2; cbn [bind].
    + inversion N as [|? ? N1 N2]. subst. pose proof (weak_live _ _ W2) as F2.
      assert (S2 : incl l (without s L)).
      { intros k Hk. apply in_without. split; [apply S'; right; exact Hk|]. intros ->. contradiction. }
      destruct (IH (without s L) P st2 ltac:(lia) I2 U2 S2 N2) as [(st3 & E3 & I3 & U3 & W3 & D3)|(E3 & l1 & s' & l2 & c & C1 & C2 & C3 & C4)]; rewrite E3.
      * left. exists st3. split; [reflexivity|]. split; [exact I3|]. split; [exact U3|]. split; [apply (weak_trans _ stI); [exact WI|apply (weak_trans _ _ _ W2 W3)]|].
        intros k [<-|Hk]; [apply (weak_disconnected _ _ _ W3), (weak_disconnected _ _ _ W2), DI|apply (D3 k Hk)].
      * right. split; [reflexivity|]. exists (s :: l1), s', l2, c. split; [cbn; rewrite C1; reflexivity|].
        pose proof (weak_trans _ _ _ WI W2) as W. split; [apply (weak_cut _ _ _ _ W C2)|]. split; [apply (weak_connected _ _ _ _ W C3)|].
        cbn. intros [<-|Q]; [|exact (C4 Q)]. destruct C3 as (y & Y1 & Y2). rewrite (weak_disconnected _ _ _ W2 DI y Y1) in Y2. discriminate.
    + right. split; [reflexivity|]. exists [], s, l, c. split; [reflexivity|]. split; [apply (weak_cut _ _ _ _ WI C1)|].
      split; [apply (weak_connected _ _ _ _ WI C2)|]. cbn. intros [<-|[]]. destruct C2 as (y & Y1 & Y2). rewrite (DI y Y1) in Y2. discriminate.
Qed.

Lemma refs_listed P st g r s x : inv P st -> nth_error (sigs st) g = Some r -> In s (g_slots r) -> nth_error (slots st) s = Some x -> s_refs x <= 1 -> s_refs x = 1.
Proof.
  intros I G K H R. destruct (listed_live P st g r s I G K) as (y & Y1 & Y2). assert (y = x) by congruence. subst y.
  pose proof (i_pos _ _ I _ _ H Y2). lia.
Qed.
Lemma all_dead f g d s x c l2 : forall l1 L P st, live_of st < f -> inv P st -> under g L d st -> incl (l1 ++ s :: l2) L -> NoDup (l1 ++ s :: l2) ->
  nth_error (slots st) s = Some x -> s_refs x = 1 -> In (true, c) (s_caps x) -> In c l2 -> connected_to st c g ->
  remove_each (release f) g true (l1 ++ s :: l2) st = Deadlock.
Proof.
  intros l1. revert x. induction l1 as [|a l1 IH]; intros x L P st F I U S' N Hx Rx Cx Cl Cg; cbn [app remove_each] in *.
  - assert (K : In s L) by (apply S'; left; reflexivity).
    destruct (listed_live P st g _ s I (proj1 U) K) as (y & H & V). assert (y = x) by congruence. subst y. rewrite (with_slot_live _ _ _ _ H V).
    unfold invalidate. rewrite (with_slot_live _ _ _ _ H V). cbn [bind].
    set (stI := set_slot st s (mkslot true (s_refs x) None (s_caps x))).
    assert (II : inv P stI) by (apply unsend_inv; assumption).
    assert (HI : nth_error (slots stI) s = Some (mkslot true (s_refs x) None (s_caps x))) by (apply (nth_upd_here _ _ _ _ H)).
    assert (DI : disconnected stI s). { intros y Y. rewrite HI in Y. injection Y as <-. reflexivity. }
    pose proof (weak_live _ _ (weak_unsend _ _ _ H V)) as FI. fold stI in FI.
    rewrite (remove_dead f g L d s _ c P stI ltac:(lia) II U K DI HI Rx Cx); [reflexivity|].
    destruct Cg as (z & Z1 & Z2). exists z. split; [|exact Z2]. unfold stI. cbn. rewrite nth_upd_other; [exact Z1|].
    intros ->. inversion N. contradiction.
  - assert (K : In a L) by (apply S'; left; reflexivity).
    destruct (listed_live P st g _ a I (proj1 U) K) as (y & H & V). rewrite (with_slot_live _ _ _ _ H V).
    unfold invalidate. rewrite (with_slot_live _ _ _ _ H V). cbn [bind].
    set (stI := set_slot st a (mkslot true (s_refs y) None (s_caps y))).
    assert (II : inv P stI) by (apply unsend_inv; assumption).
    assert (DI : disconnected stI a). { intros z Y. unfold stI in Y. cbn in Y. rewrite (nth_upd_here _ _ _ _ H) in Y. injection Y as <-. reflexivity. }
    assert (WI : weak st stI) by (apply weak_unsend; assumption).
    pose proof (weak_live _ _ WI) as FI.
    inversion N as [|? ? N1 N2]. subst.
    destruct (remove_spec f g L d a P stI ltac:(lia) II U K DI) as [(st2 & E2 & I2 & U2 & W2 & C2)|(E2 & _)]; rewrite E2; cbn [bind]; [|reflexivity].
    pose proof (weak_live _ _ W2) as F2.
    assert (S2 : incl (l1 ++ s :: l2) (without a L)).
    { intros k Hk. apply in_without. split; [apply S'; right; exact Hk|]. intros ->. contradiction. }
    destruct (w_slots _ _ (weak_trans _ _ _ WI W2) _ _ Hx) as (x2 & X1 & X2 & _ & X3 & _).
    apply (IH x2 (without a L) P st2); try assumption; try lia.
    + apply (refs_listed P st2 g _ s x2 I2 (proj1 U2)); [apply S2; apply in_or_app; right; left; reflexivity|exact X1|lia].
    + rewrite X2. exact Cx.
    + apply C2. destruct Cg as (z & Z1 & Z2). exists z. split; [|exact Z2]. unfold stI. cbn. rewrite nth_upd_other; [exact Z1|].
      intros ->. apply N1. apply in_or_app. right. right. exact Cl.
Qed.

(** Only the slots that are disconnected. *)
Lemma some_spec f g d : forall l L P st, live_of st < f -> inv P st -> under g L d st -> incl l L -> NoDup l ->
  (exists st' L', remove_each (release f) g false l st = Done st' /\ inv P st' /\ under g L' d st' /\ weak st st' /\
    (forall c, connected_to st c g -> connected_to st' c g) /\
    (forall k, In k L' <-> In k L /\ (In k l -> connected_to st k g))) \/
  (remove_each (release f) g false l st = Deadlock /\
    exists s c, In s l /\ disconnected st s /\ may_cut st s c /\ connected_to st c g).
Proof.
  induction l as [|s l IH]; intros L P st F I U S' N.
  - left. exists st, L. split; [reflexivity|]. split; [exact I|]. split; [exact U|]. split; [apply weak_refl|]. split; [tauto|]. intro k. cbn. tauto.
  - cbn [remove_each]. assert (K : In s L) by (apply S'; left; reflexivity). inversion N as [|? ? N1 N2]. subst.
    destruct (listed_live P st g _ s I (proj1 U) K) as (x & H & V). rewrite (with_slot_live _ _ _ _ H V).
    destruct (s_sender x) as [h|] eqn:E.
    + assert (Q : connected_to st s g). { exists x. split; [exact H|]. rewrite <- (i_where _ _ I _ _ _ _ _ (proj1 U) K H E). exact E. }
      destruct (IH L P st F I U ltac:(intros k Hk; apply S'; right; exact Hk) N2) as [(st3 & L3 & E3 & I3 & U3 & W3 & C3 & M3)|(E3 & s' & c & C1 & C2)].
      * left. exists st3, L3. repeat (split; [assumption|]). intro k. rewrite M3. cbn. split.
        -- intros (A & B). split; [exact A|]. intros [<-|Z]; [exact Q|apply B, Z].
        -- intros (A & B). split; [exact A|]. intro Z. apply B. right. exact Z.
      * right. split; [exact E3|]. exists s', c. split; [right; exact C1|exact C2].
    + assert (D : disconnected st s). { intros y Y. congruence. }
      destruct (remove_spec f g L d s P st F I U K D) as [(st2 & E2 & I2 & U2 & W2 & C2)|(E2 & c & C1 & C2)]; rewrite E2; cbn [bind].
      * assert (S2 : incl l (without s L)).
        { intros k Hk. apply in_without. split; [apply S'; right; exact Hk|]. intros ->. contradiction. }
        pose proof (weak_live _ _ W2) as F2.
        destruct (IH (without s L) P st2 ltac:(lia) I2 U2 S2 N2) as [(st3 & L3 & E3 & I3 & U3 & W3 & C3 & M3)|(E3 & s' & c & C1' & C2' & C3' & C4')]; rewrite E3.
        -- left. exists st3, L3. split; [reflexivity|]. split; [assumption|]. split; [assumption|]. split; [apply (weak_trans _ _ _ W2 W3)|].
           split; [intros c Hc; apply C3, C2, Hc|]. intro k. rewrite M3, in_without. cbn. split.
           ++ intros ((A & B) & G). split; [exact A|]. intros [<-|Z]; [contradiction B; reflexivity|apply (weak_connected _ _ _ _ W2), G, Z].
           ++ intros (A & B). split; [split; [exact A|]|intro Z; apply C2, B; right; exact Z].
              intros ->. destruct (B (or_introl eq_refl)) as (y & Y1 & Y2). rewrite (D y Y1) in Y2. discriminate.
        -- right. split; [reflexivity|]. exists s', c. split; [right; exact C1'|].
           split; [|split; [apply (weak_cut _ _ _ _ W2 C3')|apply (weak_connected _ _ _ _ W2 C4')]].
           intros y Y. destruct (s_sender y) as [h|] eqn:Z; [|reflexivity]. exfalso.
           assert (Q : connected_to st s' g).
           { exists y. split; [exact Y|]. rewrite <- (i_where _ _ I _ _ _ _ _ (proj1 U) (S' s' (or_intror C1')) Y Z). exact Z. }
           destruct (C2 s' Q) as (z & Z1 & Z2). rewrite (C2' z Z1) in Z2. discriminate.
      * right. split; [reflexivity|]. exists s, c. split; [left; reflexivity|]. split; [exact D|]. split; assumption.
Qed.
Lemma some_dead f g d s x c l2 : forall l1 L P st, live_of st < f -> inv P st -> under g L d st -> incl (l1 ++ s :: l2) L -> NoDup (l1 ++ s :: l2) ->
  nth_error (slots st) s = Some x -> s_refs x = 1 -> s_sender x = None -> In (true, c) (s_caps x) -> connected_to st c g ->
  remove_each (release f) g false (l1 ++ s :: l2) st = Deadlock.
Proof.
  intros l1. revert x. induction l1 as [|a l1 IH]; intros x L P st F I U S' N Hx Rx Sx Cx Cg; cbn [app remove_each] in *.
  - assert (K : In s L) by (apply S'; left; reflexivity).
    destruct (listed_live P st g _ s I (proj1 U) K) as (y & H & V). assert (y = x) by congruence. subst y. rewrite (with_slot_live _ _ _ _ H V), Sx.
    rewrite (remove_dead f g L d s x c P st F I U K); try assumption; [reflexivity|]. intros y Y. congruence.
  - assert (K : In a L) by (apply S'; left; reflexivity).
    destruct (listed_live P st g _ a I (proj1 U) K) as (y & H & V). rewrite (with_slot_live _ _ _ _ H V).
    inversion N as [|? ? N1 N2]. subst.
    destruct (s_sender y) as [h|] eqn:E.
    + apply (IH x L P st); try assumption. intros k Hk. apply S'. right. exact Hk.
    + assert (D : disconnected st a). { intros z Z. congruence. }
      destruct (remove_spec f g L d a P st F I U K D) as [(st2 & E2 & I2 & U2 & W2 & C2)|(E2 & _)]; rewrite E2; cbn [bind]; [|reflexivity].
      pose proof (weak_live _ _ W2) as F2.
      assert (S2 : incl (l1 ++ s :: l2) (without a L)).
      { intros k Hk. apply in_without. split; [apply S'; right; exact Hk|]. intros ->. contradiction. }
      destruct (w_slots _ _ W2 _ _ Hx) as (x2 & X1 & X2 & _ & X3 & X4 & _).
      apply (IH x2 (without a L) P st2); try assumption; try lia.
      * apply (refs_listed P st2 g _ s x2 I2 (proj1 U2)); [apply S2; apply in_or_app; right; left; reflexivity|exact X1|lia].
      * destruct X4; congruence.
      * rewrite X2. exact Cx.
      * apply C2, Cg.
Qed.
