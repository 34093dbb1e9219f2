(** Releasing slots: counts, locks and what the functions that are destroyed do. *)
From Coq Require Import List Arith Bool Lia Relations.
From Verif Require Import Base CaptModel CaptSpec.
Import ListNotations.

(** * Lists *)

Lemma nth_upd {A} (l : list A) i v j :
  nth_error (upd l i v) j = if Nat.eqb j i then match nth_error l j with Some _ => Some v | None => None end else nth_error l j.
Proof.
  revert i j. induction l as [|a l IH]; intros i j.
  - destruct i, j; cbn; try reflexivity; destruct (Nat.eqb _ _); reflexivity.
  - destruct i as [|i], j as [|j]; cbn; try reflexivity. apply IH.
Qed.
Lemma nth_upd_here {A} (l : list A) i v a : nth_error l i = Some a -> nth_error (upd l i v) i = Some v.
Proof. intro H. rewrite nth_upd, Nat.eqb_refl, H. reflexivity. Qed.
Lemma nth_upd_other {A} (l : list A) i v j : j <> i -> nth_error (upd l i v) j = nth_error l j.
Proof. intro H. rewrite nth_upd. apply Nat.eqb_neq in H. rewrite H. reflexivity. Qed.
Lemma nth_upd_inv {A} (l : list A) i v j a : nth_error (upd l i v) j = Some a -> (j = i /\ a = v) \/ (j <> i /\ nth_error l j = Some a).
Proof.
  rewrite nth_upd. destruct (Nat.eqb_spec j i) as [->|H].
  - destruct (nth_error l i); [|discriminate]. intros [= <-]. left. split; reflexivity.
  - intro K. right. split; assumption.
Qed.
Lemma upd_upd {A} (l : list A) i v w : upd (upd l i v) i w = upd l i w.
Proof. revert i. induction l as [|a l IH]; intros [|i]; cbn; try reflexivity. rewrite IH. reflexivity. Qed.
Lemma total_cons {A} (f : A -> nat) a l : total f (a :: l) = f a + total f l. Proof. reflexivity. Qed.
Lemma total_upd {A} (f : A -> nat) l i v a : nth_error l i = Some a -> total f (upd l i v) + f a = total f l + f v.
Proof.
  revert i. induction l as [|b l IH]; intros [|i]; cbn [upd nth_error]; try discriminate.
  - intros [= ->]. rewrite !total_cons. lia.
  - intro H. specialize (IH i H). rewrite !total_cons. lia.
Qed.
Lemma total_same {A} (f : A -> nat) l i v a : nth_error l i = Some a -> f a = f v -> total f (upd l i v) = total f l.
Proof. intros H K. pose proof (total_upd f l i v a H). lia. Qed.
Lemma total_app {A} (f : A -> nat) l m : total f (l ++ m) = total f l + total f m.
Proof. unfold total. rewrite map_app, list_sum_app. reflexivity. Qed.
Lemma total_ge {A} (f : A -> nat) l i a : nth_error l i = Some a -> f a <= total f l.
Proof.
  revert i. induction l as [|b l IH]; intros [|i]; cbn [upd nth_error]; try discriminate.
  - intros [= ->]. rewrite !total_cons. lia.
  - intro H. specialize (IH i H). rewrite !total_cons. lia.
Qed.
Lemma total_pos {A} (f : A -> nat) l : total f l <> 0 -> exists i a, nth_error l i = Some a /\ f a <> 0.
Proof.
  induction l as [|b l IH]; [intro H; contradiction H; reflexivity|].
  intro H. destruct (Nat.eq_dec (f b) 0) as [E|E].
  - destruct IH as (i & a & H1 & H2). { rewrite total_cons in H. lia. }
    exists (S i), a. split; assumption.
  - exists 0, b. split; [reflexivity|exact E].
Qed.
Lemma times_in s l : In s l <-> times s l <> 0.
Proof. unfold times. rewrite (count_occ_In Nat.eq_dec). lia. Qed.
Lemma times_app s l m : times s (l ++ m) = times s l + times s m.
Proof. unfold times. apply count_occ_app. Qed.
Lemma times_cons s k l : times s (k :: l) = (if Nat.eq_dec k s then 1 else 0) + times s l.
Proof. unfold times. cbn. destruct (Nat.eq_dec k s); reflexivity. Qed.
Definition without (s : nat) (l : list nat) : list nat := filter (fun k => negb (Nat.eqb k s)) l.
Lemma in_without s k l : In k (without s l) <-> In k l /\ k <> s.
Proof.
  unfold without. rewrite filter_In, negb_true_iff, Nat.eqb_neq. reflexivity.
Qed.
Lemma without_cons s a l : without s (a :: l) = if Nat.eqb a s then without s l else a :: without s l.
Proof. unfold without. cbn. destruct (Nat.eqb a s); reflexivity. Qed.
Lemma times_without_other s k l : k <> s -> times k (without s l) = times k l.
Proof.
  intro H. induction l as [|a l IH]; [reflexivity|]. rewrite without_cons, times_cons.
  destruct (Nat.eqb_spec a s) as [->|E].
  - rewrite IH. destruct (Nat.eq_dec s k); [congruence|reflexivity].
  - rewrite times_cons, IH. reflexivity.
Qed.
Lemma times_without_same s l : times s (without s l) = 0.
Proof. destruct (times s (without s l)) eqn:E; [reflexivity|]. exfalso. assert (H : In s (without s l)) by (apply times_in; lia). apply in_without in H. tauto. Qed.
Lemma nodup_without s l : NoDup l -> NoDup (without s l).
Proof. apply NoDup_filter. Qed.
Lemma nodup_times s l : NoDup l -> In s l -> times s l = 1.
Proof. intros H K. apply (NoDup_count_occ' Nat.eq_dec); assumption. Qed.
Lemma existsb_eqb s l : existsb (Nat.eqb s) l = true <-> In s l.
Proof.
  rewrite existsb_exists. split.
  - intros (k & H & E). apply Nat.eqb_eq in E. subst. exact H.
  - intro H. exists s. split; [exact H|apply Nat.eqb_refl].
Qed.

(** * Counts *)

Definition namesP (P : list nat) (st : state) (s : nat) : nat := names st s + times s P.
Definition count (x : slot) : nat := if s_live x then s_refs x else 0.

Record inv (P : list nat) (st : state) : Prop := mkinv {
  i_refs : forall s x, nth_error (slots st) s = Some x -> count x = namesP P st s;
  i_pos : forall s x, nth_error (slots st) s = Some x -> s_live x = true -> s_refs x <> 0;
  i_range : forall s, length (slots st) <= s -> namesP P st s = 0;
  i_sender : forall s x g, nth_error (slots st) s = Some x -> s_sender x = Some g ->
    exists r, nth_error (sigs st) g = Some r /\ g_live r = true /\ In s (g_slots r);
  i_nodup : forall g r, nth_error (sigs st) g = Some r -> NoDup (g_slots r);
  i_dead : forall g r, nth_error (sigs st) g = Some r -> g_live r = false -> g_locked r = false /\ g_slots r = [];
  i_caps : forall s x k c, nth_error (slots st) s = Some x -> In (k, c) (s_caps x) -> c < length (slots st);
  i_where : forall g r s x h, nth_error (sigs st) g = Some r -> In s (g_slots r) -> nth_error (slots st) s = Some x -> s_sender x = Some h -> h = g }.

Lemma listed_in st g r s : nth_error (sigs st) g = Some r -> In s (g_slots r) -> listed st s <> 0.
Proof.
  intros H K. apply times_in in K. unfold listed.
  pose proof (total_ge (fun r => times s (g_slots r)) (sigs st) g r H). cbn in H0. lia.
Qed.
Lemma named_live P st s : inv P st -> namesP P st s <> 0 -> exists x, nth_error (slots st) s = Some x /\ s_live x = true /\ s_refs x = namesP P st s.
Proof.
  intros I H. destruct (nth_error (slots st) s) as [x|] eqn:E.
  - pose proof (i_refs _ _ I _ _ E) as R. unfold count in R. destruct (s_live x) eqn:L; [|lia].
    exists x. repeat split; assumption.
  - apply nth_error_None in E. rewrite (i_range _ _ I _ E) in H. lia.
Qed.
Lemma pending_live P st s : inv (s :: P) st -> exists x, nth_error (slots st) s = Some x /\ s_live x = true /\ s_refs x = namesP (s :: P) st s.
Proof.
  intro I. apply (named_live _ _ _ I). unfold namesP. rewrite times_cons. destruct (Nat.eq_dec s s); [lia|congruence].
Qed.

Definition live_of (st : state) : nat := total (fun x => if s_live x then 1 else 0) (slots st).

(** [c] is connected to a signal whose mutex is held. *)
Definition blocked (st : state) (c : nat) : Prop :=
  exists x g r, nth_error (slots st) c = Some x /\ s_sender x = Some g /\ nth_error (sigs st) g = Some r /\ g_locked r = true.

(** What releasing changes. *)
Record later (st st' : state) : Prop := mklater {
  l_len : length (slots st') = length (slots st);
  l_slots : forall s x, nth_error (slots st) s = Some x -> exists x', nth_error (slots st') s = Some x' /\
    s_caps x' = s_caps x /\ (s_live x' = true -> s_live x = true) /\ s_refs x' <= s_refs x /\
    (s_sender x' = s_sender x \/ s_sender x' = None) /\
    (s_live x = true -> s_live x' = false -> forall c, In (true, c) (s_caps x) -> disconnected st' c) /\
    (forall g r, s_sender x = Some g -> nth_error (sigs st) g = Some r -> g_locked r = true -> s_sender x' = Some g);
  l_slen : length (sigs st') = length (sigs st);
  l_sigs : forall g r, nth_error (sigs st) g = Some r -> exists r', nth_error (sigs st') g = Some r' /\
    g_live r' = g_live r /\ g_active r' = g_active r /\ g_locked r' = g_locked r /\ incl (g_slots r') (g_slots r) /\
    (g_locked r = true -> r' = r) /\ (g_active r = 0 -> g_deferred r' = g_deferred r) /\ (g_active r <> 0 -> g_slots r' = g_slots r);
  l_handles : handles st' = handles st }.

Lemma later_back st st' s x' : later st st' -> nth_error (slots st') s = Some x' -> exists x, nth_error (slots st) s = Some x.
Proof.
  intros L H. destruct (nth_error (slots st) s) as [x|] eqn:E; [exists x; reflexivity|].
  apply nth_error_None in E. rewrite <- (l_len _ _ L) in E. apply nth_error_None in E. congruence.
Qed.
Lemma later_sback st st' g r' : later st st' -> nth_error (sigs st') g = Some r' -> exists r, nth_error (sigs st) g = Some r.
Proof.
  intros L H. destruct (nth_error (sigs st) g) as [x|] eqn:E; [exists x; reflexivity|].
  apply nth_error_None in E. rewrite <- (l_slen _ _ L) in E. apply nth_error_None in E. congruence.
Qed.
Lemma later_refl st : later st st.
Proof.
  split; try reflexivity.
  - intros s x H. exists x. repeat split; try tauto; try lia. intros H1 H2. congruence.
  - intros g r H. exists r. repeat split; try tauto. apply incl_refl.
Qed.
Lemma later_disconnected st st' c : later st st' -> disconnected st c -> disconnected st' c.
Proof.
  intros L D x' H. destruct (later_back _ _ _ _ L H) as (x & E).
  destruct (l_slots _ _ L _ _ E) as (y & H1 & _ & _ & _ & H2 & _). assert (y = x') by congruence. subst y.
  specialize (D x E). destruct H2; congruence.
Qed.
Lemma later_trans st st1 st2 : later st st1 -> later st1 st2 -> later st st2.
Proof.
  intros L M. split.
  - rewrite (l_len _ _ M). apply (l_len _ _ L).
  - intros s x H. destruct (l_slots _ _ L _ _ H) as (x1 & H1 & C1 & V1 & R1 & S1 & D1 & B1).
    destruct (l_slots _ _ M _ _ H1) as (x2 & H2 & C2 & V2 & R2 & S2 & D2 & B2).
    exists x2. split; [exact H2|]. split; [congruence|]. split; [tauto|]. split; [lia|].
    split; [destruct S2 as [S2|S2]; [rewrite S2; exact S1|right; exact S2]|]. split.
    + intros A Z c Hc. destruct (s_live x1) eqn:E1.
      * apply (D2 eq_refl Z). rewrite C1. exact Hc.
      * apply (later_disconnected _ _ _ M). apply (D1 A eq_refl _ Hc).
    + intros g r Hs Hg Hl. destruct (l_sigs _ _ L _ _ Hg) as (r' & Hr & _ & _ & Hl' & _).
      apply (B2 g r'); [apply (B1 g r); assumption|exact Hr|congruence].
  - rewrite (l_slen _ _ M). apply (l_slen _ _ L).
  - intros g r H. destruct (l_sigs _ _ L _ _ H) as (r1 & H1 & V1 & A1 & K1 & S1 & B1 & D1 & E1).
    destruct (l_sigs _ _ M _ _ H1) as (r2 & H2 & V2 & A2 & K2 & S2 & B2 & D2 & E2).
    exists r2. split; [exact H2|]. split; [congruence|]. split; [congruence|]. split; [congruence|].
    split; [intros k Hk; apply S1, S2, Hk|]. split; [|split].
    + intro Z. rewrite (B2 ltac:(congruence)). apply B1, Z.
    + intro Z. rewrite D2 by congruence. apply D1, Z.
    + intro Z. rewrite E2 by congruence. apply E1, Z.
  - rewrite (l_handles _ _ M). apply (l_handles _ _ L).
Qed.
Lemma total_le {A} (f g : A -> nat) l m : length l = length m -> (forall i a b, nth_error l i = Some a -> nth_error m i = Some b -> f a <= g b) ->
  total f l <= total g m.
Proof.
  revert m. induction l as [|a l IH]; intros [|b m] H K; try discriminate; [apply le_n|].
  rewrite !total_cons. specialize (IH m). cbn in H. pose proof (K 0 a b eq_refl eq_refl).
  enough (total f l <= total g m) by lia. apply IH; [lia|]. intros i x y Hx Hy. apply (K (S i) x y Hx Hy).
Qed.
Lemma later_live st st' : later st st' -> live_of st' <= live_of st.
Proof.
  intro L. unfold live_of. apply total_le; [apply (l_len _ _ L)|].
  intros i a b Ha Hb. destruct (l_slots _ _ L _ _ Hb) as (x & H1 & _ & V & _). assert (x = a) by congruence. subst x.
  destruct (s_live a); [rewrite (V eq_refl); lia|destruct (s_live b); lia].
Qed.
Lemma later_blocked st st' c : later st st' -> blocked st' c -> blocked st c.
Proof.
  intros L (x' & g & r' & H1 & H2 & H3 & H4). destruct (later_back _ _ _ _ L H1) as (x & E).
  destruct (later_sback _ _ _ _ L H3) as (r & F).
  destruct (l_slots _ _ L _ _ E) as (y & Y1 & _ & _ & _ & Y2 & _). assert (y = x') by congruence. subst y.
  destruct (l_sigs _ _ L _ _ F) as (z & Z1 & _ & _ & Z2 & _). assert (z = r') by congruence. subst z.
  exists x, g, r. repeat split; try assumption; [destruct Y2; congruence|congruence].
Qed.
Lemma later_blocked_same st st' c : later st st' -> blocked st c -> blocked st' c.
Proof.
  intros L (x & g & r & H1 & H2 & H3 & H4).
  destruct (l_slots _ _ L _ _ H1) as (y & Y1 & _ & _ & _ & _ & _ & Y2).
  destruct (l_sigs _ _ L _ _ H3) as (z & Z1 & _ & _ & _ & _ & Z2 & _).
  exists y, g, z. repeat split; try assumption; [apply (Y2 g r); assumption|rewrite (Z2 H4); exact H4].
Qed.
Lemma later_owns st st' a b : later st st' -> owns st' a b -> owns st a b.
Proof.
  intros L (x' & k & H1 & H2). destruct (later_back _ _ _ _ L H1) as (x & E).
  destruct (l_slots _ _ L _ _ E) as (y & Y1 & Y2 & _). assert (y = x') by congruence. subst y.
  exists x, k. split; [exact E|congruence].
Qed.
Lemma later_owns_scoped st st' a b : later st st' -> owns_scoped st' a b -> owns_scoped st a b.
Proof.
  intros L (x' & H1 & H2). destruct (later_back _ _ _ _ L H1) as (x & E).
  destruct (l_slots _ _ L _ _ E) as (y & Y1 & Y2 & _). assert (y = x') by congruence. subst y.
  exists x. split; [exact E|congruence].
Qed.
Lemma later_cut st st' a c : later st st' -> may_cut st' a c -> may_cut st a c.
Proof.
  intros L (b & H & K). exists b. split; [|apply (later_owns_scoped _ _ _ _ L K)].
  clear K. induction H as [x y H| |x y z _ H1 _ H2].
  - apply rt_step, (later_owns _ _ _ _ L H).
  - apply rt_refl.
  - apply (rt_trans _ _ _ _ _ H1 H2).
Qed.

(** * One step *)

(** Changes of one slot that leave its function. *)
Lemma owned_set_slot st s x y k : nth_error (slots st) s = Some x -> s_live y = s_live x -> s_caps y = s_caps x ->
  owned (set_slot st s y) k = owned st k.
Proof. intros H L C. unfold owned. cbn. apply (total_same _ _ _ _ x H). rewrite L, C. reflexivity. Qed.
Lemma listed_set_slot st s y k : listed (set_slot st s y) k = listed st k. Proof. reflexivity. Qed.
Lemma held_set_slot st s y k : held (set_slot st s y) k = held st k. Proof. reflexivity. Qed.
Lemma live_of_set st s x y : nth_error (slots st) s = Some x -> s_live y = s_live x -> live_of (set_slot st s y) = live_of st.
Proof. intros H L. unfold live_of. cbn. apply (total_same _ _ _ _ x H). rewrite L. reflexivity. Qed.

(** A reference given back, not the last. *)
Lemma less_inv P st s x n : inv (s :: P) st -> nth_error (slots st) s = Some x -> s_live x = true -> s_refs x = S (S n) ->
  inv P (set_slot st s (mkslot true (S n) (s_sender x) (s_caps x))).
Proof.
  intros I H L R. set (st' := set_slot _ _ _).
  assert (N : forall k, namesP P st' k + (if Nat.eq_dec s k then 1 else 0) = namesP (s :: P) st k).
  { intro k. unfold namesP, names, st'. rewrite (owned_set_slot st s x) by (cbn; congruence).
    rewrite listed_set_slot, held_set_slot, times_cons. lia. }
  split.
  - intros k y E. unfold st' in E. cbn in E. apply nth_upd_inv in E. specialize (N k). destruct E as [(-> & ->)|(D & E)].
    + unfold count. cbn [s_live s_refs]. destruct (Nat.eq_dec s s); [|congruence]. pose proof (i_refs _ _ I _ _ H) as Q. unfold count in Q.
      rewrite L in Q. lia.
    + destruct (Nat.eq_dec s k); [congruence|]. rewrite (i_refs _ _ I _ _ E). lia.
  - intros k y. cbn. intro E. apply nth_upd_inv in E. destruct E as [(-> & ->)|(D & E)]; [cbn; lia|apply (i_pos _ _ I _ _ E)].
  - intros k E. unfold st' in E. cbn in E. rewrite length_upd in E. specialize (N k). rewrite (i_range _ _ I k E) in N. lia.
  - intros k y g. cbn. intro E. apply nth_upd_inv in E. destruct E as [(-> & ->)|(D & E)]; [apply (i_sender _ _ I _ _ _ H)|apply (i_sender _ _ I _ _ _ E)].
  - apply (i_nodup _ _ I).
  - apply (i_dead _ _ I).
  - intros k y b c. unfold st'. cbn. rewrite length_upd. intro E. apply nth_upd_inv in E.
    destruct E as [(-> & ->)|(D & E)]; [apply (i_caps _ _ I _ _ _ _ H)|apply (i_caps _ _ I _ _ _ _ E)].
  - intros g r k y h G K. cbn. intro E. apply nth_upd_inv in E.
    destruct E as [(-> & ->)|(D & E)]; [apply (i_where _ _ I _ _ _ _ _ G K H)|apply (i_where _ _ I _ _ _ _ _ G K E)].
Qed.
Lemma less_later st s x n : nth_error (slots st) s = Some x -> s_live x = true -> s_refs x = S (S n) ->
  later st (set_slot st s (mkslot true (S n) (s_sender x) (s_caps x))).
Proof.
  intros H L R. split; try reflexivity.
  - cbn. apply length_upd.
  - intros k y E. cbn. destruct (Nat.eq_dec k s) as [->|D].
    + exists (mkslot true (S n) (s_sender x) (s_caps x)). rewrite (nth_upd_here _ _ _ x H). assert (y = x) by congruence. subst y. cbn.
      repeat split; try tauto; try lia; try discriminate.
    + exists y. rewrite nth_upd_other by exact D. repeat split; try tauto; try lia. intros. congruence.
  - intros g r E. exists r. repeat split; try tauto. apply incl_refl.
Qed.

(** The last reference. *)
Lemma last_inv P st s x : inv (s :: P) st -> nth_error (slots st) s = Some x -> s_live x = true -> s_refs x = 1 ->
  inv (map snd (s_caps x) ++ P) (set_slot st s (mkslot false 0 (s_sender x) (s_caps x))).
Proof.
  intros I H L R. set (st' := set_slot _ _ _).
  assert (N : forall k, namesP (map snd (s_caps x) ++ P) st' k + (if Nat.eq_dec s k then 1 else 0) = namesP (s :: P) st k).
  { intro k. assert (O : owned st' k + times k (map snd (s_caps x)) = owned st k).
    { pose proof (total_upd (fun x => if s_live x then times k (map snd (s_caps x)) else 0) (slots st) s
        (mkslot false 0 (s_sender x) (s_caps x)) x H) as Q. cbn beta in Q. rewrite L in Q. cbn [s_live] in Q. unfold owned, st'.
      cbn [set_slot slots]. lia. }
    unfold namesP, names. change (listed st' k) with (listed st k). change (held st' k) with (held st k).
    rewrite times_cons, times_app. lia. }
  split.
  - intros k y E. unfold st' in E. cbn in E. apply nth_upd_inv in E. specialize (N k). destruct E as [(-> & ->)|(D & E)].
    + unfold count. cbn [s_live s_refs]. destruct (Nat.eq_dec s s); [|congruence]. pose proof (i_refs _ _ I _ _ H) as Q. unfold count in Q.
      rewrite L in Q. lia.
    + destruct (Nat.eq_dec s k); [congruence|]. rewrite (i_refs _ _ I _ _ E). lia.
  - intros k y. cbn. intro E. apply nth_upd_inv in E. destruct E as [(-> & ->)|(D & E)]; [cbn; discriminate|apply (i_pos _ _ I _ _ E)].
  - intros k E. unfold st' in E. cbn in E. rewrite length_upd in E. specialize (N k). rewrite (i_range _ _ I k E) in N. lia.
  - intros k y g. cbn. intro E. apply nth_upd_inv in E. destruct E as [(-> & ->)|(D & E)]; [apply (i_sender _ _ I _ _ _ H)|apply (i_sender _ _ I _ _ _ E)].
  - apply (i_nodup _ _ I).
  - apply (i_dead _ _ I).
  - intros k y b c. unfold st'. cbn. rewrite length_upd. intro E. apply nth_upd_inv in E.
    destruct E as [(-> & ->)|(D & E)]; [apply (i_caps _ _ I _ _ _ _ H)|apply (i_caps _ _ I _ _ _ _ E)].
  - intros g r k y h G K. cbn. intro E. apply nth_upd_inv in E.
    destruct E as [(-> & ->)|(D & E)]; [apply (i_where _ _ I _ _ _ _ _ G K H)|apply (i_where _ _ I _ _ _ _ _ G K E)].
Qed.
Lemma last_later st st' s x : nth_error (slots st) s = Some x -> s_live x = true ->
  later (set_slot st s (mkslot false 0 (s_sender x) (s_caps x))) st' -> (forall c, In (true, c) (s_caps x) -> disconnected st' c) -> later st st'.
Proof.
  intros H L M D. split.
  - rewrite (l_len _ _ M). cbn. apply length_upd.
  - intros k y E. destruct (Nat.eq_dec k s) as [->|Q].
    + assert (y = x) by congruence. subst y. destruct (l_slots _ _ M s _ (nth_upd_here _ _ _ _ H)) as (x' & H1 & C & V & R & S1 & _ & B). cbn in *.
      exists x'. split; [exact H1|]. split; [exact C|]. split; [tauto|]. split; [lia|]. split; [exact S1|]. split; [intros _ _; exact D|exact B].
    + apply (l_slots _ _ M k y). cbn. rewrite nth_upd_other by exact Q. exact E.
  - apply (l_slen _ _ M).
  - apply (l_sigs _ _ M).
  - apply (l_handles _ _ M).
Qed.
Lemma last_live st s x y : nth_error (slots st) s = Some x -> s_live x = true -> s_live y = false -> S (live_of (set_slot st s y)) = live_of st.
Proof.
  intros H L D. unfold live_of. cbn [set_slot slots].
  pose proof (total_upd (fun x => if s_live x then 1 else 0) (slots st) s y x H) as Q. cbn beta in Q. rewrite L, D in Q. lia.
Qed.
