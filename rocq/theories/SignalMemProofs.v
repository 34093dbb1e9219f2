(** Lemmas about the memory part of the signal model. *)
From Coq Require Import List Arith Bool Lia.
From Verif Require Import Base XinfoProofs SignalModel.
Import ListNotations.
Local Open Scope outcome_scope.

(* ------------------------------------------------------- views of memory *)

Definition slot_view {A} (f : slot -> A) (d : A) (m : mem) (s : nat) : A :=
  match nth_error (heap m) s with Some x => f x | None => d end.
Definition refs := slot_view s_refs 0.
Definition conn := slot_view s_sender None.
Definition blk := slot_view s_block 0.
Definition nxt := slot_view s_next None.

Definition sig_view {A} (f : sigrec -> A) (d : A) (m : mem) (g : nat) : A :=
  match nth_error (sigs m) g with Some r => f r | None => d end.
Definition glive := sig_view g_live false.
Definition ghead := sig_view g_head None.
Definition gtail := sig_view g_tail None.
Definition gact := sig_view g_active 0.
Definition gdfr := sig_view g_deferred false.

Definition fupd {A} (f : nat -> A) (k : nat) (v : A) : nat -> A :=
  fun k' => if Nat.eqb k' k then v else f k'.

Lemma fupd_same {A} (f : nat -> A) k v : fupd f k v k = v.
Proof. unfold fupd. now rewrite Nat.eqb_refl. Qed.
Lemma fupd_other {A} (f : nat -> A) k v k' : k' <> k -> fupd f k v k' = f k'.
Proof. unfold fupd. intros H. apply Nat.eqb_neq in H. now rewrite H. Qed.

Lemma nth_upd {A} (l : list A) i j v :
  i < length l -> nth_error (upd l i v) j = if Nat.eqb j i then Some v else nth_error l j.
Proof.
  intros H. destruct (Nat.eqb_spec j i) as [-> | n].
  - apply nth_upd_same; auto.
  - apply nth_upd_other; auto.
Qed.

Lemma slot_view_put {A} (f : slot -> A) d m s x k :
  s < length (heap m) ->
  slot_view f d (put_slot m s x) k = fupd (slot_view f d m) s (f x) k.
Proof.
  intros H. unfold slot_view, put_slot, fupd. cbn. rewrite nth_upd; auto.
  destruct (Nat.eqb k s); auto.
Qed.

Lemma sig_view_put {A} (f : sigrec -> A) d m g r k :
  g < length (sigs m) ->
  sig_view f d (put_sig m g r) k = fupd (sig_view f d m) g (f r) k.
Proof.
  intros H. unfold sig_view, put_sig, fupd. cbn. rewrite nth_upd; auto.
  destruct (Nat.eqb k g); auto.
Qed.

Definition wf (m : mem) : Prop :=
  forall s x, nth_error (heap m) s = Some x -> s_live x = negb (Nat.eqb (s_refs x) 0).

Lemma refs_range m s : 0 < refs m s -> s < length (heap m).
Proof.
  unfold refs, slot_view. destruct (nth_error (heap m) s) eqn:E; [|lia].
  intros _. apply nth_error_Some. congruence.
Qed.

Lemma get_slot_ok m s :
  wf m -> 0 < refs m s ->
  get_slot m s = Ok (mkslot true (refs m s) (conn m s) (blk m s) (nxt m s)).
Proof.
  intros W H. unfold get_slot, refs, conn, blk, nxt, slot_view in *.
  destruct (nth_error (heap m) s) as [x|] eqn:E; [|lia].
  rewrite (W _ _ E). destruct (s_refs x) eqn:R; [lia|]. cbn.
  pose proof (W _ _ E) as Hl. rewrite R in Hl. cbn in Hl.
  destruct x; cbn in *; subst. reflexivity.
Qed.

Lemma glive_range m g : glive m g = true -> g < length (sigs m).
Proof.
  unfold glive, sig_view. destruct (nth_error (sigs m) g) eqn:E; [|discriminate].
  intros _. apply nth_error_Some. congruence.
Qed.

Lemma get_sig_ok m g :
  glive m g = true ->
  get_sig m g = Ok (mksig true (ghead m g) (gtail m g) (gact m g) (gdfr m g)).
Proof.
  intros H. unfold get_sig, glive, ghead, gtail, gact, gdfr, sig_view in *.
  destruct (nth_error (sigs m) g) as [x|] eqn:E; [|discriminate].
  rewrite H. destruct x; cbn in *; subst. reflexivity.
Qed.

Lemma wf_put m s x :
  wf m -> s_live x = negb (Nat.eqb (s_refs x) 0) -> wf (put_slot m s x).
Proof.
  intros W H k y E. unfold put_slot in E; cbn in E.
  destruct (le_lt_dec (length (heap m)) s) as [l|l].
  - assert (upd (heap m) s x = heap m) as Eu.
    { clear -l. revert s l. induction (heap m) as [|a h IH]; intros s l; [reflexivity|].
      destruct s as [|s]; cbn in *; [lia|]. f_equal. apply IH. lia. }
    rewrite Eu in E. eapply W; eauto.
  - rewrite nth_upd in E by auto. destruct (Nat.eqb k s); [|eapply W; eauto].
    injection E as <-. auto.
Qed.

(* ------------------------------------------------------------ linked lists *)

Fixpoint chain (m : mem) (o : option nat) (l : list nat) : Prop :=
  match l with
  | [] => o = None
  | s :: l' => o = Some s /\ chain m (nxt m s) l'
  end.

Definition hd_opt (l : list nat) : option nat := match l with [] => None | s :: _ => Some s end.
Fixpoint last_opt (l : list nat) : option nat :=
  match l with [] => None | [s] => Some s | _ :: l' => last_opt l' end.

Lemma last_opt_app l s : last_opt (l ++ [s]) = Some s.
Proof.
  induction l as [|a l IH]; [reflexivity|]. cbn [app].
  destruct (l ++ [s]) eqn:E; [destruct l; discriminate|]. exact IH.
Qed.

Lemma last_opt_none l : last_opt l = None -> l = [].
Proof.
  destruct l as [|a l] using rev_ind; auto. rewrite last_opt_app. discriminate.
Qed.

Lemma last_opt_some l s : last_opt l = Some s -> exists p, l = p ++ [s].
Proof.
  destruct l as [|a l IH] using rev_ind; [discriminate|]. rewrite last_opt_app.
  intros E; injection E as ->. eauto.
Qed.

Lemma last_opt_app_ne l k : k <> [] -> last_opt (l ++ k) = last_opt k.
Proof.
  intros H. destruct (last_opt k) as [s|] eqn:E.
  - destruct (last_opt_some _ _ E) as [p ->]. rewrite app_assoc. apply last_opt_app.
  - apply last_opt_none in E. contradiction.
Qed.

Lemma chain_hd m o l : chain m o l -> o = hd_opt l.
Proof. destruct l; cbn; intuition. Qed.

Lemma chain_ext m m' o l :
  (forall s, In s l -> nxt m' s = nxt m s) -> chain m o l -> chain m' o l.
Proof.
  revert o. induction l as [|s l IH]; cbn; intros o H C; auto.
  destruct C as [-> C]. split; auto. rewrite H by auto. apply IH; auto.
Qed.

(** Splitting a chain in two. *)
Fixpoint lseg (m : mem) (o : option nat) (l : list nat) (e : option nat) : Prop :=
  match l with
  | [] => o = e
  | s :: l' => o = Some s /\ lseg m (nxt m s) l' e
  end.

Lemma chain_app m o l k : chain m o (l ++ k) <-> lseg m o l (hd_opt k) /\ chain m (hd_opt k) k.
Proof.
  revert o. induction l as [|s l IH]; intros o; cbn.
  - split.
    + intros C. rewrite <- (chain_hd _ _ _ C). auto.
    + intros [-> C]. exact C.
  - rewrite IH. intuition.
Qed.

Lemma lseg_ext m m' o l e :
  (forall s, In s l -> nxt m' s = nxt m s) -> lseg m o l e -> lseg m' o l e.
Proof.
  revert o. induction l as [|s l IH]; cbn; intros o H C; auto.
  destruct C as [-> C]. split; auto. rewrite H by auto. apply IH; auto.
Qed.

Lemma lseg_app m o l k e :
  lseg m o (l ++ k) e <-> exists i, lseg m o l i /\ lseg m i k e.
Proof.
  revert o. induction l as [|s l IH]; intros o; cbn.
  - split; [intros C; eauto|intros (i & -> & C); auto].
  - rewrite IH. split.
    + intros [-> (i & A & B)]. eauto.
    + intros (i & [-> A] & B). eauto.
Qed.

(* ------------------------------------------------------ memory invariant *)

Definition held (H : nat -> option nat) (s : nat) : nat := match H s with Some _ => 1 | None => 0 end.

(** [L g] is the slot list of signal [g], [H s] the signal whose list has [s],
    [X s] the references on [s] not owned by a list, [B s] the blockers. *)
Record minv (m : mem) (L : nat -> list nat) (H : nat -> option nat) (X B A : nat -> nat) : Prop := {
  mi_wf : wf m;
  mi_refs : forall s, refs m s = held H s + X s;
  mi_blk : forall s, blk m s = B s;
  mi_in : forall s g, In s (L g) <-> H s = Some g;
  mi_nodup : forall g, NoDup (L g);
  mi_chain : forall g, chain m (ghead m g) (L g);
  mi_tail : forall g, gtail m g = last_opt (L g);
  mi_act : forall g, gact m g = A g
}.

Lemma minv_ext m L H X B A L' H' X' B' A' :
  minv m L H X B A ->
  (forall g, L' g = L g) -> (forall s, H' s = H s) -> (forall s, X' s = X s) ->
  (forall s, B' s = B s) -> (forall g, A' g = A g) ->
  minv m L' H' X' B' A'.
Proof.
  intros [] EL EH EX EB EA. constructor; auto.
  - intros s. unfold held in *. rewrite EH, EX. auto.
  - intros s. rewrite EB. auto.
  - intros s g. rewrite EL, EH. auto.
  - intros g. rewrite EL. auto.
  - intros g. rewrite EL. auto.
  - intros g. rewrite EL. auto.
  - intros g. rewrite EA. auto.
Qed.

Lemma minv_in_refs m L H X B A g s : minv m L H X B A -> In s (L g) -> 0 < refs m s.
Proof.
  intros I Hi. rewrite (mi_refs _ _ _ _ _ _ I). apply (mi_in _ _ _ _ _ _ I) in Hi.
  unfold held. rewrite Hi. lia.
Qed.

Lemma list_bound m L H X B A g : minv m L H X B A -> length (L g) <= length (heap m).
Proof.
  intros I. rewrite <- (seq_length (length (heap m)) 0).
  apply NoDup_incl_length; [apply (mi_nodup _ _ _ _ _ _ I)|].
  intros s Hs. apply in_seq. cbn. split; [lia|].
  apply refs_range. eapply minv_in_refs; eauto.
Qed.

(** Everything about memory that does not belong to the invariant. *)
Record same (m m' : mem) : Prop := {
  sm_conn : forall s, conn m' s = conn m s;
  sm_dfr : forall g, gdfr m' g = gdfr m g;
  sm_glive : forall g, glive m' g = glive m g;
  sm_hlen : length (heap m') = length (heap m);
  sm_slen : length (sigs m') = length (sigs m)
}.

Lemma same_refl m : same m m.
Proof. constructor; auto. Qed.
Lemma same_trans a b c : same a b -> same b c -> same a c.
Proof. intros [] []. constructor; intros; congruence. Qed.

(** Rewriting of views after a write. *)
Lemma put_slot_sig {A} (f : sigrec -> A) d m s x g : sig_view f d (put_slot m s x) g = sig_view f d m g.
Proof. reflexivity. Qed.
Lemma put_sig_slot {A} (f : slot -> A) d m g r s : slot_view f d (put_sig m g r) s = slot_view f d m s.
Proof. reflexivity. Qed.

Lemma held_pos H s : 0 <= held H s. Proof. lia. Qed.

Lemma add_ref_ok m L H X B A s :
  minv m L H X B A -> 0 < refs m s ->
  exists m', add_ref m s = Ok m' /\ minv m' L H (fun k => if Nat.eqb k s then S (X k) else X k) B A /\ same m m'.
Proof.
  intros I Hs. pose proof (refs_range _ _ Hs) as Hr. destruct I as [W R K I N C T V].
  unfold add_ref. rewrite (get_slot_ok _ _ W Hs). cbn [obind s_refs s_sender s_block s_next].
  eexists. split; [reflexivity|]. split.
  - constructor; auto.
    + apply wf_put; auto. cbn. destruct (refs m s) eqn:E; [lia|reflexivity].
    + intros k. unfold refs in *. rewrite slot_view_put by auto. unfold fupd. cbn.
      destruct (Nat.eqb_spec k s) as [-> | n]; rewrite R; lia.
    + intros k. unfold blk in *. rewrite slot_view_put by auto. unfold fupd. cbn.
      destruct (Nat.eqb_spec k s) as [-> | n]; auto.
    + intros g. eapply chain_ext; [|apply C].
      intros k _. unfold nxt. rewrite slot_view_put by auto. unfold fupd. cbn.
      destruct (Nat.eqb_spec k s) as [-> | n]; auto.
  - constructor; auto.
    + intros k. unfold conn. rewrite slot_view_put by auto. unfold fupd. cbn.
      destruct (Nat.eqb_spec k s) as [-> | n]; auto.
    + cbn. apply length_upd.
Qed.

Lemma add_ref_opt_ok m L H X B A o :
  minv m L H X B A -> (forall s, o = Some s -> 0 < refs m s) ->
  exists m', add_ref_opt m o = Ok m' /\
    minv m' L H (fun k => if is_slot o k then S (X k) else X k) B A /\ same m m'.
Proof.
  intros I Hs. destruct o as [s|]; cbn.
  - destruct (add_ref_ok _ _ _ _ _ _ s I (Hs s eq_refl)) as (m' & E & I' & S').
    exists m'. split; auto. split; auto. eapply minv_ext; eauto.
    intros k. cbn. rewrite Nat.eqb_sym. auto.
  - eexists. split; [reflexivity|]. split; [|apply same_refl]. eapply minv_ext; eauto.
Qed.

Lemma release_ok m L H X B A s :
  minv m L H X B A -> 0 < X s ->
  exists m', release m s = Ok m' /\ minv m' L H (fun k => if Nat.eqb k s then X k - 1 else X k) B A /\ same m m'.
Proof.
  intros I Hs. destruct I as [W R K I N C T V].
  assert (0 < refs m s) as Hp by (rewrite R; lia).
  pose proof (refs_range _ _ Hp) as Hr.
  unfold release. rewrite (get_slot_ok _ _ W Hp). cbn [obind s_refs s_sender s_block s_next].
  destruct (refs m s) as [|n] eqn:Er; [lia|].
  eexists. split; [reflexivity|]. split.
  - constructor; auto.
    + apply wf_put; auto.
    + intros k. unfold refs in *. rewrite slot_view_put by auto. unfold fupd. cbn.
      destruct (Nat.eqb_spec k s) as [-> | n']; [|apply R].
      specialize (R s). rewrite Er in R. lia.
    + intros k. unfold blk in *. rewrite slot_view_put by auto. unfold fupd. cbn.
      destruct (Nat.eqb_spec k s) as [-> | n']; auto.
    + intros g. eapply chain_ext; [|apply C].
      intros k _. unfold nxt. rewrite slot_view_put by auto. unfold fupd. cbn.
      destruct (Nat.eqb_spec k s) as [-> | n']; auto.
  - constructor; auto.
    + intros k. unfold conn. rewrite slot_view_put by auto. unfold fupd. cbn.
      destruct (Nat.eqb_spec k s) as [-> | n']; auto.
    + cbn. apply length_upd.
Qed.

Lemma release_opt_ok m L H X B A o :
  minv m L H X B A -> (forall s, o = Some s -> 0 < X s) ->
  exists m', release_opt m o = Ok m' /\
    minv m' L H (fun k => if is_slot o k then X k - 1 else X k) B A /\ same m m'.
Proof.
  intros I Hs. destruct o as [s|]; cbn.
  - destruct (release_ok _ _ _ _ _ _ s I (Hs s eq_refl)) as (m' & E & I' & S').
    exists m'. split; auto. split; auto. eapply minv_ext; eauto.
    intros k. cbn. rewrite Nat.eqb_sym. auto.
  - eexists. split; [reflexivity|]. split; [|apply same_refl]. eapply minv_ext; eauto.
Qed.

Lemma block_opt_ok m L H X B A o :
  minv m L H X B A -> (forall s, o = Some s -> 0 < refs m s) ->
  exists m', block_opt m o = Ok m' /\
    minv m' L H X (fun k => if is_slot o k then S (B k) else B k) A /\ same m m'.
Proof.
  intros I Hs. destruct o as [s|]; cbn; [|eexists; split; [reflexivity|]; split; [|apply same_refl]; eapply minv_ext; eauto].
  specialize (Hs s eq_refl). pose proof (refs_range _ _ Hs) as Hr. destruct I as [W R K I N C T V].
  unfold block. rewrite (get_slot_ok _ _ W Hs). cbn [obind s_refs s_sender s_block s_next].
  eexists. split; [reflexivity|]. split.
  - constructor; auto.
    + apply wf_put; auto. cbn. destruct (refs m s) eqn:E; [lia|reflexivity].
    + intros k. unfold refs in *. rewrite slot_view_put by auto. unfold fupd. cbn.
      destruct (Nat.eqb_spec k s) as [-> | n]; auto.
    + intros k. unfold blk in *. rewrite slot_view_put by auto. unfold fupd. cbn.
      rewrite (Nat.eqb_sym s k). destruct (Nat.eqb_spec k s) as [-> | n]; rewrite K; lia.
    + intros g. eapply chain_ext; [|apply C].
      intros k _. unfold nxt. rewrite slot_view_put by auto. unfold fupd. cbn.
      destruct (Nat.eqb_spec k s) as [-> | n]; auto.
  - constructor; auto.
    + intros k. unfold conn. rewrite slot_view_put by auto. unfold fupd. cbn.
      destruct (Nat.eqb_spec k s) as [-> | n]; auto.
    + cbn. apply length_upd.
Qed.

Lemma unblock_opt_ok m L H X B A o :
  minv m L H X B A -> (forall s, o = Some s -> 0 < refs m s /\ 0 < B s) ->
  exists m', unblock_opt m o = Ok m' /\
    minv m' L H X (fun k => if is_slot o k then B k - 1 else B k) A /\ same m m'.
Proof.
  intros I Hs. destruct o as [s|]; cbn; [|eexists; split; [reflexivity|]; split; [|apply same_refl]; eapply minv_ext; eauto].
  destruct (Hs s eq_refl) as [Hp Hb]. pose proof (refs_range _ _ Hp) as Hr. destruct I as [W R K I N C T V].
  unfold unblock. rewrite (get_slot_ok _ _ W Hp). cbn [obind s_refs s_sender s_block s_next].
  destruct (blk m s) as [|n] eqn:Eb; [rewrite K in Eb; lia|].
  eexists. split; [reflexivity|]. split.
  - constructor; auto.
    + apply wf_put; auto. cbn. destruct (refs m s) eqn:E; [lia|reflexivity].
    + intros k. unfold refs in *. rewrite slot_view_put by auto. unfold fupd. cbn.
      destruct (Nat.eqb_spec k s) as [-> | n']; auto.
    + intros k. unfold blk in *. rewrite slot_view_put by auto. unfold fupd. cbn.
      rewrite (Nat.eqb_sym s k). destruct (Nat.eqb_spec k s) as [-> | n']; [|apply K].
      specialize (K s). rewrite Eb in K. lia.
    + intros g. eapply chain_ext; [|apply C].
      intros k _. unfold nxt. rewrite slot_view_put by auto. unfold fupd. cbn.
      destruct (Nat.eqb_spec k s) as [-> | n']; auto.
  - constructor; auto.
    + intros k. unfold conn. rewrite slot_view_put by auto. unfold fupd. cbn.
      destruct (Nat.eqb_spec k s) as [-> | n']; auto.
    + cbn. apply length_upd.
Qed.

(** Like [same], but the senders are given by [c]. *)
Record same_but (c : nat -> option nat) (m m' : mem) : Prop := {
  sb_conn : forall s, conn m' s = c s;
  sb_dfr : forall g, gdfr m' g = gdfr m g;
  sb_glive : forall g, glive m' g = glive m g;
  sb_hlen : length (heap m') = length (heap m);
  sb_slen : length (sigs m') = length (sigs m)
}.

Lemma rebind_ok m L H X B A s o :
  minv m L H X B A -> 0 < refs m s ->
  exists m', rebind m s o = Ok m' /\ minv m' L H X B A /\ same_but (fupd (conn m) s o) m m'.
Proof.
  intros I Hs. pose proof (refs_range _ _ Hs) as Hr. destruct I as [W R K I N C T V].
  unfold rebind. rewrite (get_slot_ok _ _ W Hs). cbn [obind s_refs s_sender s_block s_next].
  eexists. split; [reflexivity|]. split.
  - constructor; auto.
    + apply wf_put; auto. cbn. destruct (refs m s) eqn:E; [lia|reflexivity].
    + intros k. unfold refs in *. rewrite slot_view_put by auto. unfold fupd. cbn.
      destruct (Nat.eqb_spec k s) as [-> | n]; auto.
    + intros k. unfold blk in *. rewrite slot_view_put by auto. unfold fupd. cbn.
      destruct (Nat.eqb_spec k s) as [-> | n]; auto.
    + intros g. eapply chain_ext; [|apply C].
      intros k _. unfold nxt. rewrite slot_view_put by auto. unfold fupd. cbn.
      destruct (Nat.eqb_spec k s) as [-> | n]; auto.
  - constructor; auto.
    + intros k. unfold conn. rewrite slot_view_put by auto. reflexivity.
    + cbn. apply length_upd.
Qed.

(** The number of running emissions is changed to what [A'] says. *)
Lemma set_active_ok m L H X B A g n :
  minv m L H X B A -> glive m g = true ->
  exists m', set_active m g n = Ok m' /\ minv m' L H X B (fupd A g n) /\ same m m'.
Proof.
  intros I Hg. pose proof (glive_range _ _ Hg) as Hr. destruct I as [W R K I N C T V].
  unfold set_active. rewrite (get_sig_ok _ _ Hg). cbn [obind g_head g_tail g_active g_deferred].
  eexists. split; [reflexivity|]. split.
  - constructor; auto.
    + intros k. unfold ghead. rewrite sig_view_put by auto. unfold fupd. cbn.
      apply (chain_ext m); [reflexivity|]. specialize (C k).
      destruct (Nat.eqb_spec k g) as [-> | n']; exact C.
    + intros k. unfold gtail in *. rewrite sig_view_put by auto. unfold fupd. cbn.
      destruct (Nat.eqb_spec k g) as [-> | n']; auto.
    + intros k. unfold gact in *. rewrite sig_view_put by auto. unfold fupd. cbn.
      destruct (Nat.eqb_spec k g) as [-> | n']; auto.
  - constructor; auto.
    + intros k. unfold gdfr. rewrite sig_view_put by auto. unfold fupd. cbn.
      destruct (Nat.eqb_spec k g) as [-> | n']; auto.
    + intros k. unfold glive in *. rewrite sig_view_put by auto. unfold fupd. cbn.
      destruct (Nat.eqb_spec k g) as [-> | n']; auto.
    + cbn. apply length_upd.
Qed.

Record same_dfr (d : nat -> bool) (m m' : mem) : Prop := {
  sd_conn : forall s, conn m' s = conn m s;
  sd_dfr : forall g, gdfr m' g = d g;
  sd_glive : forall g, glive m' g = glive m g;
  sd_hlen : length (heap m') = length (heap m);
  sd_slen : length (sigs m') = length (sigs m)
}.

Lemma set_deferred_ok m L H X B A g b :
  minv m L H X B A -> glive m g = true ->
  exists m', set_deferred m g b = Ok m' /\ minv m' L H X B A /\ same_dfr (fupd (gdfr m) g b) m m'.
Proof.
  intros I Hg. pose proof (glive_range _ _ Hg) as Hr. destruct I as [W R K I N C T V].
  unfold set_deferred. rewrite (get_sig_ok _ _ Hg). cbn [obind g_head g_tail g_active g_deferred].
  eexists. split; [reflexivity|]. split.
  - constructor; auto.
    + intros k. unfold ghead. rewrite sig_view_put by auto. unfold fupd. cbn.
      apply (chain_ext m); [reflexivity|]. specialize (C k).
      destruct (Nat.eqb_spec k g) as [-> | n']; exact C.
    + intros k. unfold gtail in *. rewrite sig_view_put by auto. unfold fupd. cbn.
      destruct (Nat.eqb_spec k g) as [-> | n']; auto.
    + intros k. unfold gact in *. rewrite sig_view_put by auto. unfold fupd. cbn.
      destruct (Nat.eqb_spec k g) as [-> | n']; auto.
  - constructor; auto.
    + intros k. unfold gdfr. rewrite sig_view_put by auto. reflexivity.
    + intros k. unfold glive in *. rewrite sig_view_put by auto. unfold fupd. cbn.
      destruct (Nat.eqb_spec k g) as [-> | n']; auto.
    + cbn. apply length_upd.
Qed.

(* ------------------------------------------------- changing the lists *)

Record upd_next (m m' : mem) (s : nat) (n : option nat) : Prop := {
  un_wf : wf m';
  un_refs : forall k, refs m' k = refs m k;
  un_blk : forall k, blk m' k = blk m k;
  un_conn : forall k, conn m' k = conn m k;
  un_nxt : forall k, nxt m' k = fupd (nxt m) s n k;
  un_sigs : sigs m' = sigs m;
  un_hlen : length (heap m') = length (heap m)
}.

Lemma set_next_ok m s n :
  wf m -> 0 < refs m s -> exists m', set_next m s n = Ok m' /\ upd_next m m' s n.
Proof.
  intros W Hs. pose proof (refs_range _ _ Hs) as Hr.
  unfold set_next. rewrite (get_slot_ok _ _ W Hs). cbn [obind s_refs s_sender s_block s_next].
  eexists. split; [reflexivity|]. constructor; auto.
  - apply wf_put; auto. cbn. destruct (refs m s) eqn:E; [lia|reflexivity].
  - intros k. unfold refs in *. rewrite slot_view_put by auto. unfold fupd. cbn.
    destruct (Nat.eqb_spec k s) as [-> | n']; auto.
  - intros k. unfold blk in *. rewrite slot_view_put by auto. unfold fupd. cbn.
    destruct (Nat.eqb_spec k s) as [-> | n']; auto.
  - intros k. unfold conn in *. rewrite slot_view_put by auto. unfold fupd. cbn.
    destruct (Nat.eqb_spec k s) as [-> | n']; auto.
  - intros k. unfold nxt in *. rewrite slot_view_put by auto. reflexivity.
  - cbn. apply length_upd.
Qed.

Record upd_sig (m m' : mem) (g : nat) (h t : option nat) : Prop := {
  us_heap : heap m' = heap m;
  us_head : forall k, ghead m' k = fupd (ghead m) g h k;
  us_tail : forall k, gtail m' k = fupd (gtail m) g t k;
  us_act : forall k, gact m' k = gact m k;
  us_dfr : forall k, gdfr m' k = gdfr m k;
  us_live : forall k, glive m' k = glive m k;
  us_len : length (sigs m') = length (sigs m)
}.

Lemma set_head_ok m g h :
  glive m g = true -> exists m', set_head m g h = Ok m' /\ upd_sig m m' g h (gtail m g).
Proof.
  intros Hg. pose proof (glive_range _ _ Hg) as Hr.
  unfold set_head. rewrite (get_sig_ok _ _ Hg). cbn [obind g_head g_tail g_active g_deferred].
  eexists. split; [reflexivity|]. constructor; auto; try (cbn; apply length_upd).
  all: intros k; unfold ghead, gtail, gact, gdfr, glive in *; rewrite sig_view_put by auto; unfold fupd; cbn;
    destruct (Nat.eqb_spec k g) as [-> | n']; auto.
Qed.

Lemma set_tail_ok m g t :
  glive m g = true -> exists m', set_tail m g t = Ok m' /\ upd_sig m m' g (ghead m g) t.
Proof.
  intros Hg. pose proof (glive_range _ _ Hg) as Hr.
  unfold set_tail. rewrite (get_sig_ok _ _ Hg). cbn [obind g_head g_tail g_active g_deferred].
  eexists. split; [reflexivity|]. constructor; auto; try (cbn; apply length_upd).
  all: intros k; unfold ghead, gtail, gact, gdfr, glive in *; rewrite sig_view_put by auto; unfold fupd; cbn;
    destruct (Nat.eqb_spec k g) as [-> | n']; auto.
Qed.

Lemma heap_view {A} (f : slot -> A) d m m' s : heap m' = heap m -> slot_view f d m' s = slot_view f d m s.
Proof. unfold slot_view. now intros ->. Qed.
Lemma sigs_view {A} (f : sigrec -> A) d m m' g : sigs m' = sigs m -> sig_view f d m' g = sig_view f d m g.
Proof. unfold sig_view. now intros ->. Qed.

Lemma heap_wf m m' : heap m' = heap m -> wf m -> wf m'.
Proof. unfold wf. now intros ->. Qed.

Lemma in_fupd_list (L : nat -> list nat) (H : nat -> option nat) g s l :
  (forall k j, In k (L j) <-> H k = Some j) ->
  H s = None -> (forall k, In k l <-> k = s \/ In k (L g)) ->
  forall k j, In k (fupd L g l j) <-> fupd H s (Some g) k = Some j.
Proof.
  intros I Hs Hl k j. unfold fupd.
  destruct (Nat.eqb_spec j g) as [-> | n], (Nat.eqb_spec k s) as [-> | n'].
  - rewrite Hl. intuition.
  - rewrite Hl, I. intuition.
  - rewrite I, Hs. split; [discriminate|congruence].
  - apply I.
Qed.

Lemma insert_ok m L H X B A g s (at_front : bool) :
  minv m L H X B A -> glive m g = true -> 0 < X s -> H s = None -> nxt m s = None ->
  exists m', insert_new_slot m g s at_front = Ok m' /\
    minv m' (fupd L g (if at_front then s :: L g else L g ++ [s])) (fupd H s (Some g))
         (fun k => if Nat.eqb k s then X k - 1 else X k) B A /\ same m m'.
Proof.
  intros I Hg Hx Hh Hn. pose proof I as [W R K Hin N C T V].
  assert (0 < refs m s) as Hp by (rewrite R; lia).
  assert (forall k, refs m k = held (fupd H s (Some g)) k + (if Nat.eqb k s then X k - 1 else X k)) as R'.
  { intros k. rewrite R. unfold held, fupd. destruct (Nat.eqb_spec k s) as [-> | n]; auto. rewrite Hh. lia. }
  assert (~ In s (L g)) as Hni by (rewrite Hin, Hh; discriminate).
  assert (NoDup (if at_front then s :: L g else L g ++ [s])) as Hnd.
  { destruct at_front; [constructor; auto|].
    apply NoDup_Add with (a := s) (l := L g); [|split; auto].
    replace (L g) with (L g ++ []) at 1 by apply app_nil_r. apply Add_app. }
  assert (forall k, In k (if at_front then s :: L g else L g ++ [s]) <-> k = s \/ In k (L g)) as Hil.
  { intros k. destruct at_front; [cbn; intuition|]. rewrite in_app_iff. cbn. intuition. }
  unfold insert_new_slot. rewrite (get_sig_ok _ _ Hg). cbn [obind g_head g_tail g_active g_deferred].
  pose proof (C g) as Cg. pose proof (T g) as Tg.
  destruct (L g) as [|a l] eqn:EL.
  - (* the list was empty *)
    cbn in Cg. rewrite Cg.
    destruct (set_head_ok m g (Some s) Hg) as (m1 & E1 & U1). rewrite E1. cbn [obind].
    destruct (set_tail_ok m1 g (Some s)) as (m2 & E2 & U2); [rewrite (us_live _ _ _ _ _ U1); auto|].
    rewrite E2. exists m2. split; [reflexivity|].
    assert (heap m2 = heap m) as Eh by (rewrite (us_heap _ _ _ _ _ U2); apply (us_heap _ _ _ _ _ U1)).
    assert ((if at_front then [s] else [] ++ [s]) = [s]) as El by (destruct at_front; auto).
    rewrite El in *. split.
    + constructor.
      * eapply heap_wf; eauto.
      * intros k. unfold refs. rewrite (heap_view _ _ _ _ k Eh). apply R'.
      * intros k. unfold blk. rewrite (heap_view _ _ _ _ k Eh). apply K.
      * apply in_fupd_list; auto. intros k. rewrite EL. apply Hil.
      * intros k. unfold fupd. destruct (Nat.eqb k g); auto.
      * intros k. rewrite (us_head _ _ _ _ _ U2). unfold fupd at 1. rewrite !(us_head _ _ _ _ _ U1).
        unfold fupd. destruct (Nat.eqb_spec k g) as [-> | n].
        -- rewrite Nat.eqb_refl. cbn. split; auto. unfold nxt. now rewrite (heap_view _ _ _ _ s Eh).
        -- eapply chain_ext; [|apply C]. intros j _. unfold nxt. apply heap_view; auto.
      * intros k. rewrite (us_tail _ _ _ _ _ U2). unfold fupd at 1. rewrite !(us_tail _ _ _ _ _ U1).
        unfold fupd. destruct (Nat.eqb_spec k g) as [-> | n]; auto.
      * intros k. rewrite (us_act _ _ _ _ _ U2), (us_act _ _ _ _ _ U1). auto.
    + constructor.
      * intros k. unfold conn. apply heap_view; auto.
      * intros k. rewrite (us_dfr _ _ _ _ _ U2). apply (us_dfr _ _ _ _ _ U1).
      * intros k. rewrite (us_live _ _ _ _ _ U2). apply (us_live _ _ _ _ _ U1).
      * now rewrite Eh.
      * rewrite (us_len _ _ _ _ _ U2). apply (us_len _ _ _ _ _ U1).
  - pose proof (chain_hd _ _ _ Cg) as Ehd. rewrite Ehd. cbn [hd_opt].
    destruct at_front.
    + destruct (set_next_ok m s (Some a) W Hp) as (m1 & E1 & U1). rewrite E1. cbn [obind].
      assert (glive m1 g = true) as Hg1 by (unfold glive; rewrite (sigs_view _ _ _ _ g (un_sigs _ _ _ _ U1)); auto).
      destruct (set_head_ok m1 g (Some s) Hg1) as (m2 & E2 & U2). rewrite E2. exists m2. split; [reflexivity|].
      pose proof (us_heap _ _ _ _ _ U2) as Eh.
      split.
      * constructor.
        -- eapply heap_wf; eauto. apply (un_wf _ _ _ _ U1).
        -- intros k. unfold refs. rewrite (heap_view _ _ _ _ k Eh). fold refs. rewrite (un_refs _ _ _ _ U1). apply R'.
        -- intros k. unfold blk. rewrite (heap_view _ _ _ _ k Eh). fold blk. rewrite (un_blk _ _ _ _ U1). apply K.
        -- apply in_fupd_list; auto. intros k. rewrite EL. apply Hil.
        -- intros k. unfold fupd. destruct (Nat.eqb k g); auto.
        -- intros k. rewrite (us_head _ _ _ _ _ U2). unfold fupd.
           destruct (Nat.eqb_spec k g) as [-> | n].
           ++ split; auto. unfold nxt. rewrite (heap_view _ _ _ _ s Eh). fold nxt.
              rewrite (un_nxt _ _ _ _ U1), fupd_same. apply (chain_ext m); [|rewrite Ehd in Cg; exact Cg].
              intros j Hj. unfold nxt. rewrite (heap_view _ _ _ _ j Eh). fold nxt.
              rewrite (un_nxt _ _ _ _ U1), fupd_other; auto. intros ->. auto.
           ++ unfold ghead. rewrite (sigs_view _ _ _ _ k (un_sigs _ _ _ _ U1)). fold ghead.
              eapply chain_ext; [|apply C].
              intros j Hj. unfold nxt. rewrite (heap_view _ _ _ _ j Eh). fold nxt.
              rewrite (un_nxt _ _ _ _ U1), fupd_other; auto. intros ->. apply Hin in Hj. congruence.
        -- intros k. rewrite (us_tail _ _ _ _ _ U2). unfold fupd.
           unfold gtail. rewrite !(sigs_view _ _ _ _ _ (un_sigs _ _ _ _ U1)). fold gtail.
           destruct (Nat.eqb_spec k g) as [-> | n]; auto.
        -- intros k. rewrite (us_act _ _ _ _ _ U2). unfold gact. rewrite (sigs_view _ _ _ _ _ (un_sigs _ _ _ _ U1)). apply V.
      * constructor.
        -- intros k. unfold conn. rewrite (heap_view _ _ _ _ k Eh). apply (un_conn _ _ _ _ U1).
        -- intros k. rewrite (us_dfr _ _ _ _ _ U2). unfold gdfr. apply sigs_view. apply (un_sigs _ _ _ _ U1).
        -- intros k. rewrite (us_live _ _ _ _ _ U2). unfold glive. apply sigs_view. apply (un_sigs _ _ _ _ U1).
        -- rewrite Eh. apply (un_hlen _ _ _ _ U1).
        -- rewrite (us_len _ _ _ _ _ U2). now rewrite (un_sigs _ _ _ _ U1).
    + destruct (gtail m g) as [t|] eqn:Et; [|symmetry in Tg; apply last_opt_none in Tg; discriminate].
      symmetry in Tg. destruct (last_opt_some _ _ Tg) as [p Ep].
      assert (In t (L g)) as Hit by (rewrite EL, Ep; apply in_or_app; right; left; auto).
      assert (0 < refs m t) as Hpt by (eapply minv_in_refs; eauto).
      assert (t <> s) as Hts by (intros ->; rewrite EL in Hit; auto).
      destruct (set_next_ok m t (Some s) W Hpt) as (m1 & E1 & U1). rewrite E1. cbn [obind].
      assert (glive m1 g = true) as Hg1 by (unfold glive; rewrite (sigs_view _ _ _ _ g (un_sigs _ _ _ _ U1)); auto).
      destruct (set_tail_ok m1 g (Some s) Hg1) as (m2 & E2 & U2). rewrite E2. exists m2. split; [reflexivity|].
      pose proof (us_heap _ _ _ _ _ U2) as Eh.
      assert (forall j, nxt m2 j = fupd (nxt m) t (Some s) j) as Hnx.
      { intros j. unfold nxt. rewrite (heap_view _ _ _ _ j Eh). apply (un_nxt _ _ _ _ U1). }
      split.
      * constructor.
        -- eapply heap_wf; eauto. apply (un_wf _ _ _ _ U1).
        -- intros k. unfold refs. rewrite (heap_view _ _ _ _ k Eh). fold refs. rewrite (un_refs _ _ _ _ U1). apply R'.
        -- intros k. unfold blk. rewrite (heap_view _ _ _ _ k Eh). fold blk. rewrite (un_blk _ _ _ _ U1). apply K.
        -- apply in_fupd_list; auto. intros k. rewrite EL. apply Hil.
        -- intros k. unfold fupd. destruct (Nat.eqb k g); auto.
        -- intros k. rewrite (us_head _ _ _ _ _ U2). unfold fupd.
           unfold ghead. rewrite !(sigs_view _ _ _ _ _ (un_sigs _ _ _ _ U1)). fold ghead.
           destruct (Nat.eqb_spec k g) as [-> | n].
           ++ rewrite Ep, <- app_assoc. cbn [app]. rewrite Ep in Cg.
              apply chain_app in Cg. destruct Cg as [Cg1 Cg2]. cbn in Cg2. destruct Cg2 as [_ Cg2].
              apply chain_app. cbn [hd_opt]. split.
              ** eapply lseg_ext; [|exact Cg1]. intros j Hj. rewrite Hnx, fupd_other; auto.
                 intros ->. specialize (N g). rewrite EL, Ep in N. apply NoDup_remove_2 in N. apply N.
                 rewrite app_nil_r. auto.
              ** cbn. split; auto. rewrite Hnx, fupd_same. split; auto. rewrite Hnx, fupd_other; auto.
           ++ eapply chain_ext; [|apply C]. intros j Hj. rewrite Hnx, fupd_other; auto.
              intros ->. apply Hin in Hj. apply Hin in Hit. congruence.
        -- intros k. rewrite (us_tail _ _ _ _ _ U2). unfold fupd.
           unfold gtail. rewrite !(sigs_view _ _ _ _ _ (un_sigs _ _ _ _ U1)). fold gtail.
           destruct (Nat.eqb_spec k g) as [-> | n]; auto. symmetry. apply (last_opt_app (a :: l)).
        -- intros k. rewrite (us_act _ _ _ _ _ U2). unfold gact. rewrite (sigs_view _ _ _ _ _ (un_sigs _ _ _ _ U1)). apply V.
      * constructor.
        -- intros k. unfold conn. rewrite (heap_view _ _ _ _ k Eh). apply (un_conn _ _ _ _ U1).
        -- intros k. rewrite (us_dfr _ _ _ _ _ U2). unfold gdfr. apply sigs_view. apply (un_sigs _ _ _ _ U1).
        -- intros k. rewrite (us_live _ _ _ _ _ U2). unfold glive. apply sigs_view. apply (un_sigs _ _ _ _ U1).
        -- rewrite Eh. apply (un_hlen _ _ _ _ U1).
        -- rewrite (us_len _ _ _ _ _ U2). now rewrite (un_sigs _ _ _ _ U1).
Qed.

Lemma minv_fresh m L H X B A s :
  minv m L H X B A -> length (heap m) <= s -> H s = None /\ X s = 0 /\ B s = 0.
Proof.
  intros [W R K Hin N C T V] Hs.
  assert (nth_error (heap m) s = None) as E by (apply nth_error_None; auto).
  assert (refs m s = 0) as Er by (unfold refs, slot_view; now rewrite E).
  rewrite R in Er. unfold held in Er.
  assert (blk m s = 0) as Eb by (unfold blk, slot_view; now rewrite E).
  rewrite K in Eb. destruct (H s); [lia|]. repeat split; auto; lia.
Qed.

Record grows (m m' : mem) (g : nat) : Prop := {
  gr_conn : forall s, conn m' s = fupd (conn m) (length (heap m)) (Some g) s;
  gr_dfr : forall g, gdfr m' g = gdfr m g;
  gr_glive : forall g, glive m' g = glive m g;
  gr_hlen : length (heap m') = S (length (heap m));
  gr_slen : length (sigs m') = length (sigs m)
}.

Lemma slot_view_snoc {A} (f : slot -> A) d m x g s :
  slot_view f d (mkmem (heap m ++ [x]) g) s = fupd (slot_view f d m) (length (heap m)) (f x) s.
Proof.
  unfold slot_view, fupd. cbn. destruct (Nat.eqb_spec s (length (heap m))) as [-> | n].
  - rewrite nth_error_app2 by lia. rewrite Nat.sub_diag. reflexivity.
  - destruct (le_lt_dec (length (heap m)) s) as [l|l].
    + rewrite nth_error_app2 by lia. destruct (s - length (heap m)) as [|k] eqn:E; [lia|]. cbn.
      replace (nth_error (heap m) s) with (@None slot) by (symmetry; apply nth_error_None; lia).
      destruct k; auto.
    + rewrite nth_error_app1 by lia. auto.
Qed.

Lemma connect_ok m L H X B A g (at_front : bool) :
  minv m L H X B A -> glive m g = true ->
  let s := length (heap m) in
  exists m', connect m g at_front = Ok (m', s) /\
    minv m' (fupd L g (if at_front then s :: L g else L g ++ [s])) (fupd H s (Some g))
         (fun k => if Nat.eqb k s then S (X k) else X k) B A /\ grows m m' g.
Proof.
  intros I Hg s. destruct (minv_fresh _ _ _ _ _ _ s I) as (Hs & Xs & Bs); [unfold s; lia|].
  pose proof I as [W R K Hin N C T V].
  unfold connect. fold s. set (m1 := mkmem _ _).
  assert (minv m1 L H (fupd X s 1) B A) as I1.
  { constructor; auto.
    - intros k x E. unfold m1 in E. cbn in E.
      destruct (le_lt_dec (length (heap m)) k) as [l|l].
      + rewrite nth_error_app2 in E by lia. destruct (k - length (heap m)) as [|j]; cbn in E.
        * injection E as <-. reflexivity.
        * destruct j; discriminate.
      + rewrite nth_error_app1 in E by lia. eapply W; eauto.
    - intros k. unfold refs, m1. rewrite slot_view_snoc. unfold fupd, held. fold s.
      destruct (Nat.eqb_spec k s) as [-> | n].
      + rewrite Hs. reflexivity.
      + apply R.
    - intros k. unfold blk, m1. rewrite slot_view_snoc. unfold fupd. fold s.
      destruct (Nat.eqb_spec k s) as [-> | n]; auto; apply K.
    - intros k. eapply chain_ext; [|apply C]. intros j Hj. unfold nxt, m1. rewrite slot_view_snoc.
      unfold fupd. fold s. destruct (Nat.eqb_spec j s) as [-> | n]; auto.
      apply Hin in Hj. congruence. }
  destruct (insert_ok m1 L H _ B A g s at_front I1) as (m2 & E2 & I2 & S2); auto.
  { rewrite fupd_same. lia. }
  { unfold nxt, m1. rewrite slot_view_snoc. apply fupd_same. }
  rewrite E2. cbn [obind].
  destruct (add_ref_ok m2 _ _ _ _ _ s I2) as (m3 & E3 & I3 & S3).
  { rewrite (mi_refs _ _ _ _ _ _ I2). unfold held. rewrite fupd_same. lia. }
  rewrite E3. cbn [obind]. exists m3. split; [reflexivity|]. split.
  - eapply minv_ext; eauto. intros k. cbn. unfold fupd.
    destruct (Nat.eqb_spec k s) as [-> | n]; auto; lia.
  - pose proof (same_trans _ _ _ S2 S3) as [Sc Sd Sg Sh Ss]. constructor; auto.
    + intros k. rewrite Sc. unfold conn, m1. rewrite slot_view_snoc. reflexivity.
    + rewrite Sh. unfold m1. cbn. rewrite app_length. cbn. lia.
Qed.

Lemma chain_next m o pre s post : chain m o (pre ++ s :: post) -> nxt m s = hd_opt post /\ chain m (hd_opt post) post.
Proof.
  intros C. apply chain_app in C. destruct C as [_ C]. cbn in C. destruct C as [_ C].
  pose proof (chain_hd _ _ _ C) as E. rewrite E in C. auto.
Qed.

Lemma in_remove (L : nat -> list nat) (H : nat -> option nat) g s pre post :
  (forall k j, In k (L j) <-> H k = Some j) -> NoDup (L g) -> L g = pre ++ s :: post ->
  forall k j, In k (fupd L g (pre ++ post) j) <-> fupd H s None k = Some j.
Proof.
  intros I N E k j. unfold fupd. rewrite E in N. pose proof (NoDup_remove_2 _ _ _ N) as N2.
  assert (H s = Some g) as Hs by (apply I; rewrite E; apply in_or_app; right; left; auto).
  destruct (Nat.eqb_spec j g) as [-> | n], (Nat.eqb_spec k s) as [-> | n'].
  - split; [contradiction|discriminate].
  - rewrite <- I, E, !in_app_iff. cbn. intuition congruence.
  - rewrite I, Hs. split; congruence.
  - apply I.
Qed.

(** The list part of [remove_slot]: afterwards the list's reference belongs to nobody. *)
Lemma unlink_minv m L H X B A g s pre post m2 :
  minv m L H X B A -> L g = pre ++ s :: post ->
  wf m2 -> (forall k, refs m2 k = refs m k) -> (forall k, blk m2 k = blk m k) ->
  (forall k, nxt m2 k = match last_opt pre with Some p => fupd (nxt m) p (hd_opt post) k | None => nxt m k end) ->
  (forall k, ghead m2 k = match last_opt pre with Some p => ghead m k | None => fupd (ghead m) g (hd_opt post) k end) ->
  (forall k, gtail m2 k = fupd (gtail m) g (last_opt (pre ++ post)) k) ->
  (forall k, gact m2 k = gact m k) ->
  minv m2 (fupd L g (pre ++ post)) (fupd H s None) (fun k => if Nat.eqb k s then S (X k) else X k) B A.
Proof.
  intros [W R K Hin N C T V] E W2 R2 K2 Nx Hd Tl Ac.
  assert (In s (L g)) as Hs by (rewrite E; apply in_or_app; right; left; auto).
  pose proof (N g) as Ng. rewrite E in Ng. pose proof (NoDup_remove_2 _ _ _ Ng) as N2.
  pose proof (NoDup_remove_1 _ _ _ Ng) as N1.
  constructor; auto.
  - intros k. rewrite R2, R. unfold held, fupd. destruct (Nat.eqb_spec k s) as [-> | n]; auto.
    apply Hin in Hs. rewrite Hs. lia.
  - intros k. rewrite K2. auto.
  - eapply in_remove; eauto.
  - intros k. unfold fupd. destruct (Nat.eqb k g); auto.
  - intros k. rewrite Hd. pose proof (C g) as Cg. rewrite E in Cg.
    destruct (chain_next _ _ _ _ _ Cg) as [En Cp].
    unfold fupd at 2. destruct (Nat.eqb_spec k g) as [-> | n].
    + destruct (last_opt pre) as [p|] eqn:Ep.
      * destruct (last_opt_some _ _ Ep) as [q ->]. rewrite <- app_assoc in *. cbn [app] in *.
        apply chain_app in Cg. destruct Cg as [Cg1 Cg2]. apply chain_app. cbn [hd_opt] in *. split.
        -- eapply lseg_ext; [|exact Cg1]. intros j Hj. rewrite Nx, fupd_other; auto.
           intros ->. clear - Ng Hj. apply NoDup_remove_2 in Ng. apply Ng. apply in_or_app; auto.
        -- cbn. split; auto. rewrite Nx, fupd_same. eapply chain_ext; [|exact Cp].
           intros j Hj. rewrite Nx, fupd_other; auto. intros ->. clear - Ng Hj.
           apply NoDup_remove_2 in Ng. apply Ng. apply in_or_app; right; right; auto.
      * apply last_opt_none in Ep. subst pre. cbn [app] in *. rewrite fupd_same.
        eapply chain_ext; [|exact Cp]. intros j _. apply Nx.
    + assert (forall j, In j (L k) -> nxt m2 j = nxt m j) as Hj.
      { intros j Hj. rewrite Nx. destruct (last_opt pre) as [p|] eqn:Ep; auto.
        rewrite fupd_other; auto. intros ->. destruct (last_opt_some _ _ Ep) as [q ->].
        apply Hin in Hj. assert (In p (L g)) as Hp by (rewrite E; rewrite !in_app_iff; cbn; auto).
        apply Hin in Hp. congruence. }
      eapply chain_ext; [exact Hj|]. destruct (last_opt pre); [apply C|].
      rewrite fupd_other by auto. apply C.
  - intros k. rewrite Tl. unfold fupd. destruct (Nat.eqb_spec k g); auto.
  - intros k. rewrite Ac. auto.
Qed.

Lemma is_slot_spec o s : is_slot o s = true <-> o = Some s.
Proof.
  destruct o as [k|]; cbn; [|split; discriminate].
  rewrite Nat.eqb_eq. split; congruence.
Qed.

Lemma remove_ok m L H X B A g s pre post :
  minv m L H X B A -> glive m g = true -> gact m g = 0 -> L g = pre ++ s :: post ->
  exists m', remove_slot m g s (last_opt pre) = Ok (m', hd_opt post) /\
    minv m' (fupd L g (pre ++ post)) (fupd H s None) X B A /\ same m m'.
Proof.
  intros I Hg Ha E. pose proof I as [W R K Hin N C T V].
  assert (In s (L g)) as Hs by (rewrite E; apply in_or_app; right; left; auto).
  assert (0 < refs m s) as Hp by (eapply minv_in_refs; eauto).
  pose proof (C g) as Cg. rewrite E in Cg. destruct (chain_next _ _ _ _ _ Cg) as [En Cp].
  pose proof (N g) as Ng. rewrite E in Ng. pose proof (NoDup_remove_2 _ _ _ Ng) as N2.
  unfold remove_slot. rewrite (get_sig_ok _ _ Hg). cbn [obind g_head g_tail g_active g_deferred].
  rewrite Ha. cbn [Nat.eqb negb]. rewrite (get_slot_ok _ _ W Hp). cbn [obind s_next]. rewrite En.
  assert (forall m2, minv m2 (fupd L g (pre ++ post)) (fupd H s None)
            (fun k => if Nat.eqb k s then S (X k) else X k) B A -> same m m2 ->
          exists m', (m0 <- release m2 s ;; Ok (m0, hd_opt post)) = Ok (m', hd_opt post) /\
            minv m' (fupd L g (pre ++ post)) (fupd H s None) X B A /\ same m m') as Fin.
  { intros m2 I2 S2. destruct (release_ok _ _ _ _ _ _ s I2) as (m3 & E3 & I3 & S3).
    { cbn. rewrite Nat.eqb_refl. lia. }
    rewrite E3. cbn [obind]. exists m3. split; auto. split; [|eapply same_trans; eauto].
    eapply minv_ext; eauto. intros k. cbn. destruct (Nat.eqb k s); lia. }
  assert (is_slot (gtail m g) s = true <-> post = []) as Htl.
  { rewrite T, E. rewrite is_slot_spec. split.
    - intros El. destruct post as [|b post]; auto. exfalso.
      change (s :: b :: post) with ([s] ++ (b :: post)) in El. rewrite app_assoc in El.
      rewrite last_opt_app_ne in El by discriminate.
      destruct (last_opt_some _ _ El) as [q Eq]. apply N2. apply in_or_app; right. rewrite Eq.
      apply in_or_app; right; left; auto.
    - intros ->. apply last_opt_app. }
  destruct (last_opt pre) as [p|] eqn:Ep.
  - destruct (last_opt_some _ _ Ep) as [q Eq].
    assert (In p (L g)) as Hip by (rewrite E, Eq; rewrite !in_app_iff; cbn; auto).
    assert (0 < refs m p) as Hpp by (eapply minv_in_refs; eauto).
    destruct (set_next_ok m p (hd_opt post) W Hpp) as (m1 & E1 & U1). rewrite E1. cbn [obind].
    assert (forall k, glive m1 k = glive m k) as Gl1 by (intros k; unfold glive; apply sigs_view; apply (un_sigs _ _ _ _ U1)).
    assert (glive m1 g = true) as Hg1 by (rewrite Gl1; auto).
    rewrite (get_sig_ok _ _ Hg1). cbn [obind g_head g_tail].
    assert (gtail m1 g = gtail m g) as Et1 by (unfold gtail; apply sigs_view; apply (un_sigs _ _ _ _ U1)).
    rewrite Et1. destruct (is_slot (gtail m g) s) eqn:Eis.
    + assert (post = []) as Epo by (apply Htl; auto).
      destruct (set_tail_ok m1 g (Some p) Hg1) as (m2 & E2 & U2). rewrite E2. cbn [obind].
      pose proof (us_heap _ _ _ _ _ U2) as Eh. apply Fin.
      * eapply unlink_minv; eauto.
        -- eapply heap_wf; eauto. apply (un_wf _ _ _ _ U1).
        -- intros k. unfold refs. rewrite (heap_view _ _ _ _ k Eh). apply (un_refs _ _ _ _ U1).
        -- intros k. unfold blk. rewrite (heap_view _ _ _ _ k Eh). apply (un_blk _ _ _ _ U1).
        -- intros k. rewrite Ep. unfold nxt. rewrite (heap_view _ _ _ _ k Eh). apply (un_nxt _ _ _ _ U1).
        -- intros k. rewrite Ep, (us_head _ _ _ _ _ U2). unfold fupd. unfold ghead.
           rewrite !(sigs_view _ _ _ _ _ (un_sigs _ _ _ _ U1)).
           destruct (Nat.eqb_spec k g) as [-> | n]; auto.
        -- intros k. rewrite (us_tail _ _ _ _ _ U2). unfold fupd. unfold gtail.
           rewrite !(sigs_view _ _ _ _ _ (un_sigs _ _ _ _ U1)).
           destruct (Nat.eqb_spec k g) as [-> | n]; auto. rewrite Epo, app_nil_r. auto.
        -- intros k. rewrite (us_act _ _ _ _ _ U2). unfold gact. apply sigs_view, (un_sigs _ _ _ _ U1).
      * constructor.
        -- intros k. unfold conn. rewrite (heap_view _ _ _ _ k Eh). apply (un_conn _ _ _ _ U1).
        -- intros k. rewrite (us_dfr _ _ _ _ _ U2). unfold gdfr. apply sigs_view, (un_sigs _ _ _ _ U1).
        -- intros k. rewrite (us_live _ _ _ _ _ U2). auto.
        -- rewrite Eh. apply (un_hlen _ _ _ _ U1).
        -- rewrite (us_len _ _ _ _ _ U2). now rewrite (un_sigs _ _ _ _ U1).
    + assert (post <> []) as Epo by (intros X0; apply Htl in X0; congruence).
      cbn [obind]. apply Fin.
      * eapply unlink_minv; eauto.
        -- apply (un_wf _ _ _ _ U1).
        -- apply (un_refs _ _ _ _ U1).
        -- apply (un_blk _ _ _ _ U1).
        -- intros k. rewrite Ep. apply (un_nxt _ _ _ _ U1).
        -- intros k. rewrite Ep. unfold ghead. apply sigs_view, (un_sigs _ _ _ _ U1).
        -- intros k. unfold gtail. rewrite (sigs_view _ _ _ _ _ (un_sigs _ _ _ _ U1)). unfold fupd.
           destruct (Nat.eqb_spec k g) as [-> | n]; auto. fold gtail. rewrite T, E.
           change (s :: post) with ([s] ++ post). rewrite app_assoc, !last_opt_app_ne by auto. auto.
        -- intros k. unfold gact. apply sigs_view, (un_sigs _ _ _ _ U1).
      * constructor.
        -- apply (un_conn _ _ _ _ U1).
        -- intros k. unfold gdfr. apply sigs_view, (un_sigs _ _ _ _ U1).
        -- auto.
        -- apply (un_hlen _ _ _ _ U1).
        -- now rewrite (un_sigs _ _ _ _ U1).
  - apply last_opt_none in Ep. subst pre. cbn [app] in *.
    assert (ghead m g = Some s) as Eh0 by (apply chain_hd in Cg; exact Cg).
    rewrite Eh0. cbn [is_slot]. rewrite Nat.eqb_refl.
    destruct (set_head_ok m g (hd_opt post) Hg) as (m1 & E1 & U1). rewrite E1. cbn [obind].
    assert (glive m1 g = true) as Hg1 by (rewrite (us_live _ _ _ _ _ U1); auto).
    rewrite (get_sig_ok _ _ Hg1). cbn [obind g_head g_tail].
    rewrite (us_tail _ _ _ _ _ U1), fupd_same, (us_head _ _ _ _ _ U1), fupd_same.
    pose proof (us_heap _ _ _ _ _ U1) as Eh1.
    destruct (is_slot (gtail m g) s) eqn:Eis.
    + assert (post = []) as Epo by (apply Htl; auto).
      destruct (set_tail_ok m1 g (hd_opt post) Hg1) as (m2 & E2 & U2). rewrite E2. cbn [obind].
      assert (heap m2 = heap m) as Eh by (rewrite (us_heap _ _ _ _ _ U2); auto). apply Fin.
      * eapply (unlink_minv m L H X B A g s [] post); eauto.
        -- eapply heap_wf; eauto.
        -- intros k. unfold refs. apply heap_view; auto.
        -- intros k. unfold blk. apply heap_view; auto.
        -- intros k. cbn. unfold nxt. apply heap_view; auto.
        -- intros k. cbn. rewrite (us_head _ _ _ _ _ U2). unfold fupd. rewrite !(us_head _ _ _ _ _ U1). unfold fupd.
           rewrite Nat.eqb_refl. destruct (Nat.eqb_spec k g) as [-> | n]; auto.
        -- intros k. cbn [app]. rewrite (us_tail _ _ _ _ _ U2). unfold fupd. rewrite !(us_tail _ _ _ _ _ U1). unfold fupd.
           rewrite Epo. destruct (Nat.eqb_spec k g) as [-> | n]; auto.
        -- intros k. rewrite (us_act _ _ _ _ _ U2). apply (us_act _ _ _ _ _ U1).
      * constructor.
        -- intros k. unfold conn. apply heap_view; auto.
        -- intros k. rewrite (us_dfr _ _ _ _ _ U2). apply (us_dfr _ _ _ _ _ U1).
        -- intros k. rewrite (us_live _ _ _ _ _ U2). apply (us_live _ _ _ _ _ U1).
        -- now rewrite Eh.
        -- rewrite (us_len _ _ _ _ _ U2). apply (us_len _ _ _ _ _ U1).
    + assert (post <> []) as Epo by (intros X0; apply Htl in X0; congruence).
      cbn [obind]. apply Fin.
      * eapply (unlink_minv m L H X B A g s [] post); eauto.
        -- eapply heap_wf; eauto.
        -- intros k. unfold refs. apply heap_view; auto.
        -- intros k. unfold blk. apply heap_view; auto.
        -- intros k. cbn. unfold nxt. apply heap_view; auto.
        -- intros k. cbn. apply (us_head _ _ _ _ _ U1).
        -- intros k. cbn [app]. rewrite (us_tail _ _ _ _ _ U1). unfold fupd.
           destruct (Nat.eqb_spec k g) as [-> | n]; auto. rewrite T, E.
           change (s :: post) with ([s] ++ post). rewrite last_opt_app_ne by auto. auto.
        -- apply (us_act _ _ _ _ _ U1).
      * constructor.
        -- intros k. unfold conn. apply heap_view; auto.
        -- apply (us_dfr _ _ _ _ _ U1).
        -- apply (us_live _ _ _ _ _ U1).
        -- now rewrite Eh1.
        -- apply (us_len _ _ _ _ _ U1).
Qed.

(* --------------------------------------------------------------- the loops *)

(** Senders and deferred flags as given, everything else as before. *)
Record chg (c : nat -> option nat) (d : nat -> bool) (m m' : mem) : Prop := {
  cg_conn : forall s, conn m' s = c s;
  cg_dfr : forall g, gdfr m' g = d g;
  cg_glive : forall g, glive m' g = glive m g;
  cg_hlen : length (heap m') = length (heap m);
  cg_slen : length (sigs m') = length (sigs m)
}.

Lemma chg_refl m : chg (conn m) (gdfr m) m m.
Proof. constructor; auto. Qed.
Lemma same_chg m m' : same m m' -> chg (conn m) (gdfr m) m m'.
Proof. intros []. constructor; auto. Qed.

Definition connected (m : mem) (s : nat) : bool := match conn m s with Some _ => true | None => false end.

Definition drop_dead (m : mem) (g : nat) (H : nat -> option nat) (s : nat) : option nat :=
  match H s with
  | Some k => if Nat.eqb k g && negb (connected m s) then None else Some k
  | None => None
  end.

Lemma disconnect_loop_ok m L H X B A g id :
  minv m L H X B A -> glive m g = true ->
  forall rest pre fuel,
  L g = pre ++ rest -> ~ In id pre -> length rest < fuel ->
  exists m', disconnect_loop fuel m g id (hd_opt rest) (last_opt pre) = Ok m' /\
    (H id <> Some g -> m' = m) /\
    (H id = Some g -> gact m g = 0 ->
       exists p q, L g = p ++ id :: q /\ minv m' (fupd L g (p ++ q)) (fupd H id None) X B A /\
                   chg (fupd (conn m) id None) (gdfr m) m m') /\
    (H id = Some g -> gact m g <> 0 ->
       minv m' L H X B A /\ chg (fupd (conn m) id None) (fupd (gdfr m) g true) m m').
Proof.
  intros I Hg. induction rest as [|i rest IH]; intros pre fuel E Hni Hf.
  - destruct fuel as [|fuel]; [lia|]. cbn. exists m. split; auto.
    rewrite app_nil_r in E.
    assert (H id <> Some g) as Hn by (rewrite <- (mi_in _ _ _ _ _ _ I), E; auto).
    split; auto. split; intros; contradiction.
  - destruct fuel as [|fuel]; [cbn in Hf; lia|]. cbn [disconnect_loop hd_opt].
    assert (In i (L g)) as Hi by (rewrite E; apply in_or_app; right; left; auto).
    assert (0 < refs m i) as Hp by (eapply minv_in_refs; eauto).
    destruct (Nat.eqb_spec i id) as [-> | n].
    + assert (H id = Some g) as Hh by (apply (mi_in _ _ _ _ _ _ I); auto).
      destruct (rebind_ok _ _ _ _ _ _ id None I Hp) as (m1 & E1 & I1 & S1). rewrite E1. cbn [obind].
      assert (glive m1 g = true) as Hg1 by (rewrite (sb_glive _ _ _ S1); auto).
      rewrite (get_sig_ok _ _ Hg1). cbn [obind g_active].
      assert (gact m1 g = gact m g) as Ea.
      { rewrite (mi_act _ _ _ _ _ _ I1), (mi_act _ _ _ _ _ _ I). auto. }
      rewrite Ea. destruct (Nat.eqb_spec (gact m g) 0) as [e|e].
      * destruct (remove_ok m1 L H X B A g id pre rest I1 Hg1) as (m2 & E2 & I2 & S2); [congruence|auto|].
        rewrite E2. cbn [obind fst]. exists m2. split; auto. split; [contradiction|]. split; [|intros; contradiction].
        intros _ _. exists pre, rest. split; auto. split; auto.
        destruct S1, S2. constructor; intros; congruence.
      * destruct (set_deferred_ok m1 L H X B A g true I1 Hg1) as (m2 & E2 & I2 & S2).
        rewrite E2. exists m2. split; auto. split; [contradiction|]. split; [intros; contradiction|].
        intros _ _. split; auto. destruct S1 as [c1 d1 ? ? ?], S2 as [c2 d2 ? ? ?]. constructor; try (intros; congruence).
        intros k. rewrite d2. unfold fupd. now rewrite d1.
    + rewrite (get_slot_ok _ _ (mi_wf _ _ _ _ _ _ I) Hp). cbn [obind s_next].
      pose proof (mi_chain _ _ _ _ _ _ I g) as C. rewrite E in C.
      destruct (chain_next _ _ _ _ _ C) as [En _]. rewrite En.
      rewrite <- (last_opt_app pre i). apply IH.
      * rewrite <- app_assoc. exact E.
      * rewrite in_app_iff. cbn. intuition.
      * cbn in Hf. lia.
Qed.

Lemma disconnect_ok m L H X B A g id :
  minv m L H X B A -> glive m g = true ->
  exists m', disconnect_id m g id = Ok m' /\
    (H id <> Some g -> m' = m) /\
    (H id = Some g -> gact m g = 0 ->
       exists p q, L g = p ++ id :: q /\ minv m' (fupd L g (p ++ q)) (fupd H id None) X B A /\
                   chg (fupd (conn m) id None) (gdfr m) m m') /\
    (H id = Some g -> gact m g <> 0 ->
       minv m' L H X B A /\ chg (fupd (conn m) id None) (fupd (gdfr m) g true) m m').
Proof.
  intros I Hg. unfold disconnect_id. rewrite (get_sig_ok _ _ Hg). cbn [obind g_head].
  rewrite (chain_hd _ _ _ (mi_chain _ _ _ _ _ _ I g)).
  apply (disconnect_loop_ok m L H X B A g id I Hg (L g) []); auto.
  pose proof (list_bound _ _ _ _ _ _ g I). lia.
Qed.

Lemma num_slots_loop_ok m L H X B A g :
  minv m L H X B A -> forall rest pre fuel sum,
  L g = pre ++ rest -> length rest < fuel ->
  num_slots_loop fuel m (hd_opt rest) sum = Ok (sum + length (filter (connected m) rest)).
Proof.
  intros I. induction rest as [|i rest IH]; intros pre fuel sum E Hf.
  - destruct fuel; [lia|]. cbn. f_equal. lia.
  - destruct fuel as [|fuel]; [cbn in Hf; lia|]. cbn [num_slots_loop hd_opt].
    assert (In i (L g)) as Hi by (rewrite E; apply in_or_app; right; left; auto).
    assert (0 < refs m i) as Hp by (eapply minv_in_refs; eauto).
    rewrite (get_slot_ok _ _ (mi_wf _ _ _ _ _ _ I) Hp). cbn [obind s_next]. unfold valid; cbn [s_sender].
    pose proof (mi_chain _ _ _ _ _ _ I g) as C. rewrite E in C.
    destruct (chain_next _ _ _ _ _ C) as [En _]. rewrite En.
    rewrite (IH (pre ++ [i])); [|rewrite <- app_assoc; exact E|cbn in Hf; lia].
    cbn [filter]. unfold connected at 2. destruct (conn m i); cbn [length]; f_equal; lia.
Qed.

Lemma num_slots_ok m L H X B A g :
  minv m L H X B A -> glive m g = true -> num_slots m g = Ok (length (filter (connected m) (L g))).
Proof.
  intros I Hg. unfold num_slots. rewrite (get_sig_ok _ _ Hg). cbn [obind g_head].
  rewrite (chain_hd _ _ _ (mi_chain _ _ _ _ _ _ I g)).
  rewrite (num_slots_loop_ok _ _ _ _ _ _ g I (L g) []); auto.
  pose proof (list_bound _ _ _ _ _ _ g I). lia.
Qed.

Lemma fupd_eq {A} (f : nat -> A) g k : fupd f g (f g) k = f k.
Proof. unfold fupd. destruct (Nat.eqb_spec k g) as [-> | n]; auto. Qed.

Lemma cleanup_loop_ok g : forall rest pre fuel m L H X B A,
  minv m L H X B A -> glive m g = true -> gact m g = 0 ->
  L g = pre ++ rest -> length rest < fuel -> (forall s, In s pre -> connected m s = true) ->
  exists m', cleanup_loop fuel m g (hd_opt rest) (last_opt pre) = Ok m' /\
    minv m' (fupd L g (pre ++ filter (connected m) rest)) (drop_dead m g H) X B A /\ same m m'.
Proof.
  induction rest as [|i rest IH]; intros pre fuel m L H X B A I Hg Ha E Hf Hc.
  - destruct fuel; [lia|]. cbn. exists m. split; auto. split; [|apply same_refl].
    eapply minv_ext; eauto.
    + intros k. rewrite app_nil_r in *. rewrite <- E. apply fupd_eq.
    + intros s. unfold drop_dead. destruct (H s) as [k|] eqn:Eh; auto.
      destruct (Nat.eqb_spec k g) as [-> | n]; auto. apply (mi_in _ _ _ _ _ _ I) in Eh.
      rewrite E, app_nil_r in Eh. rewrite (Hc s Eh). auto.
  - destruct fuel as [|fuel]; [cbn in Hf; lia|]. cbn [cleanup_loop hd_opt].
    assert (In i (L g)) as Hi by (rewrite E; apply in_or_app; right; left; auto).
    assert (0 < refs m i) as Hp by (eapply minv_in_refs; eauto).
    rewrite (get_slot_ok _ _ (mi_wf _ _ _ _ _ _ I) Hp). cbn [obind s_next]. unfold valid; cbn [s_sender].
    pose proof (mi_chain _ _ _ _ _ _ I g) as C. rewrite E in C.
    destruct (chain_next _ _ _ _ _ C) as [En _]. rewrite En. cbn [filter]. cbn in Hf.
    assert (connected m i = match conn m i with Some _ => true | None => false end) as Ec by reflexivity.
    destruct (conn m i) as [c|] eqn:Eci; rewrite Ec.
    + rewrite <- (last_opt_app pre i).
      destruct (IH (pre ++ [i]) fuel m L H X B A I Hg Ha) as (m' & E' & I' & S').
      { rewrite <- app_assoc. exact E. }
      { lia. }
      { intros s. rewrite in_app_iff. intros [Hs|[<- |[]]]; auto. }
      exists m'. split; auto. split; auto. rewrite <- app_assoc in I'. exact I'.
    + destruct (remove_ok m L H X B A g i pre rest I Hg Ha E) as (m1 & E1 & I1 & S1).
      rewrite E1. cbn [obind fst snd].
      assert (glive m1 g = true) as Hg1 by (rewrite (sm_glive _ _ S1); auto).
      assert (gact m1 g = 0) as Ha1 by (rewrite (mi_act _ _ _ _ _ _ I1), <- (mi_act _ _ _ _ _ _ I); auto).
      assert (forall s, connected m1 s = connected m s) as Ecs by (intros s; unfold connected; now rewrite (sm_conn _ _ S1)).
      destruct (IH pre fuel m1 _ _ X B A I1 Hg1 Ha1) as (m' & E' & I' & S').
      { apply fupd_same. }
      { lia. }
      { intros s Hs. rewrite Ecs. auto. }
      exists m'. split; auto. split; [|eapply same_trans; eauto].
      eapply minv_ext; eauto.
      * intros k. unfold fupd. destruct (Nat.eqb k g); auto. f_equal. apply filter_ext. auto.
      * intros s. unfold drop_dead, fupd. rewrite Ecs. destruct (Nat.eqb_spec s i) as [-> | n]; auto.
        apply (mi_in _ _ _ _ _ _ I) in Hi. now rewrite Hi, Nat.eqb_refl, Ec.
Qed.

Lemma cleanup_ok m L H X B A g :
  minv m L H X B A -> glive m g = true -> gact m g = 0 -> gdfr m g = true ->
  exists m', cleanup m g = Ok m' /\
    minv m' (fupd L g (filter (connected m) (L g))) (drop_dead m g H) X B A /\
    chg (conn m) (fupd (gdfr m) g false) m m'.
Proof.
  intros I Hg Ha Hd. unfold cleanup. rewrite (get_sig_ok _ _ Hg). cbn [obind g_head g_deferred g_active].
  rewrite Hd, Ha. cbn [negb Nat.eqb].
  rewrite (chain_hd _ _ _ (mi_chain _ _ _ _ _ _ I g)).
  destruct (cleanup_loop_ok g (L g) [] (S (length (heap m))) m L H X B A I Hg Ha) as (m1 & E1 & I1 & S1); auto.
  { pose proof (list_bound _ _ _ _ _ _ g I). lia. }
  change (last_opt []) with (@None nat) in E1. rewrite E1. cbn [obind app] in *.
  destruct (set_deferred_ok m1 _ _ X B A g false I1) as (m2 & E2 & I2 & S2).
  { rewrite (sm_glive _ _ S1); auto. }
  rewrite E2. exists m2. split; auto. split; auto.
  destruct S1 as [? d1 ? ? ?], S2 as [? d2 ? ? ?]. constructor; try (intros; congruence).
  intros k. rewrite d2. unfold fupd. now rewrite d1.
Qed.

Lemma cleanup_nop m g : glive m g = true -> gdfr m g = false -> cleanup m g = Ok m.
Proof.
  intros Hg Hd. unfold cleanup. rewrite (get_sig_ok _ _ Hg). cbn [obind g_deferred]. now rewrite Hd.
Qed.

(** Slots of [g] get sender [o]. *)
Definition resend (L : nat -> list nat) (g : nat) (o : option nat) (c : nat -> option nat) (s : nat) : option nat :=
  if in_dec Nat.eq_dec s (L g) then o else c s.

Lemma rebind_loop_ok g : forall rest pre fuel m L H X B A,
  minv m L H X B A ->
  L g = pre ++ rest -> length rest < fuel ->
  exists m', rebind_loop fuel m g (hd_opt rest) = Ok m' /\
    minv m' L H X B A /\
    same_but (fun s => if in_dec Nat.eq_dec s rest then Some g else conn m s) m m'.
Proof.
  induction rest as [|i rest IH]; intros pre fuel m L H X B A I E Hf.
  - destruct fuel; [lia|]. cbn. exists m. split; auto. split; auto. constructor; auto.
  - destruct fuel as [|fuel]; [cbn in Hf; lia|]. cbn [rebind_loop hd_opt]. cbn in Hf.
    assert (In i (L g)) as Hi by (rewrite E; apply in_or_app; right; left; auto).
    assert (0 < refs m i) as Hp by (eapply minv_in_refs; eauto).
    destruct (rebind_ok _ _ _ _ _ _ i (Some g) I Hp) as (m1 & E1 & I1 & S1). rewrite E1. cbn [obind].
    assert (0 < refs m1 i) as Hp1 by (eapply minv_in_refs; eauto).
    rewrite (get_slot_ok _ _ (mi_wf _ _ _ _ _ _ I1) Hp1). cbn [obind s_next].
    pose proof (mi_chain _ _ _ _ _ _ I1 g) as C. rewrite E in C.
    destruct (chain_next _ _ _ _ _ C) as [En _]. rewrite En.
    destruct (IH (pre ++ [i]) fuel m1 L H X B A I1) as (m2 & E2 & I2 & S2).
    { rewrite <- app_assoc. exact E. }
    { lia. }
    exists m2. split; auto. split; auto.
    destruct S1 as [c1 ? ? ? ?], S2 as [c2 ? ? ? ?]. constructor; try (intros; congruence).
    intros k. rewrite c2. destruct (in_dec Nat.eq_dec k rest) as [Hk|Hk].
    + destruct (in_dec Nat.eq_dec k (i :: rest)) as [|Hn]; auto. exfalso; apply Hn; right; auto.
    + rewrite c1. unfold fupd. destruct (Nat.eqb_spec k i) as [-> | n].
      * destruct (in_dec Nat.eq_dec i (i :: rest)) as [|Hn]; auto. exfalso; apply Hn; left; auto.
      * destruct (in_dec Nat.eq_dec k (i :: rest)) as [[Hn|Hn]|]; auto; congruence.
Qed.

Lemma rebind_all_ok m L H X B A g :
  minv m L H X B A -> glive m g = true -> gdfr m g = false ->
  exists m', rebind_all m g = Ok m' /\ minv m' L H X B A /\ same_but (resend L g (Some g) (conn m)) m m'.
Proof.
  intros I Hg Hd. unfold rebind_all. rewrite (cleanup_nop _ _ Hg Hd). cbn [obind].
  rewrite (get_sig_ok _ _ Hg). cbn [obind g_head].
  rewrite (chain_hd _ _ _ (mi_chain _ _ _ _ _ _ I g)).
  destruct (rebind_loop_ok g (L g) [] (S (length (heap m))) m L H X B A I) as (m' & E & I' & S'); auto.
  { pose proof (list_bound _ _ _ _ _ _ g I). lia. }
  exists m'. split; auto.
Qed.

(** Slots of [g] leave every list. *)
Definition drop_all (L : nat -> list nat) (g : nat) (H : nat -> option nat) (s : nat) : option nat :=
  if in_dec Nat.eq_dec s (L g) then None else H s.

Lemma disconnect_all_remove_ok g : forall rest fuel m L H X B A,
  minv m L H X B A -> glive m g = true -> gact m g = 0 ->
  L g = rest -> length rest < fuel ->
  exists m', disconnect_all_loop fuel m g true (hd_opt rest) None = Ok m' /\
    minv m' (fupd L g []) (drop_all L g H) X B A /\ same_but (resend L g None (conn m)) m m'.
Proof.
  induction rest as [|i rest IH]; intros fuel m L H X B A I Hg Ha E Hf.
  - destruct fuel; [lia|]. cbn. exists m. split; auto. split.
    + eapply minv_ext; eauto; intros k.
      * rewrite <- E. apply fupd_eq.
      * unfold drop_all. rewrite E. destruct (in_dec Nat.eq_dec k []) as [[]|]; auto.
    + constructor; auto. intros k. unfold resend. rewrite E. destruct (in_dec Nat.eq_dec k []) as [[]|]; auto.
  - destruct fuel as [|fuel]; [cbn in Hf; lia|]. cbn [disconnect_all_loop hd_opt]. cbn in Hf.
    assert (In i (L g)) as Hi by (rewrite E; left; auto).
    assert (0 < refs m i) as Hp by (eapply minv_in_refs; eauto).
    destruct (rebind_ok _ _ _ _ _ _ i None I Hp) as (m1 & E1 & I1 & S1). rewrite E1. cbn [obind].
    assert (glive m1 g = true) as Hg1 by (rewrite (sb_glive _ _ _ S1); auto).
    assert (gact m1 g = 0) as Ha1 by (rewrite (mi_act _ _ _ _ _ _ I1), <- (mi_act _ _ _ _ _ _ I); auto).
    destruct (remove_ok m1 L H X B A g i [] rest I1 Hg1 Ha1 E) as (m2 & E2 & I2 & S2).
    change (last_opt []) with (@None nat) in E2. rewrite E2. cbn [obind fst snd app] in *.
    destruct (IH fuel m2 _ _ X B A I2) as (m3 & E3 & I3 & S3).
    { rewrite (sm_glive _ _ S2); auto. }
    { rewrite (mi_act _ _ _ _ _ _ I2), <- (mi_act _ _ _ _ _ _ I1); auto. }
    { apply fupd_same. }
    { lia. }
    exists m3. split; auto. split.
    + eapply minv_ext; eauto; intros k.
      * unfold fupd. destruct (Nat.eqb k g); auto.
      * unfold drop_all. rewrite fupd_same, E. unfold fupd.
        destruct (in_dec Nat.eq_dec k rest) as [Hk|Hk].
        -- destruct (in_dec Nat.eq_dec k (i :: rest)) as [|Hn]; auto. exfalso; apply Hn; right; auto.
        -- destruct (Nat.eqb_spec k i) as [-> | n].
           ++ destruct (in_dec Nat.eq_dec i (i :: rest)) as [|Hn]; auto. exfalso; apply Hn; left; auto.
           ++ destruct (in_dec Nat.eq_dec k (i :: rest)) as [[Hn|Hn]|]; auto; congruence.
    + destruct S1 as [c1 ? ? ? ?], S2 as [c2 ? ? ? ?], S3 as [c3 ? ? ? ?]. constructor; try (intros; congruence).
      intros k. rewrite c3. unfold resend. rewrite fupd_same, E.
      destruct (in_dec Nat.eq_dec k rest) as [Hk|Hk].
      * destruct (in_dec Nat.eq_dec k (i :: rest)) as [|Hn]; auto. exfalso; apply Hn; right; auto.
      * rewrite c2, c1. unfold fupd. destruct (Nat.eqb_spec k i) as [-> | n].
        -- destruct (in_dec Nat.eq_dec i (i :: rest)) as [|Hn]; auto. exfalso; apply Hn; left; auto.
        -- destruct (in_dec Nat.eq_dec k (i :: rest)) as [[Hn|Hn]|]; auto; congruence.
Qed.

Lemma disconnect_all_defer_ok g : forall rest pre fuel m L H X B A,
  minv m L H X B A -> glive m g = true ->
  L g = pre ++ rest -> length rest < fuel ->
  exists m', disconnect_all_loop fuel m g false (hd_opt rest) (last_opt pre) = Ok m' /\
    minv m' L H X B A /\
    chg (fun s => if in_dec Nat.eq_dec s rest then None else conn m s)
        (match rest with [] => gdfr m | _ => fupd (gdfr m) g true end) m m'.
Proof.
  induction rest as [|i rest IH]; intros pre fuel m L H X B A I Hg E Hf.
  - destruct fuel; [lia|]. cbn. exists m. split; auto. split; auto. constructor; auto.
  - destruct fuel as [|fuel]; [cbn in Hf; lia|]. cbn [disconnect_all_loop hd_opt]. cbn in Hf.
    assert (In i (L g)) as Hi by (rewrite E; apply in_or_app; right; left; auto).
    assert (0 < refs m i) as Hp by (eapply minv_in_refs; eauto).
    destruct (rebind_ok _ _ _ _ _ _ i None I Hp) as (m1 & E1 & I1 & S1). rewrite E1. cbn [obind].
    assert (glive m1 g = true) as Hg1 by (rewrite (sb_glive _ _ _ S1); auto).
    destruct (set_deferred_ok m1 L H X B A g true I1 Hg1) as (m2 & E2 & I2 & S2). rewrite E2. cbn [obind].
    assert (0 < refs m2 i) as Hp2 by (eapply minv_in_refs; eauto).
    rewrite (get_slot_ok _ _ (mi_wf _ _ _ _ _ _ I2) Hp2). cbn [obind s_next].
    pose proof (mi_chain _ _ _ _ _ _ I2 g) as C. rewrite E in C.
    destruct (chain_next _ _ _ _ _ C) as [En _]. rewrite En.
    rewrite <- (last_opt_app pre i).
    destruct (IH (pre ++ [i]) fuel m2 L H X B A I2) as (m3 & E3 & I3 & S3).
    { rewrite (sd_glive _ _ _ S2). auto. }
    { rewrite <- app_assoc. exact E. }
    { lia. }
    exists m3. split; auto. split; auto.
    destruct S1 as [c1 d1 ? ? ?], S2 as [c2 d2 ? ? ?], S3 as [c3 d3 ? ? ?]. constructor; try (intros; congruence).
    + intros k. rewrite c3. destruct (in_dec Nat.eq_dec k rest) as [Hk|Hk].
      * destruct (in_dec Nat.eq_dec k (i :: rest)) as [|Hn]; auto. exfalso; apply Hn; right; auto.
      * rewrite c2, c1. unfold fupd. destruct (Nat.eqb_spec k i) as [-> | n].
        -- destruct (in_dec Nat.eq_dec i (i :: rest)) as [|Hn]; auto. exfalso; apply Hn; left; auto.
        -- destruct (in_dec Nat.eq_dec k (i :: rest)) as [[Hn|Hn]|]; auto; congruence.
    + intros k. rewrite d3. destruct rest.
      * rewrite d2. unfold fupd. destruct (Nat.eqb k g); auto.
      * unfold fupd at 1. rewrite d2. unfold fupd. destruct (Nat.eqb k g) eqn:Ek; auto.
Qed.

Lemma disconnect_all_ok m L H X B A g :
  minv m L H X B A -> glive m g = true ->
  exists m', disconnect_all m g = Ok m' /\
    (gact m g = 0 -> minv m' (fupd L g []) (drop_all L g H) X B A /\
        chg (resend L g None (conn m)) (gdfr m) m m') /\
    (gact m g <> 0 -> minv m' L H X B A /\
        chg (resend L g None (conn m)) (match L g with [] => gdfr m | _ => fupd (gdfr m) g true end) m m').
Proof.
  intros I Hg. unfold disconnect_all. rewrite (get_sig_ok _ _ Hg). cbn [obind g_head g_active].
  rewrite (chain_hd _ _ _ (mi_chain _ _ _ _ _ _ I g)).
  pose proof (list_bound _ _ _ _ _ _ g I) as Hb.
  destruct (Nat.eqb_spec (gact m g) 0) as [e|e].
  - destruct (disconnect_all_remove_ok g (L g) (S (length (heap m))) m L H X B A I Hg e eq_refl) as (m' & E & I' & S'); [lia|].
    exists m'. split; auto. split; [|intros; contradiction]. intros _. split; auto.
    destruct S'. constructor; auto.
  - destruct (disconnect_all_defer_ok g (L g) [] (S (length (heap m))) m L H X B A I Hg eq_refl) as (m' & E & I' & S'); [lia|].
    exists m'. split; auto. split; [intros; contradiction|]. intros _. split; auto.
Qed.

(* ------------------------------------------------ new, swapped, moved signals *)

Lemma sig_view_snoc {A} (f : sigrec -> A) d m h r g :
  sig_view f d (mkmem h (sigs m ++ [r])) g = fupd (sig_view f d m) (length (sigs m)) (f r) g.
Proof.
  unfold sig_view, fupd. cbn. destruct (Nat.eqb_spec g (length (sigs m))) as [-> | n].
  - rewrite nth_error_app2 by lia. rewrite Nat.sub_diag. reflexivity.
  - destruct (le_lt_dec (length (sigs m)) g) as [l|l].
    + rewrite nth_error_app2 by lia. destruct (g - length (sigs m)) as [|k] eqn:E; [lia|]. cbn.
      replace (nth_error (sigs m) g) with (@None sigrec) by (symmetry; apply nth_error_None; lia).
      destruct k; auto.
    + rewrite nth_error_app1 by lia. auto.
Qed.

Lemma sig_view_out {A} (f : sigrec -> A) d m g : length (sigs m) <= g -> sig_view f d m g = d.
Proof. intros H. unfold sig_view. apply nth_error_None in H. now rewrite H. Qed.

Lemma minv_out m L H X B A g : minv m L H X B A -> length (sigs m) <= g -> L g = [] /\ A g = 0.
Proof.
  intros I Hg. pose proof (mi_chain _ _ _ _ _ _ I g) as C. pose proof (mi_act _ _ _ _ _ _ I g) as V.
  unfold ghead in C. unfold gact in V. rewrite sig_view_out in C by auto. rewrite sig_view_out in V by auto. split; auto.
  apply chain_hd in C. destruct (L g); [auto|discriminate].
Qed.

Record adds_sig (m m' : mem) : Prop := {
  as_conn : forall s, conn m' s = conn m s;
  as_dfr : forall g, gdfr m' g = gdfr m g;
  as_glive : forall g, glive m' g = fupd (glive m) (length (sigs m)) true g;
  as_hlen : length (heap m') = length (heap m);
  as_slen : length (sigs m') = S (length (sigs m))
}.

Lemma new_sig_ok m L H X B A :
  minv m L H X B A ->
  minv (mkmem (heap m) (sigs m ++ [new_sig])) L H X B A /\ adds_sig m (mkmem (heap m) (sigs m ++ [new_sig])).
Proof.
  intros I. destruct (minv_out _ _ _ _ _ _ (length (sigs m)) I (le_n _)) as [Ln An].
  destruct I as [W R K Hin N C T V]. split.
  - constructor; auto.
    + intros g. unfold ghead. rewrite sig_view_snoc. unfold fupd.
      destruct (Nat.eqb_spec g (length (sigs m))) as [-> | n]; [now rewrite Ln|].
      apply (chain_ext m); [reflexivity|apply C].
    + intros g. unfold gtail. rewrite sig_view_snoc. unfold fupd.
      destruct (Nat.eqb_spec g (length (sigs m))) as [-> | n]; [now rewrite Ln|]. apply T.
    + intros g. unfold gact. rewrite sig_view_snoc. unfold fupd.
      destruct (Nat.eqb_spec g (length (sigs m))) as [-> | n]; [now rewrite An|]. apply V.
  - constructor; auto.
    + intros g. unfold gdfr. rewrite sig_view_snoc. unfold fupd.
      destruct (Nat.eqb_spec g (length (sigs m))) as [-> | n]; auto. now rewrite sig_view_out.
    + intros g. unfold glive. rewrite sig_view_snoc. reflexivity.
    + cbn. rewrite app_length. cbn. lia.
Qed.

Definition swap_fn {A} (f : nat -> A) (a b : nat) : nat -> A := fupd (fupd f a (f b)) b (f a).
Definition swap_name (a b : nat) (o : option nat) : option nat :=
  match o with
  | Some k => Some (if Nat.eqb k a then b else if Nat.eqb k b then a else k)
  | None => None
  end.

Lemma swap_ok m L H X B A a b :
  minv m L H X B A -> a <> b -> glive m a = true -> glive m b = true ->
  gact m a = 0 -> gact m b = 0 -> gdfr m a = false -> gdfr m b = false ->
  exists m', swap_sigs m a b = Ok m' /\
    minv m' (swap_fn L a b) (fun s => swap_name a b (H s)) X B A /\
    chg (resend L a (Some b) (resend L b (Some a) (conn m))) (gdfr m) m m'.
Proof.
  intros I Hab Ha Hb Aa Ab Da Db. pose proof (glive_range _ _ Ha) as Ra. pose proof (glive_range _ _ Hb) as Rb.
  unfold swap_sigs. destruct (Nat.eqb_spec a b) as [|n]; [contradiction|].
  rewrite (get_sig_ok _ _ Ha), (get_sig_ok _ _ Hb). cbn [obind g_head g_tail g_active g_deferred].
  rewrite Aa, Ab, Da, Db. cbn [Nat.eqb negb andb].
  set (m1 := put_sig m a _). set (m2 := put_sig m1 b _).
  assert (length (sigs m1) = length (sigs m)) as E1 by (cbn; apply length_upd).
  assert (b < length (sigs m1)) as Rb1 by lia.
  assert (minv m2 (swap_fn L a b) (fun s => swap_name a b (H s)) X B A) as I2.
  { destruct I as [W R K Hin N C T V]. constructor; auto.
    - intros s. change (refs m2 s) with (refs m s). rewrite R. unfold held, swap_name.
      destruct (H s); auto.
    - intros s g. unfold swap_fn, fupd, swap_name. specialize (Hin s).
      assert (forall k, In s (L k) <-> H s = Some k) as Hk by (intros k; apply Hin).
      destruct (Nat.eqb_spec g b) as [-> | n1]; [|destruct (Nat.eqb_spec g a) as [-> | n2]].
      all: rewrite Hk; destruct (H s) as [k|]; [|split; discriminate].
      all: destruct (Nat.eqb_spec k a) as [-> | n3]; [|destruct (Nat.eqb_spec k b) as [-> | n4]].
      all: split; intros Z; congruence.
    - intros g. unfold swap_fn, fupd. destruct (Nat.eqb g b); auto. destruct (Nat.eqb g a); auto.
    - intros g. unfold m2, ghead. rewrite sig_view_put by auto. unfold fupd at 1. unfold m1. rewrite sig_view_put by auto.
      unfold swap_fn, fupd. cbn [g_head].
      destruct (Nat.eqb g b); [|destruct (Nat.eqb g a)]; apply (chain_ext m); try reflexivity; apply C.
    - intros g. unfold m2, gtail. rewrite sig_view_put by auto. unfold fupd at 1. unfold m1. rewrite sig_view_put by auto.
      unfold swap_fn, fupd. cbn [g_tail].
      destruct (Nat.eqb g b); [|destruct (Nat.eqb g a)]; apply T.
    - intros g. unfold m2, gact. rewrite sig_view_put by auto. unfold fupd at 1. unfold m1. rewrite sig_view_put by auto.
      unfold fupd. cbn [g_active]. rewrite <- V.
      destruct (Nat.eqb_spec g b) as [-> | n1]; auto. destruct (Nat.eqb_spec g a) as [-> | n2]; auto. }
  assert (forall g, gdfr m2 g = gdfr m g) as Dm.
  { intros g. unfold m2, gdfr. rewrite sig_view_put by auto. unfold fupd at 1. unfold m1. rewrite sig_view_put by auto.
    unfold fupd. cbn [g_deferred].
    destruct (Nat.eqb_spec g b) as [-> | n1]; auto. destruct (Nat.eqb_spec g a) as [-> | n2]; auto. }
  assert (forall g, glive m2 g = glive m g) as Gm.
  { intros g. unfold m2, glive in *. rewrite sig_view_put by auto. unfold fupd at 1. unfold m1. rewrite sig_view_put by auto.
    unfold fupd. cbn [g_live].
    destruct (Nat.eqb_spec g b) as [-> | n1]; auto. destruct (Nat.eqb_spec g a) as [-> | n2]; auto. }
  destruct (rebind_all_ok m2 _ _ X B A a I2) as (m3 & E3 & I3 & S3); [rewrite Gm; auto|rewrite Dm; auto|].
  rewrite E3. cbn [obind].
  destruct (rebind_all_ok m3 _ _ X B A b I3) as (m4 & E4 & I4 & S4).
  { rewrite (sb_glive _ _ _ S3), Gm; auto. }
  { rewrite (sb_dfr _ _ _ S3), Dm; auto. }
  rewrite E4. exists m4. split; auto. split; auto.
  destruct S3 as [c3 d3 g3 h3 s3], S4 as [c4 d4 g4 h4 s4]. constructor.
  - intros k. rewrite c4. unfold resend, swap_fn. rewrite fupd_same.
    destruct (in_dec Nat.eq_dec k (L a)); auto. rewrite c3. unfold resend, swap_fn.
    rewrite fupd_other, fupd_same by auto. reflexivity.
  - intros g. rewrite d4, d3. apply Dm.
  - intros g. rewrite g4, g3. apply Gm.
  - rewrite h4, h3. reflexivity.
  - rewrite s4, s3. cbn. rewrite !length_upd. auto.
Qed.

Record moves_sig (c : nat -> option nat) (m m' : mem) : Prop := {
  ms_conn : forall s, conn m' s = c s;
  ms_dfr : forall g, gdfr m' g = gdfr m g;
  ms_glive : forall g, glive m' g = fupd (glive m) (length (sigs m)) true g;
  ms_hlen : length (heap m') = length (heap m);
  ms_slen : length (sigs m') = S (length (sigs m))
}.

Lemma move_ok m L H X B A a :
  minv m L H X B A -> glive m a = true -> gact m a = 0 -> gdfr m a = false ->
  let n := length (sigs m) in
  exists m', move_sig m a = Ok m' /\
    minv m' (fupd (fupd L a []) n (L a)) (fun s => match H s with Some k => Some (if Nat.eqb k a then n else k) | None => None end) X B A /\
    moves_sig (resend L a (Some n) (conn m)) m m'.
Proof.
  intros I Ha Aa Da n. pose proof (glive_range _ _ Ha) as Ra.
  unfold move_sig. rewrite (get_sig_ok _ _ Ha). cbn [obind g_head g_tail g_active g_deferred].
  rewrite Aa, Da. cbn [Nat.eqb negb].
  set (m1 := put_sig m a _).
  assert (length (sigs m1) = n) as E1 by (cbn; apply length_upd). rewrite E1.
  set (m2 := mkmem _ _).
  destruct (minv_out _ _ _ _ _ _ n I (le_n _)) as [Ln An].
  assert (a <> n) as Han by (unfold n; lia).
  assert (forall {B'} (f : sigrec -> B') d g, sig_view f d m2 g =
     fupd (fupd (sig_view f d m) a (f (mksig true None None 0 false))) n
       (f (mksig true (ghead m a) (gtail m a) 0 false)) g) as Vw.
  { intros B' f d g. unfold m2. rewrite sig_view_snoc, E1. unfold fupd at 1 2.
    destruct (Nat.eqb g n); auto. unfold m1. rewrite sig_view_put by auto. reflexivity. }
  assert (minv m2 (fupd (fupd L a []) n (L a)) (fun s => match H s with Some k => Some (if Nat.eqb k a then n else k) | None => None end) X B A) as I2.
  { destruct I as [W R K Hin N C T V]. constructor; auto.
    - intros s. change (refs m2 s) with (refs m s). rewrite R. unfold held. destruct (H s); auto.
    - intros s g. unfold fupd.
      assert (forall k, In s (L k) <-> H s = Some k) as Hk by (intros k; apply Hin).
      assert (H s <> Some n) as Hn by (rewrite <- Hk, Ln; auto).
      destruct (Nat.eqb_spec g n) as [-> | n1]; [|destruct (Nat.eqb_spec g a) as [-> | n2]].
      all: try rewrite Hk; destruct (H s) as [k|]; try (split; [discriminate|discriminate]); try (split; [intros []|discriminate]).
      all: destruct (Nat.eqb_spec k a) as [-> | n3].
      all: split; intros Z; try congruence; try contradiction.
    - intros g. unfold fupd. destruct (Nat.eqb g n); auto. destruct (Nat.eqb g a); auto. constructor.
    - intros g. unfold ghead. rewrite Vw. unfold fupd. cbn [g_head].
      destruct (Nat.eqb g n); [|destruct (Nat.eqb g a)]; [| reflexivity |]; apply (chain_ext m); try reflexivity; apply C.
    - intros g. unfold gtail. rewrite Vw. unfold fupd. cbn [g_tail].
      destruct (Nat.eqb g n); [|destruct (Nat.eqb g a)]; [apply T| reflexivity |apply T].
    - intros g. unfold gact. rewrite Vw. unfold fupd. cbn [g_active].
      destruct (Nat.eqb_spec g n) as [-> | n1]; [congruence|]. destruct (Nat.eqb_spec g a) as [-> | n2]; [|apply V].
      rewrite <- V. auto. }
  assert (forall g, gdfr m2 g = gdfr m g) as Dm.
  { intros g. unfold gdfr. rewrite Vw. unfold fupd. cbn [g_deferred].
    destruct (Nat.eqb_spec g n) as [-> | n1]; [now rewrite sig_view_out|].
    destruct (Nat.eqb_spec g a) as [-> | n2]; auto. }
  assert (forall g, glive m2 g = fupd (glive m) n true g) as Gm.
  { intros g. unfold glive in *. rewrite Vw. unfold fupd. cbn [g_live].
    destruct (Nat.eqb_spec g n) as [-> | n1]; auto.
    destruct (Nat.eqb_spec g a) as [-> | n2]; auto. }
  destruct (rebind_all_ok m2 _ _ X B A n I2) as (m3 & E3 & I3 & S3).
  { rewrite Gm, fupd_same; auto. }
  { rewrite Dm. unfold gdfr, n. now rewrite sig_view_out. }
  rewrite E3. exists m3. split; auto. split; auto.
  destruct S3 as [c3 d3 g3 h3 s3]. constructor.
  - intros k. rewrite c3. unfold resend. rewrite fupd_same. reflexivity.
  - intros g. rewrite d3. apply Dm.
  - intros g. rewrite g3. apply Gm.
  - rewrite h3. reflexivity.
  - rewrite s3. cbn. rewrite app_length, length_upd. cbn. unfold n. lia.
Qed.

Record kills_sig (c : nat -> option nat) (g : nat) (m m' : mem) : Prop := {
  ks_conn : forall s, conn m' s = c s;
  ks_dfr : forall g, gdfr m' g = gdfr m g;
  ks_glive : forall k, glive m' k = fupd (glive m) g false k;
  ks_hlen : length (heap m') = length (heap m);
  ks_slen : length (sigs m') = length (sigs m)
}.

Lemma destroy_ok m L H X B A g :
  minv m L H X B A -> glive m g = true -> gact m g = 0 ->
  exists m', destroy_sig m g = Ok m' /\ minv m' (fupd L g []) (drop_all L g H) X B A /\
    kills_sig (resend L g None (conn m)) g m m'.
Proof.
  intros I Hg Ha. unfold destroy_sig.
  destruct (disconnect_all_ok m L H X B A g I Hg) as (m1 & E1 & Z1 & _). rewrite E1. cbn [obind].
  destruct (Z1 Ha) as [I1 [c1 d1 g1 h1 s1]].
  assert (glive m1 g = true) as Hg1 by (rewrite g1; auto). pose proof (glive_range _ _ Hg1) as Hr.
  rewrite (get_sig_ok _ _ Hg1). cbn [obind g_head g_tail g_active g_deferred].
  eexists. split; [reflexivity|]. destruct I1 as [W R K Hin N C T V]. split.
  - constructor; auto.
    + intros k. unfold ghead. rewrite sig_view_put by auto. unfold fupd at 1. cbn [g_head].
      apply (chain_ext m1); [reflexivity|]. destruct (Nat.eqb_spec k g) as [-> | n]; apply C.
    + intros k. unfold gtail in *. rewrite sig_view_put by auto. unfold fupd at 1. cbn [g_tail].
      destruct (Nat.eqb_spec k g) as [-> | n]; apply T.
    + intros k. unfold gact in *. rewrite sig_view_put by auto. unfold fupd at 1. cbn [g_active].
      destruct (Nat.eqb_spec k g) as [-> | n]; apply V.
  - constructor; auto.
    + intros k. unfold gdfr. rewrite sig_view_put by auto. unfold fupd. cbn [g_deferred].
      destruct (Nat.eqb_spec k g) as [-> | n]; apply d1.
    + intros k. unfold glive in *. rewrite sig_view_put by auto. unfold fupd. cbn [g_live].
      destruct (Nat.eqb_spec k g) as [-> | n]; auto.
    + cbn. rewrite length_upd. auto.
Qed.
