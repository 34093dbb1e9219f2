(** New, swapped and moved signals: sound steps. *)
From Coq Require Import List Arith Bool Lia.
From Verif Require Import Base XinfoProofs SignalModel SignalSpec SignalMemProofs SignalRelProofs SignalStepProofs SignalRunProofs SignalHoldProofs.
From Verif Require Import SignalRaceModel SignalRaceEraseProofs SignalRaceSpec SignalRaceHbProofs SignalRaceInvProofs SignalRaceLightProofs SignalRaceUserProofs.
From Verif Require Import SignalRaceListProofs SignalRaceRegionProofs SignalRaceLockProofs.
Import ListNotations.

(** The accesses that give one slot a new sender. *)
Definition bl (s : nat) : list access := [EStore (Sender s) Release; ENext s false].

Lemma bl_in e l : In e (flat_map bl l) -> exists s, In s l /\ (e = ENext s false \/ e = EStore (Sender s) Release).
Proof. intros Hi. apply in_flat_map in Hi. destruct Hi as (s & Hs & [<-|[<-|[]]]); eauto. Qed.
Lemma bl_stores s l : ~ In s l -> forall e, In e (flat_map bl l) -> ~ overwrites (Sender s) e.
Proof. intros Hn e Hi Ov. apply bl_in in Hi. destruct Hi as (k & Hk & [-> | ->]); cbn in Ov; congruence. Qed.
Lemma bl_split s l : In s l -> NoDup l -> exists x y, flat_map bl l = x ++ EStore (Sender s) Release :: y /\ forall e, In e y -> ~ overwrites (Sender s) e.
Proof.
  intros Hi N. apply in_split in Hi. destruct Hi as (l1 & l2 & ->). apply NoDup_remove_2 in N. rewrite in_app_iff in N.
  exists (flat_map bl l1), (ENext s false :: flat_map bl l2). rewrite flat_map_app. split; [reflexivity|].
  intros e [<-|Hi]; [auto|]. apply bl_stores with l2; tauto.
Qed.

Lemma rebind_run m s o m' : rebind m s o = Ok m' -> (forall k, nxt m' k = nxt m k) /\ sigs m' = sigs m /\ length (heap m') = length (heap m) /\ exists x, get_slot m s = Ok x.
Proof.
  unfold rebind. destruct (get_slot m s) as [x| |] eqn:E; cbn; try discriminate. intros [= <-].
  unfold get_slot in E. destruct (nth_error (heap m) s) as [y|] eqn:En; [|discriminate]. destruct (s_live y) eqn:Ea; [|discriminate]. injection E as ->.
  assert (s < length (heap m)) as Hl by (apply nth_error_Some; congruence).
  repeat split; eauto; [|cbn; apply length_upd]. intros k. unfold nxt, slot_view. cbn. rewrite nth_upd by auto. destruct (Nat.eqb_spec k s) as [->|]; auto. now rewrite En.
Qed.

Lemma rebind_log g : forall l fuel m m', chain m (hd_opt l) l -> snd (lrebind_loop kl_orders fuel m g (hd_opt l)) = Ok m' ->
  fst (lrebind_loop kl_orders fuel m g (hd_opt l)) = flat_map bl l /\ (forall k, nxt m' k = nxt m k) /\ sigs m' = sigs m.
Proof.
  induction l as [|s l IH]; intros [|fuel] m m' C E; try discriminate; cbn [hd_opt lrebind_loop] in *.
  - injection E as <-. auto.
  - open E m1 G F. rewrite F. clear F. cbn [lrebind log snd fst] in *. destruct (rebind_run _ _ _ _ G) as (Q1 & Q2 & Q3 & _).
    open E x Gx F. rewrite F. clear F. cbn [lnext log snd fst] in *.
    assert (s_next x = nxt m s) as En.
    { rewrite <- Q1. unfold get_slot in Gx. unfold nxt, slot_view. destruct (nth_error (heap m1) s) as [y|]; [|discriminate]. destruct (s_live y); [|discriminate]. now injection Gx as ->. }
    destruct C as [_ C]. rewrite En in *. pose proof (chain_hd _ _ _ C) as Eh. rewrite Eh in *.
    assert (chain m1 (hd_opt l) l) as C' by (apply (chain_ext m); [intros; apply Q1|exact C]).
    destruct (IH fuel m1 m' C' E) as (J1 & J2 & J3).
    rewrite J1. repeat split; [|congruence]. intros k. now rewrite J2.
Qed.

Lemma rebind_all_log g l m m' : glive m g = true -> gdfr m g = false -> chain m (ghead m g) l -> snd (lrebind_all kl_orders m g) = Ok m' ->
  fst (lrebind_all kl_orders m g) = [ESig g false; ESig g false] ++ flat_map bl l /\ (forall k, nxt m' k = nxt m k) /\ sigs m' = sigs m.
Proof.
  intros Hg Hd C E. unfold lrebind_all, lcleanup in *. open E m1 G F. rewrite F. clear F.
  open G x Gx F. rewrite F. clear F. cbn [lsig log snd fst] in *. rewrite (get_sig_ok _ _ Hg) in Gx. injection Gx as <-. cbn [g_deferred] in *. rewrite Hd in *. cbn [negb] in *.
  injection G as <-. open E x Gx F. rewrite F. clear F. cbn [lsig log snd fst] in *. rewrite (get_sig_ok _ _ Hg) in Gx. injection Gx as <-. cbn [g_head] in *.
  pose proof (chain_hd _ _ _ C) as Eh. rewrite Eh in *. destruct (rebind_log g l _ _ _ C E) as (J1 & J2 & J3). rewrite J1. auto.
Qed.

Section Swap.
Variables (st st' : state) (i i' : ideal) (L L' : nat -> list nat) (H H' : nat -> option nat).
Hypothesis R : rel st i L H.
Hypothesis R' : rel st' i' L' H'.
Variables (t : nat) (th : thread) (es : list access) (r : obs).
Hypothesis Et : nth_error (threads st) t = Some th.

Lemma relisting begs locks body rl m' :
  let n := length (sigs (mm st)) in
  let ok s := exists g, In (ELock g) locks /\ In s (listed st g) in
  st' = set_mem st m' ->
  es = begs ++ locks ++ body ++ rl ->
  (forall e, In e begs -> exists b w, e = EBeg b w) ->
  (forall e, In e locks -> (exists g, e = ELock g) \/ exists g, e = ESigNew g) ->
  (forall e, In e rl -> (exists g, e = EUnlock g) \/ exists g, e = EFin (OSig g) true) ->
  (forall e, In e body -> (exists g, sig_uses e g /\ e <> ESigNew g /\ e <> ESigDel g) \/ exists s, ok s /\ (e = ENext s false \/ e = EStore (Sender s) Release)) ->
  length (heap m') = length (heap (mm st)) ->
  (forall s, ok s -> exists g, In (EUnlock g) rl /\ In s (listed st' g)) ->
  (forall s g, In s (listed st g) -> ~ In s (listed st' g) -> In (ELock g) locks) ->
  (forall s g, In s (listed st' g) -> In s (listed st g) \/ In (EUnlock g) rl /\ ok s) ->
  (forall s g, ok s -> In s (listed st' g) -> In (EUnlock g) rl) ->
  length (sigs (mm st)) <= length (sigs m') ->
  (forall g, In (ESigNew g) locks -> g = n /\ n < length (sigs m') /\ In (EFin (OSig n) true) rl) ->
  (forall e g, In e es -> sig_uses e g -> g = n /\ n < length (sigs m') \/ glive (mm st) g = true /\ In (EBeg (OSig g) false) begs) ->
  (forall e g u, In e body -> sig_use e = Some (g, u) -> u <> Atomic -> g = n \/ In (ELock g) locks) ->
  (forall b1 e b2 g, es = b1 ++ e :: b2 -> sig_uses e g -> e = ESigNew g \/ In (EUnlock g) (e :: b2)) ->
  (forall g, g < n -> glive m' g = true -> glive (mm st) g = true) ->
  (forall s g, conn m' s = Some g -> conn (mm st) s = Some g /\ (forall e, In e body -> ~ overwrites (Sender s) e) \/
     exists x y, es = x ++ EStore (Sender s) Release :: y /\ (forall e, In e y -> ~ overwrites (Sender s) e) /\ (In (EBeg (OSig g) false) begs \/ In (ESigNew g) x)) ->
  sound st st' t es.
Proof.
  intros n ok Es Ee Bg Lk Rl Bd Eh To Out In' Pl Sl Sn Su Sk Sf Sv Cn.
  assert (forall e s, In e body -> uses e s -> ok s) as Us.
  { intros e s Hi [u U]. destruct (Bd _ Hi) as [(g & [v V] & _)|(k & Hk & [-> | ->])]; [destruct e; discriminate| |]; cbn in U; injection U as <- <-; auto. }
  assert (forall e, In e es -> (exists g, sig_uses e g) \/ (exists b w, e = EBeg b w) \/ (exists g, e = EFin (OSig g) true) \/ exists s, ok s /\ (e = ENext s false \/ e = EStore (Sender s) Release)) as Cs.
  { intros e Hi. rewrite Ee, !in_app_iff in Hi. destruct Hi as [Hi|[Hi|[Hi|Hi]]].
    - right. left. auto.
    - left. destruct (Lk _ Hi) as [(g & ->)|(g & ->)]; exists g; eexists; reflexivity.
    - destruct (Bd _ Hi) as [(g & U & _)|?]; eauto.
    - destruct (Rl _ Hi) as [(g & ->)|?]; [left; exists g; eexists; reflexivity|auto]. }
  assert (mm st' = m') as Em by (now rewrite Es).
  assert (handles st' = handles st) as Ea by (now rewrite Es). assert (blockers st' = blockers st) as Eb by (now rewrite Es).
  assert (threads st' = threads st) as Eth by (now rewrite Es). assert (lost st' = lost st) as Elo by (now rewrite Es).
  assert (forall s, ok s -> left_at st' t rl s) as La by (intros s Hs; destruct (To _ Hs) as (g & G1 & G2); left; eauto).
  exists begs, locks, body, rl. split; auto. constructor; auto.
  - intros e s Hi [u U]. destruct (Rl _ Hi) as [(g & ->)|(g & ->)]; discriminate.
  - rewrite <- Ee. intros e s Hi Ov. destruct e; try contradiction. destruct (Cs _ Hi) as [(g & [v V])|[(b & w & E)|[(g & E)|(k & _ & [E|E])]]]; try discriminate. injection E as -> ->. discriminate.
  - rewrite Em. lia.
  - intros s Hi. exfalso. destruct (Bd _ Hi) as [(g & [v V] & _)|(k & _ & [E|E])]; discriminate.
  - intros e s Hi U. right. left. apply (Us _ _ Hi U).
  - intros e s Hi [w U]. right. apply (Us e); auto. exists (Plain w). auto.
  - intros b1 s b2 E. exfalso. assert (In (EFree s) body) as Hi by (rewrite E; apply in_or_app; right; left; auto).
    destruct (Bd _ Hi) as [(g & [v V] & _)|(k & _ & [E'|E'])]; discriminate.
  - intros s Hl Z. destruct (refs (mm st') s) eqn:E; auto. exfalso.
    assert (held_at st' s) as T by (eapply refs_held; eauto; lia).
    assert (held_at st s) as T'.
    { destruct T as [(k & T)|[(h & T)|[(b & T)|[(u & T)|T]]]].
      - left. destruct (In' _ _ T) as [?|[_ (g & _ & ?)]]; eauto.
      - right. left. exists h. unfold tok_h in *. now rewrite <- Ea.
      - right. right. left. exists b. unfold tok_b in *. now rewrite <- Eb.
      - right. right. right. left. exists u. unfold tok_t in *. now rewrite <- Eth.
      - right. right. right. right. now rewrite <- Elo. }
    apply (held_refs _ _ _ _ _ R) in T'. lia.
  - intros b1 e b2 s E U _. left. apply La, (Us e); auto. rewrite E. apply in_or_app. right. left. auto.
  - intros s g H1 H2. pose proof (Out _ _ H1 H2) as Hl. split; auto. left. apply La. exists g. auto.
  - intros s h T Tn. destruct Tn. unfold tok_h in *. now rewrite Ea.
  - intros s h T Tn. destruct Tn. unfold tok_b in *. now rewrite Eb.
  - intros s T Tn. destruct Tn. unfold tok_t in *. now rewrite Eth.
  - intros u s _. unfold tok_t. now rewrite Eth.
  - now rewrite Elo.
  - intros s g Hi. destruct (In' _ _ Hi) as [?|[? ?]]; auto.
  - intros e s g Hi [w U] Hl. eapply Pl; eauto. apply (Us e); auto. exists (Plain w). auto.
  - intros s h T. left. unfold tok_h in *. now rewrite <- Ea.
  - intros s h T. left. unfold tok_b in *. now rewrite <- Eb.
  - intros s T. right. right. right. unfold tok_t in *. now rewrite <- Eth.
  - intros s. apply (held_refs _ _ _ _ _ R').
  - intros s. apply (held_refs _ _ _ _ _ R).
  - now rewrite Em.
  - intros g Hi. destruct (Sn _ Hi) as (-> & ? & ?). now rewrite Em.
  - intros g Hi. apply in_app_or in Hi. destruct Hi as [Hi|Hi].
    + destruct (Bd _ Hi) as [(k & [v V] & Hn & _)|(k & _ & [E|E])]; try discriminate. cbn in V. injection V as <- <-. auto.
    + destruct (Rl _ Hi) as [(k & E)|(k & E)]; discriminate.
  - rewrite <- Ee, Em. intros e g Hi U. destruct (Su _ _ Hi U) as [[-> ?]|[? ?]]; [left; auto|right; split; auto]. left. auto.
  - intros e g u Hi U Hu. apply in_app_or in Hi. destruct Hi as [Hi|Hi]; [eauto|].
    destruct (Rl _ Hi) as [(k & ->)|(k & ->)]; [cbn in U; injection U as _ <-; contradiction|discriminate].
  - rewrite <- Ee. eauto.
  - rewrite Em. auto.
  - rewrite <- Ee. intros g Hi. exfalso. rewrite Ee, !in_app_iff in Hi. destruct Hi as [Hi|[Hi|[Hi|Hi]]].
    + destruct (Bg _ Hi) as (b & w & E). discriminate.
    + destruct (Lk _ Hi) as [(k & E)|(k & E)]; discriminate.
    + destruct (Bd _ Hi) as [(k & [v V] & _ & Hn)|(k & _ & [E|E])]; try discriminate. cbn in V. injection V as <- <-. auto.
    + destruct (Rl _ Hi) as [(k & E)|(k & E)]; discriminate.
  - intros g Bu. left. unfold busy in *. now rewrite <- Eth.
  - intros u g _ Bu. unfold busy in *. now rewrite <- Eth.
  - intros u Bu. apply (busy_live _ _ _ _ _ _ R) in Bu. apply glive_range in Bu. lia.
  - rewrite <- Ee, Em. intros s g C. destruct (Cn _ _ C) as [[C' Ns]|(x & y & E & Ny & Hs)].
    + left. split; auto. intros e Hi Ov. rewrite Ee, !in_app_iff in Hi. destruct Hi as [Hi|[Hi|[Hi|Hi]]].
      * destruct (Bg _ Hi) as (b & w & ->). auto.
      * destruct (Lk _ Hi) as [(k & ->)|(k & ->)]; auto.
      * exact (Ns _ Hi Ov).
      * destruct (Rl _ Hi) as [(k & ->)|(k & ->)]; auto.
    + right. left. exists x, Release, y. split; auto. split; auto. split; auto. destruct Hs; [left; left; auto|auto].
  - intros s C. apply (conn_live _ _ _ _ _ _ R) in C. apply glive_range in C. lia.
Qed.

Lemma s_new_signal : luser_step kl_orders st t th UNewSignal = (es, Next st' r) -> sound st st' t es.
Proof.
  intros E. cbn [luser_step] in E. apply ldone_ok in E. destruct E as (u & _ & Ek & Ee). injection Ek as Es _. cbn in Ee.
  set (n := length (sigs (mm st))) in *.
  destruct (new_sig_ok _ _ _ _ _ _ (r_minv _ _ _ _ R)) as [I' [c1 c2 c3 c4 c5]]. set (m' := mkmem _ _) in *.
  assert (forall g, listed st' g = listed st g) as Ls.
  { intros g. rewrite (listed_is _ _ _ _ _ R). rewrite <- Es. eapply listed_minv; eauto. }
  apply (relisting [] [ESigNew n] [] [EFin (OSig n) true] m'); fold n; auto.
  - intros e [].
  - intros e [<-|[]]. eauto.
  - intros e [<-|[]]. eauto.
  - intros e [].
  - intros s (g & [E|[]] & _). discriminate.
  - intros s g. rewrite Ls. contradiction.
  - intros s g. rewrite Ls. auto.
  - intros s g (g' & [E|[]] & _). discriminate.
  - unfold n in *. lia.
  - intros g [E|[]]. injection E as <-. split; auto. split; [unfold n in *; lia|left; auto].
  - rewrite Ee. intros e g [<-|[<-|[]]] [v V]; [|discriminate]. cbn in V. injection V as <- <-. left. split; auto. unfold n in *. lia.
  - intros e g v [].
  - rewrite Ee. intros b1 e b2 g E [v V]. destruct b1 as [|x [|y b1]]; cbn in E; [injection E as <- <-| |]; auto.
    + cbn in V. injection V as <- <-. auto.
    + injection E as <- <- <-. discriminate.
    + injection E as _ _ E. destruct b1; discriminate.
  - intros g Hl. rewrite c3. rewrite fupd_other by (fold n; lia). auto.
Qed.

Lemma s_swap a b : (a <> b -> ~ disconnecting st a /\ ~ disconnecting st b) -> luser_step kl_orders st t th (USwap a b) = (es, Next st' r) -> sound st st' t es.
Proof.
  intros Hd E. cbn [luser_step] in E.
  destruct (sig_live (mm st) a) eqn:Ea; cbn [andb] in E; [|discriminate].
  destruct (sig_live (mm st) b) eqn:Eb; [|discriminate].
  assert (glive (mm st) a = true) as Ha by exact Ea. assert (glive (mm st) b = true) as Hb by exact Eb.
  pose proof (glive_range _ _ Ha) as La. pose proof (glive_range _ _ Hb) as Lb.
  apply ldone_ok in E. destruct E as (m' & E & Ek & Ee). injection Ek as Es _. apply direct_run in E. destruct E as [E F]. rewrite F in Ee. clear F.
  apply direct_run in E. destruct E as [E F]. rewrite F in Ee. clear F.
  assert (forall k, listed st k = L k) as Ls by (intros k; eapply listed_is; eauto).
  destruct (Nat.eq_dec a b) as [<-|ne].
  - unfold lswap_sigs in *. rewrite Nat.eqb_refl in *. injection E as <-. cbn in Ee.
    assert (forall g, listed st' g = listed st g) as Ls' by (intros g; rewrite <- Es; reflexivity).
    apply (relisting [EBeg (OSig a) false; EBeg (OSig a) false] [] [] [] (mm st)); auto.
    + intros e [<-|[<-|[]]]; eauto.
    + intros e [].
    + intros e [].
    + intros e [].
    + intros s (g & [] & _).
    + intros s g. rewrite Ls'. contradiction.
    + intros s g. rewrite Ls'. auto.
    + intros s g (g' & [] & _).
    + intros g [].
    + rewrite Ee. intros e g [<-|[<-|[]]] [v V]; discriminate.
    + rewrite Ee. intros b1 e b2 g E [v V]. exfalso. assert (In e [EBeg (OSig a) false; EBeg (OSig a) false]) as Hi by (rewrite E; apply in_or_app; right; left; auto).
      destruct Hi as [<-|[<-|[]]]; discriminate.
  - assert (gact (mm st) a = 0 /\ gact (mm st) b = 0) as [e1 e2].
    { rewrite e_swap in E. unfold swap_sigs in E. destruct (Nat.eqb_spec a b) as [|_]; [contradiction|].
      rewrite (get_sig_ok _ _ Ha), (get_sig_ok _ _ Hb) in E. cbn [obind g_active] in E.
      destruct (Nat.eqb_spec (gact (mm st) a) 0) as [e1|e1]; cbn [andb negb] in E; [|discriminate].
      destruct (Nat.eqb_spec (gact (mm st) b) 0) as [e2|e2]; cbn [andb negb] in E; [auto|discriminate]. }
    pose proof (not_dfr _ _ _ _ R _ e1) as d1. pose proof (not_dfr _ _ _ _ R _ e2) as d2.
    pose proof (r_minv _ _ _ _ R) as I.
    destruct (swap_ok _ _ _ _ _ _ a b I ne Ha Hb e1 e2 d1 d2) as (m2 & E2 & I2 & [c1 c2 c3 c4 c5]).
    pose proof E as E3. rewrite e_swap, E2 in E3. injection E3 as ->.
    (* the accesses *)
    unfold lswap_sigs in *. destruct (Nat.eqb_spec a b) as [|_]; [contradiction|].
    apply say_run in E. destruct E as [E F]. rewrite F in Ee. clear F.
    open E x G F. rewrite F in Ee. clear F. cbn [lsig log snd fst] in *. rewrite (get_sig_ok _ _ Ha) in G. injection G as <-.
    open E x G F. rewrite F in Ee. clear F. cbn [lsig log snd fst] in *. rewrite (get_sig_ok _ _ Hb) in G. injection G as <-. cbn [g_head g_tail g_active g_deferred] in *.
    rewrite e1, e2, d1, d2 in *. cbn [Nat.eqb negb andb] in *.
    apply say_run in E. destruct E as [E F]. rewrite F in Ee. clear F.
    set (m1 := put_sig (put_sig (mm st) a (mksig true (ghead (mm st) b) (gtail (mm st) b) 0 false)) b (mksig true (ghead (mm st) a) (gtail (mm st) a) 0 false)) in *.
    assert (forall B' (f : sigrec -> B') d g, sig_view f d m1 g = fupd (fupd (sig_view f d (mm st)) a (f (mksig true (ghead (mm st) b) (gtail (mm st) b) 0 false))) b
       (f (mksig true (ghead (mm st) a) (gtail (mm st) a) 0 false)) g) as Vw.
    { intros B' f d g. unfold m1. rewrite sig_view_put by (cbn; rewrite length_upd; auto). unfold fupd at 1 2. destruct (Nat.eqb g b); auto. rewrite sig_view_put by auto. reflexivity. }
    open E m3 G F. rewrite F in Ee. clear F.
    destruct (rebind_all_log a (L b) m1 m3) as (J1 & J2 & J3); auto.
    { unfold glive. rewrite Vw. unfold fupd. rewrite (proj2 (Nat.eqb_neq a b) ne), Nat.eqb_refl. reflexivity. }
    { unfold gdfr. rewrite Vw. unfold fupd. rewrite (proj2 (Nat.eqb_neq a b) ne), Nat.eqb_refl. reflexivity. }
    { unfold ghead at 1. rewrite Vw. unfold fupd. rewrite (proj2 (Nat.eqb_neq a b) ne), Nat.eqb_refl. cbn [g_head].
      apply (chain_ext (mm st)); [reflexivity|apply (mi_chain _ _ _ _ _ _ I)]. }
    rewrite J1 in Ee. clear J1 G.
    open E m4 G F. rewrite F in Ee. clear F. apply then_ok in E. destruct E as [-> E]. rewrite E in Ee. clear E.
    assert (forall B' (f : sigrec -> B') d g, sig_view f d m3 g = sig_view f d m1 g) as Vs by (intros; unfold sig_view; now rewrite J3).
    destruct (rebind_all_log b (L a) m3 m') as (K1 & K2 & K3); auto.
    { unfold glive. rewrite Vs, Vw. unfold fupd. rewrite Nat.eqb_refl. reflexivity. }
    { unfold gdfr. rewrite Vs, Vw. unfold fupd. rewrite Nat.eqb_refl. reflexivity. }
    { unfold ghead at 1. rewrite Vs, Vw. unfold fupd. rewrite Nat.eqb_refl. cbn [g_head].
      apply (chain_ext (mm st)); [intros; rewrite J2; reflexivity|apply (mi_chain _ _ _ _ _ _ I)]. }
    rewrite K1 in Ee. clear K1 K2 K3 J2 J3 Vs Vw G. clear m1 m3.
    assert (forall k, listed st' k = swap_fn L a b k) as Ls' by (intros k; rewrite <- Es; eapply listed_minv; eauto).
    assert (listed st' a = L b) as La' by (rewrite Ls'; unfold swap_fn; rewrite fupd_other, fupd_same; auto).
    assert (listed st' b = L a) as Lb' by (rewrite Ls'; unfold swap_fn; rewrite fupd_same; auto).
    assert (forall k, k <> a -> k <> b -> listed st' k = L k) as Lo by (intros k n1 n2; rewrite Ls'; unfold swap_fn; rewrite !fupd_other; auto).
    assert (forall s, In s (L a) -> conn (mm st) s = Some a) as Ca by (apply (all_connected _ _ _ _ R); auto; tauto).
    assert (forall s, In s (L b) -> conn (mm st) s = Some b) as Cb by (apply (all_connected _ _ _ _ R); auto; tauto).
    pose proof (mi_nodup _ _ _ _ _ _ I a) as Na. pose proof (mi_nodup _ _ _ _ _ _ I b) as Nb.
    set (pre := [ESig a false; ESig b false; ESig a true; ESig b true; ESig a false; ESig a false]).
    set (body := pre ++ flat_map bl (L b) ++ [ESig b false; ESig b false] ++ flat_map bl (L a)).
    set (begs := [EBeg (OSig a) false; EBeg (OSig b) false]).
    set (locks := [ELock a; ELock b]). set (rl := [EUnlock a; EUnlock b]).
    assert (es = begs ++ locks ++ body ++ rl) as Ee'.
    { rewrite Ee. unfold begs, locks, body, pre, rl. cbn. repeat (rewrite <- ?app_assoc; cbn). reflexivity. }
    assert (forall e, In e body -> (exists g w, e = ESig g w /\ (g = a \/ g = b)) \/ exists s, (In s (L a) \/ In s (L b)) /\ (e = ENext s false \/ e = EStore (Sender s) Release)) as Bd.
    { intros e Hi. unfold body in Hi. rewrite !in_app_iff in Hi. destruct Hi as [Hi|[Hi|[Hi|Hi]]].
      - left. unfold pre in Hi. cbn in Hi. repeat destruct Hi as [<-|Hi]; eauto 6. destruct Hi.
      - apply bl_in in Hi. destruct Hi as (s & Hs & Hi). right. eauto.
      - left. destruct Hi as [<-|[<-|[]]]; eauto 6.
      - apply bl_in in Hi. destruct Hi as (s & Hs & Hi). right. eauto. }
    assert (forall s, (exists g, In (ELock g) locks /\ In s (listed st g)) <-> In s (L a) \/ In s (L b)) as Ok'.
    { intros s. split.
      - intros (g & [E|[E|[]]] & Hs); injection E as <-; rewrite Ls in Hs; auto.
      - intros [Hs|Hs]; [exists a|exists b]; rewrite Ls; unfold locks; cbn; auto. }
    apply (relisting begs locks body rl m'); auto.
    + intros e [<-|[<-|[]]]; eauto.
    + intros e [<-|[<-|[]]]; eauto.
    + intros e [<-|[<-|[]]]; eauto.
    + intros e Hi. destruct (Bd _ Hi) as [(g & w & -> & _)|(s & Hs & E)]; [left|right].
      * exists g. split; [eexists; reflexivity|split; discriminate].
      * exists s. split; auto. now apply Ok'.
    + intros s Hs. apply Ok' in Hs. destruct Hs as [Hs|Hs]; [exists b|exists a]; rewrite ?La', ?Lb'; unfold rl; cbn; auto.
    + intros s g. rewrite Ls. intros H1 H2. destruct (Nat.eq_dec g a) as [->|n1]; [left; auto|]. destruct (Nat.eq_dec g b) as [->|n2]; [right; left; auto|]. rewrite Lo in H2 by auto. contradiction.
    + intros s g H1. rewrite Ok', Ls. destruct (Nat.eq_dec g a) as [->|n1]; [right; rewrite La' in H1; split; [left; auto|auto]|].
      destruct (Nat.eq_dec g b) as [->|n2]; [right; rewrite Lb' in H1; split; [right; left; auto|auto]|]. rewrite Lo in H1 by auto. auto.
    + intros s g Hs H1. apply Ok' in Hs. destruct (Nat.eq_dec g a) as [->|n1]; [left; auto|]. destruct (Nat.eq_dec g b) as [->|n2]; [right; left; auto|]. rewrite Lo in H1 by auto.
      exfalso. apply (mi_in _ _ _ _ _ _ I) in H1. destruct Hs as [Hs|Hs]; apply (mi_in _ _ _ _ _ _ I) in Hs; congruence.
    + lia.
    + intros g [E|[E|[]]]; discriminate.
    + intros e g Hi [v V]. right. assert (g = a \/ g = b) as Hg.
      { rewrite Ee', !in_app_iff in Hi. destruct Hi as [Hi|[Hi|[Hi|Hi]]].
        - destruct Hi as [<-|[<-|[]]]; discriminate.
        - destruct Hi as [<-|[<-|[]]]; cbn in V; injection V as <- <-; auto.
        - destruct (Bd _ Hi) as [(k & w & -> & Hk)|(s & _ & [-> | ->])]; try discriminate. cbn in V. injection V as <- <-. auto.
        - destruct Hi as [<-|[<-|[]]]; cbn in V; injection V as <- <-; auto. }
      destruct Hg as [-> | ->]; split; auto; unfold begs; cbn; auto.
    + intros e g v Hi V Hv. right. destruct (Bd _ Hi) as [(k & w & -> & Hk)|(s & _ & [-> | ->])]; try discriminate. cbn in V. injection V as <- <-. destruct Hk as [-> | ->]; unfold locks; cbn; auto.
    + intros b1 e b2 g E [v V]. right. rewrite Ee' in E. rewrite !app_assoc in E. apply split_app in E. destruct E as [(c & Ec & ->)|(c & -> & Ec)].
      * assert (g = a \/ g = b) as Hg; [|right; apply in_or_app; right; destruct Hg as [-> | ->]; unfold rl; cbn; auto].
        assert (In e ((begs ++ locks) ++ body)) as Hi by (rewrite Ec; apply in_or_app; right; left; auto). rewrite !in_app_iff in Hi. destruct Hi as [[Hi|Hi]|Hi].
        -- destruct Hi as [<-|[<-|[]]]; discriminate.
        -- destruct Hi as [<-|[<-|[]]]; cbn in V; injection V as <- <-; auto.
        -- destruct (Bd _ Hi) as [(k & w & -> & Hk)|(s & _ & [-> | ->])]; try discriminate. cbn in V. injection V as <- <-. auto.
      * unfold rl in Ec. destruct c as [|x [|y c]]; cbn in Ec.
        -- injection Ec as <- <-. cbn in V. injection V as <- <-. left. auto.
        -- injection Ec as <- <- <-. cbn in V. injection V as <- <-. left. auto.
        -- injection Ec as _ _ Ec. destruct c; discriminate.
    + intros g _. rewrite c3. auto.
    + intros s g C. rewrite c1 in C. unfold resend in C. destruct (in_dec Nat.eq_dec s (L a)) as [Ia|Ia].
      * injection C as <-. right. destruct (bl_split s (L a) Ia Na) as (x & y & Ex & Hy).
        exists (begs ++ locks ++ pre ++ flat_map bl (L b) ++ [ESig b false; ESig b false] ++ x), (y ++ rl). split.
        { rewrite Ee'. unfold body. rewrite Ex. repeat rewrite <- app_assoc. cbn [app]. reflexivity. }
        split; [|left; right; left; auto]. intros e Hi. apply in_app_or in Hi. destruct Hi as [Hi|[<-|[<-|[]]]]; auto.
      * destruct (in_dec Nat.eq_dec s (L b)) as [Ib|Ib].
        -- injection C as <-. right. destruct (bl_split s (L b) Ib Nb) as (x & y & Ex & Hy).
           exists (begs ++ locks ++ pre ++ x), (y ++ [ESig b false; ESig b false] ++ flat_map bl (L a) ++ rl). split.
           { rewrite Ee'. unfold body. rewrite Ex. repeat rewrite <- app_assoc. cbn [app]. reflexivity. }
           split; [|left; left; auto]. intros e Hi. rewrite !in_app_iff in Hi. destruct Hi as [Hi|[[<-|[<-|[]]]|[Hi|[<-|[<-|[]]]]]]; auto. eapply bl_stores; eauto.
        -- left. split; auto. intros e Hi Ov. destruct (Bd _ Hi) as [(k & w & -> & Hk)|(k & Hk & [-> | ->])]; auto. cbn in Ov. injection Ov as ->. tauto.
Qed.

Lemma s_move a : ~ disconnecting st a -> luser_step kl_orders st t th (UMove a) = (es, Next st' r) -> sound st st' t es.
Proof.
  intros Hd E. cbn [luser_step] in E.
  destruct (sig_live (mm st) a) eqn:Ea; [|discriminate].
  assert (glive (mm st) a = true) as Ha by exact Ea.
  pose proof (glive_range _ _ Ha) as La.
  apply ldone_ok in E. destruct E as (m' & E & Ek & Ee). injection Ek as Es _. apply direct_run in E. destruct E as [E F]. rewrite F in Ee. clear F.
  assert (forall k, listed st k = L k) as Ls by (intros k; eapply listed_is; eauto).
  assert (gact (mm st) a = 0) as e1.
  { rewrite e_move in E. unfold move_sig in E. rewrite (get_sig_ok _ _ Ha) in E. cbn [obind g_active] in E.
    destruct (Nat.eqb_spec (gact (mm st) a) 0) as [e1|e1]; cbn [negb] in E; [auto|discriminate]. }
  pose proof (not_dfr _ _ _ _ R _ e1) as d1. pose proof (r_minv _ _ _ _ R) as I.
  destruct (move_ok _ _ _ _ _ _ a I Ha e1 d1) as (m2 & E2 & I2 & [c1 c2 c3 c4 c5]).
  pose proof E as E3. rewrite e_move, E2 in E3. injection E3 as ->.
  set (n := length (sigs (mm st))) in *. assert (a <> n) as ne by (unfold n; lia).
  unfold lmove_sig in *. fold n in E, Ee.
  apply say_run in E. destruct E as [E F]. rewrite F in Ee. clear F.
  open E x G F. rewrite F in Ee. clear F. cbn [lsig log snd fst] in *. rewrite (get_sig_ok _ _ Ha) in G. injection G as <-. cbn [g_head g_tail g_active g_deferred] in *.
  rewrite e1, d1 in *. cbn [Nat.eqb negb] in *.
  apply say_run in E. destruct E as [E F]. rewrite F in Ee. clear F.
  set (m0 := put_sig (mm st) a (mksig true None None 0 false)) in *.
  set (m1 := mkmem (heap m0) (sigs m0 ++ [mksig true (ghead (mm st) a) (gtail (mm st) a) 0 false])) in *.
  assert (length (sigs m0) = n) as E1 by (cbn; apply length_upd).
  assert (forall B' (f : sigrec -> B') d, sig_view f d m1 n = f (mksig true (ghead (mm st) a) (gtail (mm st) a) 0 false)) as Vw.
  { intros B' f d. unfold m1. rewrite sig_view_snoc, E1. apply fupd_same. }
  open E m3 G F. rewrite F in Ee. clear F. apply then_ok in E. destruct E as [-> E]. rewrite E in Ee. clear E.
  destruct (rebind_all_log n (L a) m1 m') as (K1 & K2 & K3); auto.
  { unfold glive. now rewrite Vw. }
  { unfold gdfr. now rewrite Vw. }
  { unfold ghead at 1. rewrite Vw. cbn [g_head]. apply (chain_ext (mm st)); [reflexivity|apply (mi_chain _ _ _ _ _ _ I)]. }
  rewrite K1 in Ee. clear K1 K2 K3 Vw G E1. clear m1 m0.
  destruct (minv_out _ _ _ _ _ _ n I (le_n _)) as [Ln An].
  assert (forall k, listed st' k = fupd (fupd L a []) n (L a) k) as Ls' by (intros k; rewrite <- Es; eapply listed_minv; eauto).
  assert (listed st' n = L a) as Ln' by (rewrite Ls', fupd_same; auto).
  assert (listed st' a = []) as La' by (rewrite Ls', fupd_other, fupd_same; auto).
  assert (forall k, k <> a -> k <> n -> listed st' k = L k) as Lo by (intros k n1 n2; rewrite Ls', !fupd_other; auto).
  assert (forall s, In s (L a) -> conn (mm st) s = Some a) as Ca by (apply (all_connected _ _ _ _ R); auto; tauto).
  pose proof (mi_nodup _ _ _ _ _ _ I a) as Na.
  set (pre := [ESig a false; ESig a true; ESig n true; EUnlock a; ELock n; ESig n false; ESig n false]).
  set (body := pre ++ flat_map bl (L a)).
  set (begs := [EBeg (OSig a) false]). set (locks := [ESigNew n; ELock a]). set (rl := [EUnlock n; EFin (OSig n) true]).
  assert (es = begs ++ locks ++ body ++ rl) as Ee'.
  { rewrite Ee. unfold begs, locks, body, pre, rl. cbn. repeat (rewrite <- ?app_assoc; cbn). reflexivity. }
  assert (forall e, In e body -> In e pre \/ exists s, In s (L a) /\ (e = ENext s false \/ e = EStore (Sender s) Release)) as Bd.
  { intros e Hi. unfold body in Hi. rewrite in_app_iff in Hi. destruct Hi as [Hi|Hi]; auto. apply bl_in in Hi. destruct Hi as (s & Hs & Hi). right. eauto. }
  assert (Forall (fun e => exists g v, sig_use e = Some (g, v) /\ (g = a \/ g = n) /\ v <> Whole) pre) as Fp.
  { unfold pre. repeat constructor; do 2 eexists; (split; [reflexivity|]); (split; [auto|discriminate]). }
  rewrite Forall_forall in Fp.
  assert (forall s, (exists g, In (ELock g) locks /\ In s (listed st g)) <-> In s (L a)) as Ok'.
  { intros s. split.
    - intros (g & [E|[E|[]]] & Hs); [discriminate|]. injection E as <-. now rewrite Ls in Hs.
    - intros Hs. exists a. rewrite Ls. unfold locks; cbn; auto. }
  apply (relisting begs locks body rl m'); auto.
  + intros e [<-|[]]; eauto.
  + intros e [<-|[<-|[]]]; eauto.
  + intros e [<-|[<-|[]]]; eauto.
  + intros e Hi. destruct (Bd _ Hi) as [Hp|(s & Hs & E)]; [left|right].
    * destruct (Fp _ Hp) as (g & v & V & _ & Hv). exists g. split; [exists v; auto|]. split; intros ->; cbn in V; congruence.
    * exists s. split; auto. now apply Ok'.
  + intros s Hs. apply Ok' in Hs. exists n. rewrite Ln'. unfold rl; cbn; auto.
  + intros s g. rewrite Ls. intros H1 H2. destruct (Nat.eq_dec g a) as [->|n1]; [right; left; auto|]. destruct (Nat.eq_dec g n) as [->|n2]; [rewrite Ln in H1; destruct H1|].
    rewrite Lo in H2 by auto. contradiction.
  + intros s g H1. rewrite Ok', Ls. destruct (Nat.eq_dec g n) as [->|n1]; [right; rewrite Ln' in H1; split; [left; auto|auto]|].
    destruct (Nat.eq_dec g a) as [->|n2]; [rewrite La' in H1; destruct H1|]. rewrite Lo in H1 by auto. auto.
  + intros s g Hs H1. apply Ok' in Hs. destruct (Nat.eq_dec g n) as [->|n1]; [left; auto|]. exfalso. destruct (Nat.eq_dec g a) as [->|n2]; [rewrite La' in H1; destruct H1|].
    rewrite Lo in H1 by auto. apply (mi_in _ _ _ _ _ _ I) in H1. apply (mi_in _ _ _ _ _ _ I) in Hs. congruence.
  + lia.
  + intros g [E|[E|[]]]; [|discriminate]. injection E as <-. fold n. split; auto. split; [lia|right; left; auto].
  + intros e g Hi [v V]. assert (g = a \/ g = n) as Hg.
    { rewrite Ee', !in_app_iff in Hi. destruct Hi as [Hi|[Hi|[Hi|Hi]]].
      - destruct Hi as [<-|[]]; discriminate.
      - destruct Hi as [<-|[<-|[]]]; cbn in V; injection V as <- <-; auto.
      - destruct (Bd _ Hi) as [Hp|(s & _ & [-> | ->])]; try discriminate. destruct (Fp _ Hp) as (k & v' & V' & Hk & _). congruence.
      - destruct Hi as [<-|[<-|[]]]; cbn in V; [injection V as <- <-; auto|discriminate]. }
    destruct Hg as [-> | ->]; [right; split; auto; left; auto|left; fold n; split; [auto|lia]].
  + intros e g v Hi V Hv. destruct (Bd _ Hi) as [Hp|(s & _ & [-> | ->])]; try discriminate. destruct (Fp _ Hp) as (k & v' & V' & Hk & _).
    assert (k = g) as <- by congruence. destruct Hk as [-> | ->]; [right; right; left; auto|left; auto].
  + intros b1 e b2 g E [v V]. rewrite Ee' in E.
    assert (g = a \/ g = n) as Hg.
    { assert (In e (begs ++ locks ++ body ++ rl)) as Hi by (rewrite E; apply in_or_app; right; left; auto).
      rewrite !in_app_iff in Hi. destruct Hi as [Hi|[Hi|[Hi|Hi]]].
      - destruct Hi as [<-|[]]; discriminate.
      - destruct Hi as [<-|[<-|[]]]; cbn in V; injection V as <- <-; auto.
      - destruct (Bd _ Hi) as [Hp|(s & _ & [-> | ->])]; try discriminate. destruct (Fp _ Hp) as (k & v' & V' & Hk & _). congruence.
      - destruct Hi as [<-|[<-|[]]]; cbn in V; [injection V as <- <-; auto|discriminate]. }
    set (C := [ELock n; ESig n false; ESig n false] ++ flat_map bl (L a)).
    assert (begs ++ locks ++ body ++ rl = [EBeg (OSig a) false; ESigNew n; ELock a; ESig a false; ESig a true; ESig n true] ++ EUnlock a :: C ++ rl) as E0 by reflexivity.
    rewrite E0 in E. clear E0. right.
    apply split_app in E. destruct E as [(c & Ec & ->)|(c & -> & Ec)].
    * right. destruct Hg as [-> | ->]; apply in_or_app; right; [left; auto|]. right. apply in_or_app. right. left. auto.
    * destruct c as [|x c]; cbn [app] in Ec.
      -- injection Ec as <- <-. cbn in V. injection V as <- <-. left. auto.
      -- injection Ec as _ Ec. change (C ++ rl = c ++ e :: b2) in Ec. apply split_app in Ec. destruct Ec as [(c' & Ec & ->)|(c' & -> & Ec)].
         ++ assert (In e C) as Hi by (rewrite Ec; apply in_or_app; right; left; auto).
            assert (g = n) as ->; [|right; apply in_or_app; right; left; auto].
            apply in_app_or in Hi. destruct Hi as [Hi|Hi].
            ** cbn in Hi. repeat destruct Hi as [<-|Hi]; try (cbn in V; congruence). destruct Hi.
            ** apply bl_in in Hi. destruct Hi as (s & _ & [-> | ->]); discriminate.
         ++ destruct c' as [|y [|z c']]; cbn in Ec; [injection Ec as <- <-|injection Ec as <- <- <-; discriminate|injection Ec as _ _ Ec; destruct c'; discriminate].
            cbn in V. injection V as <- <-. left. auto.
  + intros g Hg. rewrite c3. fold n. rewrite fupd_other by lia. auto.
  + intros s g C. rewrite c1 in C. unfold resend in C. fold n in C. destruct (in_dec Nat.eq_dec s (L a)) as [Ia|Ia].
    * injection C as <-. right. destruct (bl_split s (L a) Ia Na) as (x & y & Ex & Hy).
      exists (begs ++ locks ++ pre ++ x), (y ++ rl). split.
      { rewrite Ee'. unfold body. rewrite Ex. repeat rewrite <- app_assoc. cbn [app]. reflexivity. }
      split; [|right; right; left; auto]. intros e Hi. apply in_app_or in Hi. destruct Hi as [Hi|[<-|[<-|[]]]]; auto.
    * left. split; auto. intros e Hi Ov. destruct (Bd _ Hi) as [Hp|(k & Hk & [-> | ->])]; auto.
      -- destruct (Fp _ Hp) as (k & v & V & _). destruct e; try contradiction. discriminate.
      -- cbn in Ov. injection Ov as ->. contradiction.
Qed.
End Swap.
