(** What the operations on a list of slots access. *)
From Coq Require Import List Arith Bool Lia.
From Verif Require Import Base SignalModel SignalSpec SignalMemProofs SignalRelProofs SignalStepProofs SignalRunProofs.
From Verif Require Import SignalRaceModel SignalRaceEraseProofs SignalRaceSpec SignalRaceHbProofs SignalRaceInvProofs SignalRaceLightProofs SignalRaceUserProofs.
Import ListNotations.

(** Accesses to slot [s] under the lock. *)
Definition list_access (e : access) (s : nat) : Prop :=
  match e with
  | ENext k _ | EFree k => k = s
  | ERmw (Count k) _ _ => k = s
  | EStore (Sender k) o => k = s /\ releasing o = true
  | ELoad (Sender k) _ => k = s
  | _ => False
  end.

(** Accesses under the lock of [g] to the slots [P], of which [K] stay in the list;
    the others are released, and deleted when [Z] says no one else holds them.  The
    sender is stored only for [S]. *)
Record okb (g : nat) (Z S P K : nat -> Prop) (b : list access) : Prop := {
  ob_form : forall e, In e b -> (exists w, e = ESig g w) \/ exists s, P s /\ list_access e s;
  ob_sub : forall s, K s -> P s;
  ob_free : forall b1 s b2, b = b1 ++ EFree s :: b2 -> P s /\ ~ K s /\ Z s /\ exists b0 o, b1 = b0 ++ [ERmw (Count s) o Sub] /\ acquiring o = true;
  ob_left : forall b1 e b2 s, b = b1 ++ e :: b2 -> list_access e s -> e <> EFree s -> K s \/ dropped s (e :: b2);
  ob_out : forall s, P s -> K s \/ dropped s b;
  ob_store : forall s o, In (EStore (Sender s) o) b -> S s
}.

Lemma dropped_app s a b : dropped s a -> dropped s (a ++ b).
Proof. intros (o & Hi & Ho). exists o. split; auto. apply in_or_app. auto. Qed.
Lemma dropped_app' s a b : dropped s b -> dropped s (a ++ b).
Proof. intros (o & Hi & Ho). exists o. split; auto. apply in_or_app. auto. Qed.

Lemma split_app {T} (a b : list T) b1 e b2 : a ++ b = b1 ++ e :: b2 ->
  (exists c, a = b1 ++ e :: c /\ b2 = c ++ b) \/ exists c, b1 = a ++ c /\ b = c ++ e :: b2.
Proof.
  revert b1. induction a as [|x a IH]; intros b1 E; cbn in E.
  - right. exists b1. auto.
  - destruct b1 as [|y b1]; cbn in E; injection E as -> E.
    + left. exists a. auto.
    + destruct (IH _ E) as [(c & -> & ->)|(c & -> & ->)]; [left|right]; exists c; auto.
Qed.

Lemma okb_app g Z S P Q K a b : okb g Z S P Q a -> okb g Z S Q K b -> okb g Z S P K (a ++ b).
Proof.
  intros Oa Ob. constructor.
  - intros e Hi. apply in_app_or in Hi. destruct Hi as [Hi|Hi]; [apply (ob_form _ _ _ _ _ _ Oa _ Hi)|].
    destruct (ob_form _ _ _ _ _ _ Ob _ Hi) as [?|(s & Hs & A)]; auto. right. exists s. split; auto. apply (ob_sub _ _ _ _ _ _ Oa _ Hs).
  - intros s Hs. apply (ob_sub _ _ _ _ _ _ Oa), (ob_sub _ _ _ _ _ _ Ob), Hs.
  - intros b1 s b2 E. apply split_app in E. destruct E as [(c & E & ->)|(c & -> & E)].
    + destruct (ob_free _ _ _ _ _ _ Oa _ _ _ E) as (Hp & Hk & Hz & X). repeat split; auto. intros Hk'. apply Hk, (ob_sub _ _ _ _ _ _ Ob), Hk'.
    + destruct (ob_free _ _ _ _ _ _ Ob _ _ _ E) as (Hp & Hk & Hz & b0 & o & -> & Ho). repeat split; auto.
      * apply (ob_sub _ _ _ _ _ _ Oa), Hp.
      * exists (a ++ b0), o. rewrite app_assoc. auto.
  - intros b1 e b2 s E A NF. apply split_app in E. destruct E as [(c & E & ->)|(c & -> & E)].
    + destruct (ob_left _ _ _ _ _ _ Oa _ _ _ _ E A NF) as [Hq|D].
      * destruct (ob_out _ _ _ _ _ _ Ob _ Hq) as [Hk|D]; auto. right. apply (dropped_app' s (e :: c)), D.
      * right. apply (dropped_app s (e :: c)), D.
    + apply (ob_left _ _ _ _ _ _ Ob _ _ _ _ E A NF).
  - intros s Hp. destruct (ob_out _ _ _ _ _ _ Oa _ Hp) as [Hq|D]; [|right; now apply dropped_app].
    destruct (ob_out _ _ _ _ _ _ Ob _ Hq) as [Hk|D]; auto. right. now apply dropped_app'.
  - intros s o Hi. apply in_app_or in Hi. destruct Hi as [Hi|Hi]; [apply (ob_store _ _ _ _ _ _ Oa _ _ Hi)|apply (ob_store _ _ _ _ _ _ Ob _ _ Hi)].
Qed.
Lemma okb_nil g Z S P : okb g Z S P P [].
Proof.
  constructor; auto; try solve [intros ? []|intros ? ? []]; intros b1; destruct b1; discriminate.
Qed.
Lemma okb_iff g Z S P K P' K' b : okb g Z S P K b -> (forall s, P s <-> P' s) -> (forall s, K s <-> K' s) -> okb g Z S P' K' b.
Proof.
  intros O EP EK. constructor.
  - intros e Hi. destruct (ob_form _ _ _ _ _ _ O _ Hi) as [?|(s & Hs & A)]; auto. right. exists s. split; auto. now apply EP.
  - intros s Hs. apply EP, (ob_sub _ _ _ _ _ _ O), EK, Hs.
  - intros b1 s b2 E. destruct (ob_free _ _ _ _ _ _ O _ _ _ E) as (Hp & Hk & ?). rewrite <- EP, <- EK. auto.
  - intros b1 e b2 s E A NF. rewrite <- EK. apply (ob_left _ _ _ _ _ _ O _ _ _ _ E A NF).
  - intros s. rewrite <- EP, <- EK. apply (ob_out _ _ _ _ _ _ O).
  - apply (ob_store _ _ _ _ _ _ O).
Qed.
Lemma okb_to g Z S P K K' b : okb g Z S P K b -> (forall s, K s <-> K' s) -> okb g Z S P K' b.
Proof. intros O E. eapply okb_iff; eauto. reflexivity. Qed.
Lemma okb_same g Z S P b :
  Forall (fun e => (exists w, e = ESig g w) \/ exists s, P s /\ list_access e s) b ->
  Forall (fun e => match e with EFree _ => False | EStore (Sender s) _ => S s | _ => True end) b -> okb g Z S P P b.
Proof.
  intros F F'. rewrite Forall_forall in F, F'. constructor; auto.
  - intros b1 s b2 E. destruct (F' (EFree s)). rewrite E. apply in_or_app. right. left. auto.
  - intros b1 e b2 s E A NF. left. destruct (F e) as [(w & ->)|(k & Hk & A')].
    + rewrite E. apply in_or_app. right. left. auto.
    + destruct A.
    + assert (k = s) as <-; auto. destruct e; cbn in *; try contradiction; try congruence; destruct c; try contradiction; try congruence; destruct A, A'; congruence.
  - intros s o Hi. apply (F' _ Hi).
Qed.

Section Lists.
Variables (L : nat -> list nat) (H : nat -> option nat) (X B A : nat -> nat).
Let Z s := X s = 0.

Ltac open E a y F := apply lbind_ok in E; destruct E as (a & y & E & F).
Ltac forms := repeat (apply Forall_cons || apply Forall_nil); try solve [left; eauto | exact I | auto].

(** The slot leaves the list. *)
Lemma remove_okb (S : nat -> Prop) m g s pre post p :
  minv m L H X B A -> glive m g = true -> gact m g = 0 -> L g = pre ++ s :: post ->
  snd (lremove_slot kl_orders m g s (last_opt pre)) = Ok p ->
  okb g Z S (fun k => In k (L g)) (fun k => In k (pre ++ post)) (fst (lremove_slot kl_orders m g s (last_opt pre))).
Proof.
  intros I Hg Ha E Ep. assert (remove_slot m g s (last_opt pre) = Ok p) as Er by (rewrite <- Ep; symmetry; apply e_remove).
  destruct (remove_ok _ _ _ _ _ _ _ _ _ _ I Hg Ha E) as (m' & E' & I' & _). rewrite E' in Er. injection Er as <-.
  pose proof (mi_nodup _ _ _ _ _ _ I g) as N. rewrite E in N. pose proof (NoDup_remove_2 _ _ _ N) as N2.
  assert (In s (L g)) as Hs by (rewrite E; apply in_or_app; right; left; auto).
  assert (forall q, last_opt pre = Some q -> In q (L g)) as Hq.
  { intros q Eq. destruct (last_opt_some _ _ Eq) as [w Ew]. rewrite E, Ew. rewrite !in_app_iff. cbn. auto. }
  unfold lremove_slot in *. open Ep r G F. rewrite F. clear F. destruct (negb (Nat.eqb (g_active r) 0)); [discriminate|].
  open Ep x Gx F. rewrite F. clear F. open Ep m1 G1 F. rewrite F. clear F. open Ep r2 G2 F. rewrite F. clear F. open Ep m2 G3 F. rewrite F. clear F.
  open Ep m3 G4 F. rewrite F. clear F. cbn in Ep. injection Ep as -> _.
  apply release_run in G4. destruct G4 as [G4 ->]. cbn [fst ret]. rewrite app_nil_r.
  set (mid := match last_opt pre with Some q => lset_next m q (s_next x) | None => if is_slot (g_head r) s then lset_head m g (s_next x) else ret m end) in *.
  set (fin := if is_slot (g_tail r2) s then lset_tail m1 g match last_opt pre with Some q => Some q | None => g_head r2 end else ret m1) in *.
  rewrite !app_assoc. apply okb_app with (Q := fun k => In k (L g)).
  - apply okb_same.
    + rewrite !Forall_app. repeat split; cbn; forms.
      * right. exists s. split; [auto|reflexivity].
      * unfold mid. destruct (last_opt pre) as [q|] eqn:El; [|destruct (is_slot (g_head r) s)]; cbn; forms.
        right. exists q. split; [auto|reflexivity].
      * unfold fin. destruct (is_slot (g_tail r2) s); cbn; forms.
    + rewrite !Forall_app. repeat split; cbn; forms.
      * unfold mid. destruct (last_opt pre) as [q|] eqn:El; [|destruct (is_slot (g_head r) s)]; cbn; forms.
      * unfold fin. destruct (is_slot (g_tail r2) s); cbn; forms.
  - destruct (release_mild _ _ _ G4) as (_ & Hpos & Hr & _ & _).
    assert (refs m2 s = 1 -> Z s) as Hz.
    { intros E1. unfold Z. pose proof (mi_refs _ _ _ _ _ _ I' s) as Er. rewrite Hr, Nat.eqb_refl in Er. lia. }
    assert (dropped s (ERmw (Count s) AcqRel Sub :: (if Nat.eqb (refs m2 s) 1 then [EFree s] else []))) as D by (exists AcqRel; split; [left|]; auto).
    constructor.
    + intros e [<-|Hi]; right; exists s; split; auto; [reflexivity|]. destruct (Nat.eqb (refs m2 s) 1); [|destruct Hi].
      destruct Hi as [<-|[]]. reflexivity.
    + intros k Hk. rewrite E. rewrite in_app_iff in *. cbn. tauto.
    + intros b1 k b2 Eb. destruct (Nat.eqb_spec (refs m2 s) 1) as [E1|E1].
      * destruct b1 as [|y [|y' b1]]; cbn in Eb; [discriminate| |destruct b1; discriminate]. injection Eb as <- <- <-.
        split; auto. split; auto. split; auto. exists [], AcqRel. auto.
      * destruct b1 as [|y [|y' b1]]; cbn in Eb; discriminate.
    + intros b1 e b2 k Eb Ae NF. destruct b1 as [|y b1]; cbn in Eb; injection Eb as <- Eb.
      * cbn in Ae. subst k. right. exists AcqRel. split; [left|]; auto.
      * destruct (Nat.eqb (refs m2 s) 1); [|destruct b1; discriminate]. destruct b1 as [|? [|? ?]]; [|discriminate|discriminate]. injection Eb as <- <-.
        cbn in Ae. subst k. destruct NF. reflexivity.
    + intros k Hk. rewrite E in Hk. rewrite in_app_iff in *. cbn in Hk. destruct Hk as [Hk|[<-|Hk]]; auto.
    + intros k o [Hi|Hi]; [discriminate|]. destruct (Nat.eqb (refs m2 s) 1); [|destruct Hi]. destruct Hi as [Hi|[]]. discriminate.
Qed.

End Lists.

Ltac open E a y F := apply lbind_ok in E; destruct E as (a & y & E & F).
Ltac forms := repeat (apply Forall_cons || apply Forall_nil); try solve [left; eauto | exact I | auto].

Lemma read_okb g Z S (P : nat -> Prop) b :
  Forall (fun e => match e with ESig k _ => k = g | ENext s _ => P s | ELoad (Sender s) _ => P s | ERmw (Count s) _ Add => P s | _ => False end) b -> okb g Z S P P b.
Proof.
  intros F. apply okb_same; rewrite Forall_forall in *; intros e Hi; specialize (F e Hi); destruct e; try contradiction; auto.
  - right. exists s. split; [auto|reflexivity].
  - destruct c; try contradiction. right. exists s. split; [auto|reflexivity].
  - destruct c; try contradiction. destruct f; try contradiction. right. exists s. split; [auto|reflexivity].
  - subst. left. eauto.
Qed.
Lemma store_okb g Z (S P : nat -> Prop) s : P s -> S s -> okb g Z S P P [EStore (Sender s) Release].
Proof. intros Hp Hs. apply okb_same; forms. right. exists s. repeat split; auto. Qed.

Lemma disconnect_okb m L H X B A g id m' :
  minv m L H X B A -> glive m g = true ->
  forall rest pre fuel, L g = pre ++ rest -> ~ In id pre -> 
  snd (ldisconnect_loop kl_orders fuel m g id (hd_opt rest) (last_opt pre)) = Ok m' ->
  okb g (fun s => X s = 0) (fun s => s = id) (fun k => In k (L g)) (fun k => In k (L g) /\ (k = id -> gact m g <> 0))
    (fst (ldisconnect_loop kl_orders fuel m g id (hd_opt rest) (last_opt pre))).
Proof.
  intros I Hg. induction rest as [|i rest IH]; intros pre fuel E Hni Er.
  - destruct fuel as [|fuel]; [discriminate|]. cbn. eapply okb_to; [apply okb_nil|]. cbn. intros s. split; [|tauto].
    intros Hs. split; auto. intros ->. rewrite E, app_nil_r in Hs. contradiction.
  - destruct fuel as [|fuel]; [discriminate|]. cbn [ldisconnect_loop hd_opt] in *.
    assert (In i (L g)) as Hi by (rewrite E; apply in_or_app; right; left; auto).
    assert (0 < refs m i) as Hp by (eapply minv_in_refs; eauto).
    destruct (Nat.eqb_spec i id) as [-> | n].
    + destruct (rebind_ok _ _ _ _ _ _ id None I Hp) as (m1 & E1 & I1 & S1).
      open Er m1' G F. rewrite F. clear F. cbn in G. rewrite E1 in G. injection G as <-.
      assert (glive m1 g = true) as Hg1 by (rewrite (sb_glive _ _ _ S1); auto).
      assert (gact m1 g = gact m g) as Ea by (rewrite (mi_act _ _ _ _ _ _ I1), (mi_act _ _ _ _ _ _ I); auto).
      open Er r G F. rewrite F. clear F. cbn [lsig log snd] in G. rewrite (get_sig_ok _ _ Hg1) in G. injection G as <-. cbn [g_active] in *. rewrite Ea in *.
      apply okb_app with (Q := fun k => In k (L g)); [now apply store_okb|].
      apply okb_app with (Q := fun k => In k (L g)); [apply read_okb; cbn; forms|].
      destruct (Nat.eqb_spec (gact m g) 0) as [e|e].
      * open Er p G F. rewrite F. clear F Er. cbn [fst ret]. rewrite app_nil_r.
        eapply okb_to; [eapply (remove_okb L H X B A _ m1 g id pre rest); eauto; congruence|].
        cbn. intros s. pose proof (mi_nodup _ _ _ _ _ _ I g) as N. rewrite E in N. pose proof (NoDup_remove_2 _ _ _ N) as N2.
        rewrite E. rewrite in_app_iff in N2. rewrite !in_app_iff. cbn. split.
        -- intros Hs. split; [tauto|]. intros ->. contradiction.
        -- intros [[Hs|[Hs|Hs]] Hn]; auto. subst. destruct Hn; auto.
      * eapply okb_to; [apply read_okb; cbn; forms|]. cbn. intros s. split; [intros; split; auto|tauto].
    + open Er x G F. rewrite F. clear F. cbn [lnext log snd] in G. rewrite (get_slot_ok _ _ (mi_wf _ _ _ _ _ _ I) Hp) in G. injection G as <-. cbn [s_next] in *.
      pose proof (mi_chain _ _ _ _ _ _ I g) as C. rewrite E in C. destruct (chain_next _ _ _ _ _ C) as [En _]. rewrite En in *.
      rewrite <- (last_opt_app pre i) in *.
      apply okb_app with (Q := fun k => In k (L g)); [apply read_okb; cbn; forms|].
      apply IH; auto.
      * rewrite <- app_assoc. exact E.
      * rewrite in_app_iff. cbn. intuition.
Qed.

Lemma all_remove_okb g X B A : forall rest fuel m L H m',
  minv m L H X B A -> glive m g = true -> gact m g = 0 -> L g = rest ->
  snd (ldisconnect_all_loop kl_orders fuel m g true (hd_opt rest) None) = Ok m' ->
  okb g (fun s => X s = 0) (fun s => True) (fun k => In k rest) (fun k => False) (fst (ldisconnect_all_loop kl_orders fuel m g true (hd_opt rest) None)).
Proof.
  induction rest as [|i rest IH]; intros fuel m L H m' I Hg Ha E Er.
  - destruct fuel as [|fuel]; [discriminate|]. cbn. apply okb_nil.
  - destruct fuel as [|fuel]; [discriminate|]. cbn [ldisconnect_all_loop hd_opt] in *.
    assert (In i (L g)) as Hi by (rewrite E; left; auto).
    assert (0 < refs m i) as Hp by (eapply minv_in_refs; eauto).
    destruct (rebind_ok _ _ _ _ _ _ i None I Hp) as (m1 & E1 & I1 & S1).
    open Er m1' G F. rewrite F. clear F. cbn in G. rewrite E1 in G. injection G as <-.
    assert (glive m1 g = true) as Hg1 by (rewrite (sb_glive _ _ _ S1); auto).
    assert (gact m1 g = 0) as Ha1 by (rewrite (mi_act _ _ _ _ _ _ I1), <- (mi_act _ _ _ _ _ _ I); auto).
    apply okb_app with (Q := fun k => In k (i :: rest)); [apply store_okb; [left|]; auto|].
    open Er p G F. rewrite F. clear F.
    assert (L g = [] ++ i :: rest) as E' by exact E.
    pose proof (remove_okb L H X B A (fun _ => True) m1 g i [] rest p I1 Hg1 Ha1 E' G) as O. rewrite e_remove in G.
    destruct (remove_ok m1 L H X B A g i [] rest I1 Hg1 Ha1 E') as (m2 & E2 & I2 & S2). change (last_opt []) with (@None nat) in *. rewrite E2 in G. injection G as <-.
    cbn [fst snd app] in *. rewrite E in O.
    eapply okb_app; [exact O|]. eapply IH; [exact I2| | | |exact Er].
    + rewrite (sm_glive _ _ S2); auto.
    + rewrite (mi_act _ _ _ _ _ _ I2), <- (mi_act _ _ _ _ _ _ I1); auto.
    + apply fupd_same.
Qed.

Lemma all_defer_okb g X B A : forall rest pre fuel m L H m',
  minv m L H X B A -> glive m g = true -> L g = pre ++ rest ->
  snd (ldisconnect_all_loop kl_orders fuel m g false (hd_opt rest) (last_opt pre)) = Ok m' ->
  okb g (fun s => X s = 0) (fun s => True) (fun k => In k (L g)) (fun k => In k (L g)) (fst (ldisconnect_all_loop kl_orders fuel m g false (hd_opt rest) (last_opt pre))).
Proof.
  induction rest as [|i rest IH]; intros pre fuel m L H m' I Hg E Er.
  - destruct fuel as [|fuel]; [discriminate|]. cbn. apply okb_nil.
  - destruct fuel as [|fuel]; [discriminate|]. cbn [ldisconnect_all_loop hd_opt] in *.
    assert (In i (L g)) as Hi by (rewrite E; apply in_or_app; right; left; auto).
    assert (0 < refs m i) as Hp by (eapply minv_in_refs; eauto).
    destruct (rebind_ok _ _ _ _ _ _ i None I Hp) as (m1 & E1 & I1 & S1).
    open Er m1' G F. rewrite F. clear F. cbn in G. rewrite E1 in G. injection G as <-.
    assert (glive m1 g = true) as Hg1 by (rewrite (sb_glive _ _ _ S1); auto).
    destruct (set_deferred_ok m1 L H X B A g true I1 Hg1) as (m2 & E2 & I2 & S2).
    open Er m2' G F. rewrite F. clear F. cbn in G. rewrite E2 in G. injection G as <-.
    assert (0 < refs m2 i) as Hp2 by (eapply minv_in_refs; eauto).
    open Er x G F. rewrite F. clear F. cbn [lnext log snd] in G. rewrite (get_slot_ok _ _ (mi_wf _ _ _ _ _ _ I2) Hp2) in G. injection G as <-. cbn [s_next] in *.
    pose proof (mi_chain _ _ _ _ _ _ I2 g) as C. rewrite E in C. destruct (chain_next _ _ _ _ _ C) as [En _]. rewrite En in *.
    rewrite <- (last_opt_app pre i) in *.
    apply okb_app with (Q := fun k => In k (L g)); [now apply store_okb|].
    apply okb_app with (Q := fun k => In k (L g)); [apply read_okb; cbn; forms|].
    apply okb_app with (Q := fun k => In k (L g)); [apply read_okb; cbn; forms|].
    eapply IH; [exact I2| | |exact Er].
    + rewrite (sd_glive _ _ _ S2). auto.
    + rewrite <- app_assoc. exact E.
Qed.

Lemma num_okb g X B A : forall rest pre fuel m L H k n,
  minv m L H X B A -> L g = pre ++ rest -> snd (lnum_slots_loop kl_orders fuel m (hd_opt rest) k) = Ok n ->
  okb g (fun s => X s = 0) (fun s => False) (fun k => In k (L g)) (fun k => In k (L g)) (fst (lnum_slots_loop kl_orders fuel m (hd_opt rest) k)).
Proof.
  induction rest as [|i rest IH]; intros pre fuel m L H k n I E Er.
  - destruct fuel as [|fuel]; [discriminate|]. cbn. apply okb_nil.
  - destruct fuel as [|fuel]; [discriminate|]. cbn [lnum_slots_loop hd_opt] in *.
    assert (In i (L g)) as Hi by (rewrite E; apply in_or_app; right; left; auto).
    assert (0 < refs m i) as Hp by (eapply minv_in_refs; eauto).
    open Er u G F. rewrite F. clear F G. open Er x G F. rewrite F. clear F.
    cbn [lnext log snd] in G. rewrite (get_slot_ok _ _ (mi_wf _ _ _ _ _ _ I) Hp) in G. injection G as <-. cbn [s_next] in *.
    pose proof (mi_chain _ _ _ _ _ _ I g) as C. rewrite E in C. destruct (chain_next _ _ _ _ _ C) as [En _]. rewrite En in *.
    apply okb_app with (Q := fun k => In k (L g)); [apply read_okb; cbn; forms|].
    apply okb_app with (Q := fun k => In k (L g)); [apply read_okb; cbn; forms|].
    eapply (IH (pre ++ [i])); [exact I| |exact Er]. rewrite <- app_assoc. exact E.
Qed.

Lemma cleanup_loop_okb g X B A : forall rest pre fuel m L H m',
  minv m L H X B A -> glive m g = true -> gact m g = 0 -> L g = pre ++ rest -> (forall s, In s pre -> connected m s = true) ->
  snd (lcleanup_loop kl_orders fuel m g (hd_opt rest) (last_opt pre)) = Ok m' ->
  okb g (fun s => X s = 0) (fun s => False) (fun k => In k (L g)) (fun k => In k (L g) /\ connected m k = true)
    (fst (lcleanup_loop kl_orders fuel m g (hd_opt rest) (last_opt pre))).
Proof.
  induction rest as [|i rest IH]; intros pre fuel m L H m' I Hg Ha E Hc Er.
  - destruct fuel as [|fuel]; [discriminate|]. cbn. eapply okb_to; [apply okb_nil|]. cbn. intros s. split; [|tauto].
    intros Hs. split; auto. rewrite E, app_nil_r in Hs. auto.
  - destruct fuel as [|fuel]; [discriminate|]. cbn [lcleanup_loop hd_opt] in *.
    assert (In i (L g)) as Hi by (rewrite E; apply in_or_app; right; left; auto).
    assert (0 < refs m i) as Hp by (eapply minv_in_refs; eauto).
    open Er x G F. rewrite F. clear F. cbn [log snd] in G. rewrite (get_slot_ok _ _ (mi_wf _ _ _ _ _ _ I) Hp) in G. injection G as <-.
    apply okb_app with (Q := fun k => In k (L g)); [apply read_okb; cbn; forms|].
    unfold valid in *. cbn [s_sender] in *. destruct (conn m i) as [c|] eqn:Eci.
    + open Er x G F. rewrite F. clear F. cbn [lnext log snd] in G. rewrite (get_slot_ok _ _ (mi_wf _ _ _ _ _ _ I) Hp) in G. injection G as <-. cbn [s_next] in *.
      pose proof (mi_chain _ _ _ _ _ _ I g) as C. rewrite E in C. destruct (chain_next _ _ _ _ _ C) as [En _]. rewrite En in *.
      rewrite <- (last_opt_app pre i) in *.
      apply okb_app with (Q := fun k => In k (L g)); [apply read_okb; cbn; forms|].
      eapply IH; [exact I|exact Hg|exact Ha| | |exact Er].
      * rewrite <- app_assoc. exact E.
      * intros s. rewrite in_app_iff. intros [Hs|[<- |[]]]; auto. unfold connected. now rewrite Eci.
    + open Er p G F. rewrite F. clear F.
      pose proof (remove_okb L H X B A (fun _ => False) m g i pre rest p I Hg Ha E G) as O. rewrite e_remove in G.
      destruct (remove_ok m L H X B A g i pre rest I Hg Ha E) as (m2 & E2 & I2 & S2). rewrite E2 in G. injection G as <-.
      cbn [fst snd] in *.
      assert (forall s, connected m2 s = connected m s) as Ecs by (intros s; unfold connected; now rewrite (sm_conn _ _ S2)).
      eapply okb_app; [exact O|]. eapply okb_iff; [eapply IH; [exact I2| | | | |exact Er]| |].
      * rewrite (sm_glive _ _ S2); auto.
      * rewrite (mi_act _ _ _ _ _ _ I2), <- (mi_act _ _ _ _ _ _ I); auto.
      * apply fupd_same.
      * intros s Hs. rewrite Ecs. auto.
      * intros s. now rewrite fupd_same.
      * intros s. rewrite fupd_same, Ecs, E. rewrite !in_app_iff. cbn. split; [tauto|]. intros [[Hs|[<-|Hs]] Hn]; auto.
        unfold connected in Hn. rewrite Eci in Hn. discriminate.
Qed.

(** Cleaning up, whether or not there is something to do. *)
Lemma cleanup_okb g X B A m L H m' :
  minv m L H X B A -> glive m g = true -> gact m g = 0 -> snd (lcleanup kl_orders m g) = Ok m' ->
  okb g (fun s => X s = 0) (fun s => False) (fun k => In k (L g)) (fun k => In k (L g) /\ (gdfr m g = true -> connected m k = true)) (fst (lcleanup kl_orders m g)).
Proof.
  intros I Hg Ha Er. unfold lcleanup in *. open Er r G F. rewrite F. clear F. cbn [lsig log snd] in G. rewrite (get_sig_ok _ _ Hg) in G. injection G as <-.
  cbn [g_deferred g_active g_head] in *. apply okb_app with (Q := fun k => In k (L g)); [apply read_okb; cbn; forms|].
  destruct (gdfr m g) eqn:Ed; cbn [negb] in *.
  2: { cbn. eapply okb_to; [apply okb_nil|]. cbn. intros s. split; [intros; split; auto; discriminate|tauto]. }
  rewrite Ha in *. cbn [Nat.eqb negb] in *. rewrite (chain_hd _ _ _ (mi_chain _ _ _ _ _ _ I g)) in *.
  open Er m1 G F. rewrite F. clear F Er. eapply okb_app; [|apply read_okb; cbn; forms].
  change (@None nat) with (last_opt (@nil nat)) in *.
  eapply okb_to; [eapply (cleanup_loop_okb g X B A (L g) []); eauto; intros ? []|]. cbn. intros s. tauto.
Qed.
