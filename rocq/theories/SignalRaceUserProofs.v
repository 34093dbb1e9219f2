(** The user's operations that take no lock are sound. *)
From Coq Require Import List Arith Bool Lia.
From Verif Require Import Base SignalModel SignalSpec SignalMemProofs SignalRelProofs SignalStepProofs SignalRunProofs.
From Verif Require Import SignalRaceModel SignalRaceEraseProofs SignalRaceSpec SignalRaceHbProofs SignalRaceInvProofs SignalRaceLightProofs.
Import ListNotations.

Lemma nth_snoc {T} (l : list T) x k : nth_error (l ++ [x]) k = if Nat.eqb k (length l) then Some x else nth_error l k.
Proof.
  destruct (Nat.eqb_spec k (length l)) as [->|n].
  - rewrite nth_error_app2 by lia. now rewrite Nat.sub_diag.
  - destruct (le_lt_dec (length l) k) as [l0|l0]; [|now rewrite nth_error_app1].
    rewrite nth_error_app2 by lia. destruct (k - length l) as [|j] eqn:E; [lia|]. cbn.
    transitivity (@None T); [destruct j; auto|symmetry; now apply nth_error_None].
Qed.
Lemma tok_snoc (l : list (option nat)) c k s : nth_error (l ++ [c]) k = Some (Some s) <-> k = length l /\ c = Some s \/ nth_error l k = Some (Some s).
Proof.
  rewrite nth_snoc. destruct (Nat.eqb_spec k (length l)) as [->|n].
  - assert (nth_error l (length l) = None) as N by (apply nth_error_None; lia). rewrite N. split; [intros [= ->]; auto|intros [[_ ->]|]; [auto|discriminate]].
  - split; auto. intros [[? _]|]; [contradiction|auto].
Qed.
Lemma tok_upd (l : list (option nat)) h c c' k s : nth_error l h = Some c ->
  (nth_error (upd l h c') k = Some (Some s) <-> k = h /\ c' = Some s \/ k <> h /\ nth_error l k = Some (Some s)).
Proof.
  intros E. rewrite nth_upd by (apply nth_error_Some; congruence). destruct (Nat.eqb_spec k h) as [->|n].
  - split; [intros [= ->]; auto|intros [[_ ->]|[? _]]; [auto|contradiction]].
  - split; auto. intros [[? _]|[_ ?]]; [contradiction|auto].
Qed.

(** The two conditions on the body, computed along it. *)
Fixpoint frees (m' : mem) (prev : option access) (b : list access) : Prop :=
  match b with
  | [] => True
  | e :: b2 =>
      match e with
      | EFree s => refs m' s = 0 /\ match prev with Some (ERmw (Count k) o Sub) => k = s /\ acquiring o = true | _ => False end
      | _ => True
      end /\ frees m' (Some e) b2
  end.
Fixpoint lefts (m' : mem) (lf : nat -> Prop) (b : list access) : Prop :=
  match b with
  | [] => True
  | e :: b2 => (forall s, light_access e s -> 0 < refs m' s -> lf s \/ dropped s (e :: b2)) /\ lefts m' lf b2
  end.
Lemma frees_at m' : forall b prev b1 s b2, frees m' prev b -> b = b1 ++ EFree s :: b2 ->
  refs m' s = 0 /\ ((b1 = [] /\ exists o, prev = Some (ERmw (Count s) o Sub) /\ acquiring o = true) \/
    exists b0 o, b1 = b0 ++ [ERmw (Count s) o Sub] /\ acquiring o = true).
Proof.
  induction b as [|e b IH]; intros prev b1 s b2 F E; [destruct b1; discriminate|]. cbn in F. destruct F as [Fe F].
  destruct b1 as [|x b1]; cbn in E; injection E as -> Eb.
  - destruct Fe as [Z P]. split; auto. left. split; auto. destruct prev as [p|]; [|contradiction].
    destruct p; try contradiction. destruct c, f; try contradiction. destruct P as [-> Ha]. eauto.
  - destruct (IH _ _ _ _ F Eb) as [Z [[-> (o & Eo & Ha)]|(b0 & o & -> & Ha)]]; split; auto; right.
    + injection Eo as ->. exists [], o. auto.
    + exists (x :: b0), o. auto.
Qed.
Lemma frees_ok m' b : frees m' None b -> forall b1 s b2, b = b1 ++ EFree s :: b2 ->
  refs m' s = 0 /\ exists b0 o, b1 = b0 ++ [ERmw (Count s) o Sub] /\ acquiring o = true.
Proof. intros F b1 s b2 E. destruct (frees_at _ _ _ _ _ _ F E) as [Z [[_ (o & Eo & _)]|X]]; [discriminate|auto]. Qed.
Lemma lefts_ok m' lf : forall b, lefts m' lf b -> forall b1 e b2 s, b = b1 ++ e :: b2 -> light_access e s -> 0 < refs m' s -> lf s \/ dropped s (e :: b2).
Proof.
  induction b as [|x b IH]; intros F b1 e b2 s E A Hp; [destruct b1; discriminate|]. destruct F as [Fe F].
  destruct b1 as [|y b1]; cbn in E; injection E as -> Eb; [subst; auto|]. eauto.
Qed.

Lemma eta st : st = mkstate (mm st) (threads st) (handles st) (blockers st) (lost st) (fresh st).
Proof. destruct st; reflexivity. Qed.

Definition sound (st st' : state) (t : nat) (es : list access) : Prop :=
  exists begs locks body rl, es = begs ++ locks ++ body ++ rl /\ sound_step st st' t begs locks body rl.

Lemma lbind_ok {T U} (x : logged T) (k : T -> logged U) b : snd (lbind x k) = Ok b ->
  exists a, snd x = Ok a /\ snd (k a) = Ok b /\ fst (lbind x k) = fst x ++ fst (k a).
Proof. unfold lbind. destruct (snd x) as [a| |]; try discriminate. intros E. exists a. auto. Qed.
Lemma ldone_ok {T} (x : logged T) k es st' r : ldone x k = (es, Next st' r) -> exists a, snd x = Ok a /\ k a = Next st' r /\ es = fst x.
Proof. unfold ldone, lift. intros E. injection E as <- E. destruct (snd x) as [a| |]; try discriminate. eauto. Qed.
Lemma with_ok {T} b w (x : logged T) a : snd (with_obj b w x) = Ok a -> snd x = Ok a /\ fst (with_obj b w x) = EBeg b w :: fst x ++ [EFin b w].
Proof.
  unfold with_obj, lbind, log, ret. cbn. destruct (snd x) as [c| |]; cbn; try discriminate. intros [= ->]. auto.
Qed.
Lemma then_ok {T} (l : list access) (a b : T) : snd (lbind (log l (Ok tt)) (fun _ => ret a)) = Ok b -> a = b /\ fst (lbind (log l (Ok tt)) (fun _ => ret a)) = l.
Proof. cbn. rewrite app_nil_r. intros [= ->]. auto. Qed.
Lemma release_run m s m' : snd (lrelease kl_orders m s) = Ok m' ->
  release m s = Ok m' /\ fst (lrelease kl_orders m s) = ERmw (Count s) AcqRel Sub :: (if Nat.eqb (refs m s) 1 then [EFree s] else []).
Proof.
  intros E. rewrite e_release in E. split; auto. destruct (release_mild _ _ _ E) as (_ & _ & _ & [x G] & _).
  unfold lrelease, lbind, pure, log. cbn. rewrite G. cbn. destruct (get_slot_at _ _ _ G) as (_ & _ & _ & ->). reflexivity.
Qed.

Section Ops.
Variables (st st' : state) (i i' : ideal) (L L' : nat -> list nat) (H H' : nat -> option nat).
Hypothesis R : rel st i L H.
Hypothesis R' : rel st' i' L' H'.
Variables (t : nat) (th : thread) (es : list access) (r : obs).
Hypothesis Et : nth_error (threads st) t = Some th.

Lemma light_is begs body rl : es = begs ++ body ++ rl -> light st st' t begs body rl -> sound st st' t es.
Proof. intros -> Q. exists begs, [], body, rl. split; auto. eapply light_sound; eauto. Qed.

(** Operations on the tables alone: the threads and what is lost stay. *)
Lemma table_light begs body rl hs bs m' :
  st' = mkstate m' (threads st) hs bs (lost st) (fresh st) ->
  Forall (fun e => exists b w, e = EBeg b w) begs -> Forall (fun e => exists b w, e = EFin b w) rl ->
  mild (mm st) m' ->
  Forall (fun e => exists s, light_access e s /\ right st t begs [] s) body ->
  frees m' None body -> lefts m' (left_at st' t rl) body ->
  (forall s h, tok_h st h s -> ~ nth_error hs h = Some (Some s) -> In (EBeg (OConn h) true) begs /\ (left_at st' t rl s \/ dropped s body)) ->
  (forall s b, tok_b st b s -> ~ nth_error bs b = Some (Some s) -> In (EBeg (OBlocker b) true) begs /\ (left_at st' t rl s \/ dropped s body)) ->
  (forall s h, nth_error hs h = Some (Some s) -> tok_h st h s \/ In (EFin (OConn h) true) rl /\ right st t begs [] s) ->
  (forall s b, nth_error bs b = Some (Some s) -> tok_b st b s \/ In (EFin (OBlocker b) true) rl /\ right st t begs [] s) ->
  light st st' t begs body rl.
Proof.
  intros E B1 B2 M Bd F Lf Oh Ob Ih Ib.
  assert (forall u s, tok_t st' u s <-> tok_t st u s) as Tt by (intros u s; rewrite E; reflexivity).
  rewrite Forall_forall in B1, B2, Bd. constructor; auto.
  - now rewrite E.
  - rewrite E. now apply frees_ok.
  - rewrite E in *. now apply lefts_ok.
  - intros s h Th Tn. apply Oh; auto. intros En. apply Tn. unfold tok_h. rewrite E. exact En.
  - intros s b Th Tn. apply Ob; auto. intros En. apply Tn. unfold tok_b. rewrite E. exact En.
  - intros s T1 T2. destruct T2. now apply Tt.
  - intros u _. now rewrite E.
  - intros s. now rewrite E.
  - intros s. rewrite E. auto.
  - intros s h T1. unfold tok_h in T1. rewrite E in T1. auto.
  - intros s h T1. unfold tok_b in T1. rewrite E in T1. auto.
  - intros s T1. right. right. right. now apply Tt.
  - intros g Bu. left. now rewrite E in Bu.
Qed.


Ltac inl := repeat (apply Forall_cons || apply Forall_nil); try solve [eauto].
Ltac here := solve [cbn; auto 8].
Ltac by_h h := right; left; exists h; eexists; split; [here|first [assumption|subst; assumption]].
Ltac by_b b := right; right; left; exists b; eexists; split; [here|first [assumption|subst; assumption]].
Ltac ends E1 := cbn [fst snd log ret app]; rewrite ?E1; cbn [app]; rewrite ?app_nil_r; try reflexivity.
(** Tables that lost nothing and gained nothing. *)
Ltac same_table := solve [intros ? ? ? N; destruct N; assumption | intros ? ? N; left; exact N].
Ltac at_h h := right; left; exists h; eexists; split; [here|subst st'; unfold tok_h; cbn].
Ltac at_b b := right; right; left; exists b; eexists; split; [here|subst st'; unfold tok_b; cbn].
Ltac goes := solve [right; exists AcqRel; split; [cbn; auto 8|reflexivity]].

(** [release] of [s], then perhaps [add_ref] of another. *)
Lemma freed_stays m s m1 k m2 : release m s = Ok m1 -> add_ref m1 k = Ok m2 -> refs m s = 1 -> refs m2 s = 0.
Proof.
  intros E1 E2 Z. destruct (release_mild _ _ _ E1) as (_ & _ & Q1 & _ & U). destruct (add_ref_mild _ _ _ E2) as (_ & Q2 & [x G]).
  rewrite Q2. destruct (Nat.eqb_spec s k) as [->|n].
  - rewrite U in G by auto. discriminate.
  - rewrite Q1, Nat.eqb_refl. lia.
Qed.
Lemma freed m s m1 : release m s = Ok m1 -> refs m s = 1 -> refs m1 s = 0.
Proof. intros E1 Z. destruct (release_mild _ _ _ E1) as (_ & _ & Q1 & _). rewrite Q1, Nat.eqb_refl. lia. Qed.

Definition released (m : mem) (o : option nat) : list access :=
  match o with Some s => ERmw (Count s) AcqRel Sub :: (if Nat.eqb (refs m s) 1 then [EFree s] else []) | None => [] end.
Definition added (o : option nat) : list access := match o with Some s => [ERmw (Count s) Relaxed Add] | None => [] end.
Definition blocking (o : option nat) (f : change) : list access := match o with Some s => [ERmw (Blocking s) Relaxed f] | None => [] end.

Lemma release_opt_run m o m' : snd (lrelease_opt kl_orders m o) = Ok m' -> release_opt m o = Ok m' /\ fst (lrelease_opt kl_orders m o) = released m o.
Proof. destruct o as [s|]; cbn [lrelease_opt]; [apply release_run|]. cbn. auto. Qed.
Lemma add_opt_run m o m' : snd (ladd_ref_opt kl_orders m o) = Ok m' -> add_ref_opt m o = Ok m' /\ fst (ladd_ref_opt kl_orders m o) = added o.
Proof. destruct o as [s|]; cbn; auto. Qed.
Lemma block_opt_run m o m' : snd (lblock_opt kl_orders m o) = Ok m' -> block_opt m o = Ok m' /\ fst (lblock_opt kl_orders m o) = blocking o Add.
Proof. destruct o as [s|]; cbn; auto. Qed.
Lemma unblock_opt_run m o m' : snd (lunblock_opt kl_orders m o) = Ok m' -> unblock_opt m o = Ok m' /\ fst (lunblock_opt kl_orders m o) = blocking o Sub.
Proof. destruct o as [s|]; cbn; auto. Qed.

Lemma add_opt_mild m o m' : add_ref_opt m o = Ok m' -> mild m m' /\ (forall s, refs m s <= refs m' s) /\ (forall s, refs m s = 0 -> get_slot m s = UB -> refs m' s = 0).
Proof.
  destruct o as [k|]; cbn; [|intros [= ->]; auto using mild_refl]. intros E. destruct (add_ref_mild _ _ _ E) as (M & Q & [x G]). split; auto.
  split; intros s; rewrite Q; destruct (Nat.eqb_spec s k) as [->|]; try lia. intros _ U. congruence.
Qed.
Lemma release_opt_mild m o m' : release_opt m o = Ok m' -> mild m m' /\ (forall s, o = Some s -> refs m s = 1 -> refs m' s = 0 /\ get_slot m' s = UB).
Proof.
  destruct o as [k|]; cbn; [|intros [= ->]; split; auto using mild_refl; discriminate]. intros E. destruct (release_mild _ _ _ E) as (M & _ & Q & _ & U).
  split; auto. intros s [= ->] Z. split; auto. rewrite Q, Nat.eqb_refl. lia.
Qed.
Lemma block_opt_mild m o m' : block_opt m o = Ok m' -> mild m m' /\ (forall k, refs m' k = refs m k).
Proof. destruct o as [k|]; cbn; [apply block_mild|intros [= ->]; auto using mild_refl]. Qed.
Lemma unblock_opt_mild m o m' : unblock_opt m o = Ok m' -> mild m m' /\ (forall k, refs m' k = refs m k).
Proof. destruct o as [k|]; cbn; [apply unblock_mild|intros [= ->]; auto using mild_refl]. Qed.

Lemma s_copy h : luser_step kl_orders st t th (UCopy h) = (es, Next st' r) -> sound st st' t es.
Proof.
  intros E. cbn [luser_step] in E. destruct (nth_error (handles st) h) as [c|] eqn:Eh; [|discriminate].
  apply ldone_ok in E. destruct E as (m' & E & Ek & Ee). injection Ek as Es _.
  apply lbind_ok in E. destruct E as (m1 & E1 & E2 & Ef). apply then_ok in E2. destruct E2 as [<- E2]. rewrite E2 in Ef.
  apply with_ok in E1. destruct E1 as [E1 E3]. apply add_opt_run in E1. destruct E1 as [E1 E4].
  rewrite E3, E4 in Ef. rewrite Ef in Ee. clear Ef E2 E3 E4. destruct (add_opt_mild _ _ _ E1) as (M & _).
  apply (light_is [EBeg (OConn h) false] (added c) [EFin (OConn h) false; EFin (OConn (length (handles st))) true]).
  { rewrite Ee. cbn. now rewrite <- app_assoc. }
  apply (table_light _ _ _ (handles st ++ [c]) (blockers st) m1); auto; try same_table; try solve [inl].
  - destruct c as [s|]; cbn; inl. exists s. split; [reflexivity|]. by_h h.
  - destruct c; cbn; auto.
  - destruct c as [s|]; cbn; auto. split; auto. intros k A _. cbn in A. subst k. left. at_h h. rewrite tok_snoc. auto.
  - intros k h' T N. destruct N. rewrite tok_snoc. auto.
  - intros k h' T. rewrite tok_snoc in T. destruct T as [[-> ->]|T]; auto. right. split; [here|]. by_h h.
Qed.


Ltac open_step E c := apply ldone_ok in E; destruct E as (c & E & Ek & Ee); injection Ek as Es _.

Lemma released_access m o b t0 (Q : forall s, o = Some s -> right st t0 b [] s) :
  Forall (fun e => exists s, light_access e s /\ right st t0 b [] s) (released m o).
Proof.
  destruct o as [s|]; cbn; [|constructor]. constructor; [exists s; split; [reflexivity|auto]|].
  destruct (Nat.eqb (refs m s) 1); constructor; auto. exists s. split; [reflexivity|auto].
Qed.
Lemma released_frees m o m1 m' prev b : release_opt m o = Ok m1 ->
  (forall s, refs m1 s = 0 -> get_slot m1 s = UB -> refs m' s = 0) ->
  (forall p, frees m' p b) -> frees m' prev (released m o ++ b).
Proof.
  intros E K F. destruct o as [s|]; cbn; auto. split; auto. destruct (Nat.eqb_spec (refs m s) 1) as [Z|]; cbn; auto.
  destruct (release_opt_mild _ _ _ E) as [_ U]. destruct (U s eq_refl Z). split; auto.
Qed.
Lemma released_lefts m o m1 m' lf b : release_opt m o = Ok m1 ->
  (forall s, refs m1 s = 0 -> get_slot m1 s = UB -> refs m' s = 0) -> lefts m' lf b -> lefts m' lf (released m o ++ b).
Proof.
  intros E K F. destruct o as [s|]; cbn; auto. split.
  - intros k A _. cbn in A. subst k. goes.
  - destruct (Nat.eqb_spec (refs m s) 1) as [Z|]; cbn; auto. split; auto. intros k A Hp. cbn in A. subst k.
    destruct (release_opt_mild _ _ _ E) as [_ U]. destruct (U s eq_refl Z) as [Z1 Z2]. rewrite (K s Z1 Z2) in Hp. lia.
Qed.
Lemma released_dropped m s b b' : dropped s (b ++ released m (Some s) ++ b').
Proof. exists AcqRel. split; [|reflexivity]. apply in_or_app. right. apply in_or_app. left. left. reflexivity. Qed.

Lemma s_drop h : luser_step kl_orders st t th (UDrop h) = (es, Next st' r) -> sound st st' t es.
Proof.
  intros E. cbn [luser_step] in E. destruct (nth_error (handles st) h) as [c|] eqn:Eh; [|discriminate]. open_step E m1.
  apply with_ok in E. destruct E as [E1 E3]. apply release_opt_run in E1. destruct E1 as [E1 E4]. rewrite E3, E4 in Ee. clear E3 E4.
  destruct (release_opt_mild _ _ _ E1) as (M & _).
  apply (light_is [EBeg (OConn h) true] (released (mm st) c) [EFin (OConn h) true]); [exact Ee|].
  apply (table_light _ _ _ (upd (handles st) h None) (blockers st) m1); auto; try same_table; try solve [inl].
  - apply released_access. intros s ->. by_h h.
  - rewrite <- (app_nil_r (released _ _)). eapply released_frees; eauto. cbn. auto.
  - rewrite <- (app_nil_r (released _ _)). eapply released_lefts; eauto. cbn. auto.
  - intros k h' T N. rewrite (tok_upd _ _ _ _ _ _ Eh) in N. destruct (Nat.eq_dec h' h) as [->|n]; [|destruct N; auto].
    split; [here|]. right. unfold tok_h in T. rewrite Eh in T. injection T as ->. rewrite <- (app_nil_r (released _ _)). apply (released_dropped _ _ []).
  - intros k h' T. rewrite (tok_upd _ _ _ _ _ _ Eh) in T. destruct T as [[_ [=]]|[_ T]]. auto.
Qed.

Lemma s_assign h h' : luser_step kl_orders st t th (UAssign h h') = (es, Next st' r) -> sound st st' t es.
Proof.
  intros E. cbn [luser_step] in E. destruct (nth_error (handles st) h) as [c|] eqn:Eh; [|discriminate].
  destruct (nth_error (handles st) h') as [c'|] eqn:Eh'; [|discriminate]. destruct (Nat.eqb_spec h h') as [<-|ne].
  { injection E as Ee Es _. apply (light_is [] [] []); [auto|]. apply (table_light _ _ _ (handles st) (blockers st) (mm st)); auto using mild_refl; try same_table; try solve [inl].
    - rewrite <- Es; apply eta.
    - cbn. auto.
    - cbn. auto. }
  open_step E m2. apply with_ok in E. destruct E as [E E3]. apply with_ok in E. destruct E as [E E4].
  apply lbind_ok in E. destruct E as (m1 & E1 & E2 & Ef). apply release_opt_run in E1. destruct E1 as [E1 E5].
  apply add_opt_run in E2. destruct E2 as [E2 E6]. rewrite E3, E4, Ef, E5, E6 in Ee. clear E3 E4 Ef E5 E6.
  destruct (release_opt_mild _ _ _ E1) as (M1 & _). destruct (add_opt_mild _ _ _ E2) as (M2 & _ & Z).
  assert (forall s, c' = Some s -> tok_h st' h s) as T'.
  { intros s ->. subst st'. unfold tok_h. cbn. rewrite (tok_upd _ _ _ _ _ _ Eh). auto. }
  apply (light_is [EBeg (OConn h) true; EBeg (OConn h') false] (released (mm st) c ++ added c') [EFin (OConn h') false; EFin (OConn h) true]).
  { rewrite Ee. cbn. now rewrite <- !app_assoc. }
  apply (table_light _ _ _ (upd (handles st) h c') (blockers st) m2); auto; try same_table; try solve [inl]; try solve [eauto 6 using mild_trans].
  - apply Forall_app. split; [apply released_access; intros s ->; by_h h|]. destruct c' as [s|]; cbn; inl. exists s. split; [reflexivity|]. by_h h'.
  - eapply released_frees; eauto. destruct c'; cbn; auto.
  - eapply released_lefts; eauto. destruct c' as [s|]; cbn; auto. split; auto. intros k A _. cbn in A. subst k. left. right. left.
    exists h, true. split; [here|auto].
  - intros k h0 T N. rewrite (tok_upd _ _ _ _ _ _ Eh) in N. destruct (Nat.eq_dec h0 h) as [->|n]; [|destruct N; auto].
    split; [here|]. right. unfold tok_h in T. rewrite Eh in T. injection T as ->. apply (released_dropped _ _ []).
  - intros k h0 T. rewrite (tok_upd _ _ _ _ _ _ Eh) in T. destruct T as [[-> ->]|[_ T]]; auto. right. split; [here|]. by_h h'.
Qed.

Lemma s_connected h : luser_step kl_orders st t th (UConnected h) = (es, Next st' r) -> sound st st' t es.
Proof.
  intros E. cbn [luser_step] in E. destruct (nth_error (handles st) h) as [[s|]|] eqn:Eh; [| |discriminate].
  - open_step E x. apply with_ok in E. destruct E as [E E3]. rewrite E3 in Ee. cbn [fst log app] in Ee.
    apply (light_is [EBeg (OConn h) false] [ELoad (Sender s) Acquire] [EFin (OConn h) false]); [exact Ee|].
    apply (table_light _ _ _ (handles st) (blockers st) (mm st)); auto using mild_refl; try same_table; try solve [inl].
    + rewrite <- Es; apply eta.
    + inl. exists s. split; [reflexivity|]. by_h h.
    + cbn. auto.
    + cbn. split; auto. intros k A _. cbn in A. subst k. left. at_h h. auto.
  - injection E as Ee Es _. apply (light_is [] [] []); [auto|]. apply (table_light _ _ _ (handles st) (blockers st) (mm st)); auto using mild_refl; try same_table; try solve [inl].
    + rewrite <- Es; apply eta.
    + cbn. auto.
    + cbn. auto.
Qed.

Lemma s_block h : luser_step kl_orders st t th (UBlock h) = (es, Next st' r) -> sound st st' t es.
Proof.
  intros E. cbn [luser_step] in E. destruct (nth_error (handles st) h) as [c|] eqn:Eh; [|discriminate]. open_step E m3.
  apply lbind_ok in E. destruct E as (m2 & E & E2 & Ef). apply then_ok in E2. destruct E2 as [<- E2]. rewrite E2 in Ef.
  apply with_ok in E. destruct E as [E E3]. apply lbind_ok in E. destruct E as (m1 & E & E4 & Ef').
  apply add_opt_run in E. destruct E as [E E5]. apply block_opt_run in E4. destruct E4 as [E4 E6].
  rewrite Ef, E3, Ef', E5, E6 in Ee. clear Ef E2 E3 Ef' E5 E6.
  destruct (add_opt_mild _ _ _ E) as (M1 & _). destruct (block_opt_mild _ _ _ E4) as (M2 & _).
  apply (light_is [EBeg (OConn h) false] (added c ++ blocking c Add) [EFin (OConn h) false; EFin (OBlocker (length (blockers st))) true]).
  { rewrite Ee. cbn. now rewrite <- !app_assoc. }
  apply (table_light _ _ _ (handles st) (blockers st ++ [c]) m2); auto; try same_table; try solve [inl]; try solve [eauto 6 using mild_trans].
  - destruct c as [s|]; cbn; inl; exists s; (split; [reflexivity|]); by_h h.
  - destruct c; cbn; auto.
  - destruct c as [s|]; cbn; auto. repeat split; auto; intros k A _; cbn in A; subst k; left; at_h h; auto.
  - intros k b T N. destruct N. rewrite tok_snoc. auto.
  - intros k b T. rewrite tok_snoc in T. destruct T as [[-> ->]|T]; auto. right. split; [here|]. by_h h.
Qed.

Lemma s_copy_blocker b : luser_step kl_orders st t th (UCopyBlocker b) = (es, Next st' r) -> sound st st' t es.
Proof.
  intros E. cbn [luser_step] in E. destruct (nth_error (blockers st) b) as [c|] eqn:Eh; [|discriminate]. open_step E m3.
  apply lbind_ok in E. destruct E as (m2 & E & E2 & Ef). apply then_ok in E2. destruct E2 as [<- E2]. rewrite E2 in Ef.
  apply with_ok in E. destruct E as [E E3]. apply lbind_ok in E. destruct E as (m1 & E & E4 & Ef').
  apply add_opt_run in E. destruct E as [E E5]. apply block_opt_run in E4. destruct E4 as [E4 E6].
  rewrite Ef, E3, Ef', E5, E6 in Ee. clear Ef E2 E3 Ef' E5 E6.
  destruct (add_opt_mild _ _ _ E) as (M1 & _). destruct (block_opt_mild _ _ _ E4) as (M2 & _).
  apply (light_is [EBeg (OBlocker b) false] (added c ++ blocking c Add) [EFin (OBlocker b) false; EFin (OBlocker (length (blockers st))) true]).
  { rewrite Ee. cbn. now rewrite <- !app_assoc. }
  apply (table_light _ _ _ (handles st) (blockers st ++ [c]) m2); auto; try same_table; try solve [inl]; try solve [eauto 6 using mild_trans].
  - destruct c as [s|]; cbn; inl; exists s; (split; [reflexivity|]); by_b b.
  - destruct c; cbn; auto.
  - destruct c as [s|]; cbn; auto. repeat split; auto; intros k A _; cbn in A; subst k; left; at_b b; rewrite tok_snoc; auto.
  - intros k b' T N. destruct N. rewrite tok_snoc. auto.
  - intros k b' T. rewrite tok_snoc in T. destruct T as [[-> ->]|T]; auto. right. split; [here|]. by_b b.
Qed.

Lemma s_drop_blocker b : luser_step kl_orders st t th (UDropBlocker b) = (es, Next st' r) -> sound st st' t es.
Proof.
  intros E. cbn [luser_step] in E. destruct (nth_error (blockers st) b) as [c|] eqn:Eh; [|discriminate]. open_step E m2.
  apply with_ok in E. destruct E as [E E3]. apply lbind_ok in E. destruct E as (m1 & E0 & E1 & Ef).
  apply unblock_opt_run in E0. destruct E0 as [E0 E5]. apply release_opt_run in E1. destruct E1 as [E1 E4]. rewrite E3, Ef, E4, E5 in Ee. clear E3 Ef E4 E5.
  destruct (unblock_opt_mild _ _ _ E0) as (M0 & Q0). destruct (release_opt_mild _ _ _ E1) as (M & _).
  apply (light_is [EBeg (OBlocker b) true] (blocking c Sub ++ released m1 c) [EFin (OBlocker b) true]); [exact Ee|].
  apply (table_light _ _ _ (handles st) (upd (blockers st) b None) m2); auto; try same_table; try solve [inl]; try solve [eauto 6 using mild_trans].
  - apply Forall_app. split; [|apply released_access; intros s ->; by_b b].
    destruct c as [s|]; cbn; inl. exists s. split; [reflexivity|]. by_b b.
  - assert (forall p, frees m2 p (released m1 c)) as F.
    { intros p. rewrite <- (app_nil_r (released _ _)). eapply released_frees; eauto. cbn. auto. }
    destruct c as [s|]; [|apply F]. split; [auto|apply F].
  - assert (lefts m2 (left_at st' t [EFin (OBlocker b) true]) (released m1 c)) as F.
    { rewrite <- (app_nil_r (released _ _)). eapply released_lefts; eauto. cbn. auto. }
    destruct c as [s|]; auto. split; auto. intros k A _. cbn in A. subst k. goes.
  - intros k b' T N. rewrite (tok_upd _ _ _ _ _ _ Eh) in N. destruct (Nat.eq_dec b' b) as [->|n]; [|destruct N; auto].
    split; [here|]. right. unfold tok_b in T. rewrite Eh in T. injection T as ->.
    rewrite <- (app_nil_r (released _ _)). apply released_dropped.
  - intros k b' T. rewrite (tok_upd _ _ _ _ _ _ Eh) in T. destruct T as [[_ [=]]|[_ T]]. auto.
Qed.

Lemma s_assign_blocker b b' : luser_step kl_orders st t th (UAssignBlocker b b') = (es, Next st' r) -> sound st st' t es.
Proof.
  intros E. cbn [luser_step] in E. destruct (nth_error (blockers st) b) as [c|] eqn:Eh; [|discriminate].
  destruct (nth_error (blockers st) b') as [c'|] eqn:Eh'; [|discriminate]. destruct (Nat.eqb_spec b b') as [<-|ne].
  { injection E as Ee Es _. apply (light_is [] [] []); [auto|]. apply (table_light _ _ _ (handles st) (blockers st) (mm st)); auto using mild_refl; try same_table; try solve [inl].
    - rewrite <- Es; apply eta.
    - cbn. auto.
    - cbn. auto. }
  open_step E m4. apply with_ok in E. destruct E as [E E3]. apply with_ok in E. destruct E as [E E4].
  apply lbind_ok in E. destruct E as (m1 & E1 & E & Ef1). apply lbind_ok in E. destruct E as (m2 & E2 & E & Ef2).
  apply lbind_ok in E. destruct E as (m3 & E5 & E6 & Ef3).
  apply unblock_opt_run in E1. destruct E1 as [E1 F1]. apply release_opt_run in E2. destruct E2 as [E2 F2].
  apply add_opt_run in E5. destruct E5 as [E5 F3]. apply block_opt_run in E6. destruct E6 as [E6 F4].
  rewrite E3, E4, Ef1, Ef2, Ef3, F1, F2, F3, F4 in Ee. clear E3 E4 Ef1 Ef2 Ef3 F1 F2 F3 F4.
  destruct (unblock_opt_mild _ _ _ E1) as (M1 & _). destruct (release_opt_mild _ _ _ E2) as (M2 & _). destruct (add_opt_mild _ _ _ E5) as (M3 & _ & Z).
  destruct (block_opt_mild _ _ _ E6) as (M4 & Q4).
  assert (forall s, refs m2 s = 0 -> get_slot m2 s = UB -> refs m4 s = 0) as Z4 by (intros s Z1 Z2; rewrite Q4; auto).
  assert (forall s, c' = Some s -> tok_b st' b s) as T'.
  { intros s ->. subst st'. unfold tok_b. cbn. rewrite (tok_upd _ _ _ _ _ _ Eh). auto. }
  apply (light_is [EBeg (OBlocker b) true; EBeg (OBlocker b') false] (blocking c Sub ++ released m1 c ++ added c' ++ blocking c' Add)
          [EFin (OBlocker b') false; EFin (OBlocker b) true]).
  { rewrite Ee. cbn. now rewrite <- !app_assoc. }
  apply (table_light _ _ _ (handles st) (upd (blockers st) b c') m4); auto; try same_table; try solve [inl]; try solve [eauto 6 using mild_trans].
  - apply Forall_app. split; [|apply Forall_app; split; [apply released_access; intros s ->; by_b b|apply Forall_app; split]].
    + destruct c as [s|]; cbn; inl. exists s. split; [reflexivity|]. by_b b.
    + destruct c' as [s|]; cbn; inl. exists s. split; [reflexivity|]. by_b b'.
    + destruct c' as [s|]; cbn; inl. exists s. split; [reflexivity|]. by_b b'.
  - assert (forall p, frees m4 p (released m1 c ++ added c' ++ blocking c' Add)) as F.
    { intros p. eapply released_frees; eauto. destruct c'; cbn; auto. }
    destruct c as [s|]; [|apply F]. split; [exact I|apply F].
  - assert (lefts m4 (left_at st' t [EFin (OBlocker b') false; EFin (OBlocker b) true]) (released m1 c ++ added c' ++ blocking c' Add)) as F.
    { eapply released_lefts; eauto. destruct c' as [s|]; cbn; auto.
      repeat split; auto; intros k A _; cbn in A; subst k; left; right; right; left; exists b, true; (split; [here|auto]). }
    destruct c as [s|]; auto. split; auto. intros k A _. cbn in A. subst k. goes.
  - intros k h0 T N. rewrite (tok_upd _ _ _ _ _ _ Eh) in N. destruct (Nat.eq_dec h0 b) as [->|n]; [|destruct N; auto].
    split; [here|]. right. unfold tok_b in T. rewrite Eh in T. injection T as ->. apply released_dropped.
  - intros k h0 T. rewrite (tok_upd _ _ _ _ _ _ Eh) in T. destruct T as [[-> ->]|[_ T]]; auto. right. split; [here|]. by_b b'.
Qed.

Lemma s_move_handle h : luser_step kl_orders st t th (UMoveHandle h) = (es, Next st' r) -> sound st st' t es.
Proof.
  intros E. cbn [luser_step] in E. destruct (nth_error (handles st) h) as [c|] eqn:Eh; [|discriminate]. open_step E u. cbn in Ee.
  apply (light_is [EBeg (OConn h) true] [] [EFin (OConn h) true; EFin (OConn (length (handles st))) true]); [exact Ee|].
  apply (table_light _ _ _ (upd (handles st) h None ++ [c]) (blockers st) (mm st)); auto using mild_refl; try same_table; try solve [inl].
  - cbn. auto.
  - cbn. auto.
  - intros k h' T N. rewrite tok_snoc, (tok_upd _ _ _ _ _ _ Eh) in N. destruct (Nat.eq_dec h' h) as [->|n]; [|destruct N; auto].
    split; [here|]. left. unfold tok_h in T. rewrite Eh in T. injection T as ->. at_h (length (handles st)). rewrite tok_snoc, length_upd. auto.
  - intros k h' T. rewrite tok_snoc, (tok_upd _ _ _ _ _ _ Eh), length_upd in T. destruct T as [[-> ->]|[[_ [=]]|[_ T]]]; auto.
    right. split; [here|]. by_h h.
Qed.
Lemma s_move_blocker b : luser_step kl_orders st t th (UMoveBlocker b) = (es, Next st' r) -> sound st st' t es.
Proof.
  intros E. cbn [luser_step] in E. destruct (nth_error (blockers st) b) as [c|] eqn:Eh; [|discriminate]. open_step E u. cbn in Ee.
  apply (light_is [EBeg (OBlocker b) true] [] [EFin (OBlocker b) true; EFin (OBlocker (length (blockers st))) true]); [exact Ee|].
  apply (table_light _ _ _ (handles st) (upd (blockers st) b None ++ [c]) (mm st)); auto using mild_refl; try same_table; try solve [inl].
  - cbn. auto.
  - cbn. auto.
  - intros k h' T N. rewrite tok_snoc, (tok_upd _ _ _ _ _ _ Eh) in N. destruct (Nat.eq_dec h' b) as [->|n]; [|destruct N; auto].
    split; [here|]. left. unfold tok_b in T. rewrite Eh in T. injection T as ->. at_b (length (blockers st)). rewrite tok_snoc, length_upd. auto.
  - intros k h' T. rewrite tok_snoc, (tok_upd _ _ _ _ _ _ Eh), length_upd in T. destruct T as [[-> ->]|[[_ [=]]|[_ T]]]; auto.
    right. split; [here|]. by_b b.
Qed.

Lemma tok_swap (l : list (option nat)) h h' c c' k s : nth_error l h = Some c -> nth_error l h' = Some c' ->
  (nth_error (upd (upd l h c') h' c) k = Some (Some s) <->
   (k = h' /\ c = Some s) \/ (k = h /\ k <> h' /\ c' = Some s) \/ (k <> h /\ k <> h' /\ nth_error l k = Some (Some s))).
Proof.
  intros E E'. assert (h < length l) as Hl by (apply nth_error_Some; congruence). assert (h' < length l) as Hl' by (apply nth_error_Some; congruence).
  rewrite nth_upd by (now rewrite length_upd). destruct (Nat.eqb_spec k h') as [->|n].
  - split; [intros [= ->]; auto|]. intros [[_ ->]|[(? & ? & _)|(_ & ? & _)]]; [auto|contradiction|contradiction].
  - rewrite nth_upd by auto. destruct (Nat.eqb_spec k h) as [->|n'].
    + split; [intros [= ->]; auto|]. intros [[? _]|[(_ & _ & ->)|(? & _)]]; [contradiction|auto|contradiction].
    + split; auto. intros [[? _]|[(? & _)|(_ & _ & ?)]]; [contradiction|contradiction|auto].
Qed.
Lemma s_swap_handles h h' : luser_step kl_orders st t th (USwapHandles h h') = (es, Next st' r) -> sound st st' t es.
Proof.
  intros E. cbn [luser_step] in E. destruct (nth_error (handles st) h) as [c|] eqn:Eh; [|discriminate].
  destruct (nth_error (handles st) h') as [c'|] eqn:Eh'; [|discriminate]. open_step E u. cbn in Ee.
  assert (forall k s, tok_h st' k s <-> (k = h' /\ c = Some s) \/ (k = h /\ k <> h' /\ c' = Some s) \/ (k <> h /\ k <> h' /\ tok_h st k s)) as T'.
  { intros k s. subst st'. unfold tok_h. cbn. apply tok_swap; auto. }
  apply (light_is [EBeg (OConn h) true; EBeg (OConn h') true] [] [EFin (OConn h') true; EFin (OConn h) true]); [exact Ee|].
  apply (table_light _ _ _ (upd (upd (handles st) h c') h' c) (blockers st) (mm st)); auto using mild_refl; try same_table; try solve [inl].
  - cbn. auto.
  - cbn. auto.
  - intros k x T N. rewrite (tok_swap _ _ _ _ _ _ _ Eh Eh') in N. unfold tok_h in T. 
    assert (x = h \/ x = h') as [-> | ->]; [destruct (Nat.eq_dec x h), (Nat.eq_dec x h'); auto; destruct N; auto| |].
    + split; [here|]. rewrite Eh in T. injection T as ->. left. right. left. exists h', true. split; [here|]. apply T'. auto.
    + split; [here|]. rewrite Eh' in T. injection T as ->. left. right. left. exists h, true. split; [here|]. apply T'.
      destruct (Nat.eq_dec h h') as [<-|]; auto. rewrite Eh in Eh'. injection Eh' as ->. auto.
  - intros k x T. rewrite (tok_swap _ _ _ _ _ _ _ Eh Eh') in T. destruct T as [[-> ->]|[(-> & _ & ->)|(_ & _ & T)]]; auto.
    + right. split; [here|]. by_h h.
    + right. split; [here|]. by_h h'.
Qed.
Lemma s_swap_blockers h h' : luser_step kl_orders st t th (USwapBlockers h h') = (es, Next st' r) -> sound st st' t es.
Proof.
  intros E. cbn [luser_step] in E. destruct (nth_error (blockers st) h) as [c|] eqn:Eh; [|discriminate].
  destruct (nth_error (blockers st) h') as [c'|] eqn:Eh'; [|discriminate]. open_step E u. cbn in Ee.
  assert (forall k s, tok_b st' k s <-> (k = h' /\ c = Some s) \/ (k = h /\ k <> h' /\ c' = Some s) \/ (k <> h /\ k <> h' /\ tok_b st k s)) as T'.
  { intros k s. subst st'. unfold tok_b. cbn. apply tok_swap; auto. }
  apply (light_is [EBeg (OBlocker h) true; EBeg (OBlocker h') true] [] [EFin (OBlocker h') true; EFin (OBlocker h) true]); [exact Ee|].
  apply (table_light _ _ _ (handles st) (upd (upd (blockers st) h c') h' c) (mm st)); auto using mild_refl; try same_table; try solve [inl].
  - cbn. auto.
  - cbn. auto.
  - intros k x T N. rewrite (tok_swap _ _ _ _ _ _ _ Eh Eh') in N. unfold tok_b in T. 
    assert (x = h \/ x = h') as [-> | ->]; [destruct (Nat.eq_dec x h), (Nat.eq_dec x h'); auto; destruct N; auto| |].
    + split; [here|]. rewrite Eh in T. injection T as ->. left. right. right. left. exists h', true. split; [here|]. apply T'. auto.
    + split; [here|]. rewrite Eh' in T. injection T as ->. left. right. right. left. exists h, true. split; [here|]. apply T'.
      destruct (Nat.eq_dec h h') as [<-|]; auto. rewrite Eh in Eh'. injection Eh' as ->. auto.
  - intros k x T. rewrite (tok_swap _ _ _ _ _ _ _ Eh Eh') in T. destruct T as [[-> ->]|[(-> & _ & ->)|(_ & _ & T)]]; auto.
    + right. split; [here|]. by_b h.
    + right. split; [here|]. by_b h'.
Qed.


(* ------------------------------------------------------------- the thread's own frames *)

Lemma thread_light begs body rl hs lo fr m' th' :
  st' = mkstate m' (upd (threads st) t th') hs (blockers st) lo fr ->
  Forall (fun e => exists b w, e = EBeg b w) begs -> Forall (fun e => exists b w, e = EFin b w) rl ->
  mild (mm st) m' ->
  Forall (fun e => exists s, light_access e s /\ right st t begs [] s) body ->
  frees m' None body -> lefts m' (left_at st' t rl) body ->
  (forall s h, tok_h st h s -> ~ nth_error hs h = Some (Some s) -> In (EBeg (OConn h) true) begs /\ (left_at st' t rl s \/ dropped s body)) ->
  (forall s h, nth_error hs h = Some (Some s) -> tok_h st h s \/ In (EFin (OConn h) true) rl /\ right st t begs [] s) ->
  (forall s, 0 < thread_holds s th -> thread_holds s th' = 0 -> left_at st' t rl s \/ dropped s body) ->
  (forall s, 0 < thread_holds s th' -> right st t begs [] s) ->
  (forall s, In s (lost st) -> In s lo) -> (forall s, In s lo -> In s (lost st) \/ tok_t st t s) ->
  (forall g f, In f (th_stack th') -> busy_frame g f -> (exists f', In f' (th_stack th) /\ busy_frame g f') \/
     exists s o, conn (mm st) s = Some g /\ tok_t st t s /\ begs ++ body ++ rl = [ERmw (Sender s) o Put] /\ acquiring o = true) ->
  light st st' t begs body rl.
Proof.
  intros E B1 B2 M Bd F Lf Oh Ih Ot It Lo Lo' Bu.
  assert (nth_error (threads st') t = Some th') as Et'.
  { rewrite E. cbn. rewrite nth_upd by (apply nth_error_Some; congruence). now rewrite Nat.eqb_refl. }
  rewrite Forall_forall in B1, B2, Bd. constructor; auto.
  - now rewrite E.
  - rewrite E. now apply frees_ok.
  - rewrite E in *. now apply lefts_ok.
  - intros s h Th Tn. apply Oh; auto. intros En. apply Tn. unfold tok_h. rewrite E. exact En.
  - intros s b Th Tn. destruct Tn. unfold tok_b. rewrite E. exact Th.
  - intros s T1 T2. rewrite (tok_t_at _ _ _ _ Et) in T1. rewrite (tok_t_at _ _ _ _ Et') in T2. apply Ot; auto. lia.
  - intros u n. rewrite E. cbn. rewrite nth_upd by (apply nth_error_Some; congruence). destruct (Nat.eqb_spec u t); [contradiction|auto].
  - intros s. rewrite E. auto.
  - intros s. rewrite E. auto.
  - intros s h T1. unfold tok_h in T1. rewrite E in T1. auto.
  - intros s b T1. left. unfold tok_b in *. now rewrite E in T1.
  - intros s T1. rewrite (tok_t_at _ _ _ _ Et') in T1. auto.
  - intros g B. rewrite (busy_at _ _ _ _ Et') in B. rewrite (busy_at _ _ _ _ Et). destruct B as (f & Hf & B). eauto.
Qed.

Lemma tok_here s : 0 < thread_holds s th -> tok_t st t s.
Proof. apply (tok_t_at _ _ _ _ Et). Qed.
Lemma right_here s b : 0 < thread_holds s th -> right st t b [] s.
Proof. intros T. right. right. right. now apply tok_here. Qed.

(** The body when it is nothing, or accesses to a slot the thread holds before and after. *)
Lemma quiet_light body hs m' th' :
  st' = mkstate m' (upd (threads st) t th') hs (blockers st) (lost st) (fresh st) -> hs = handles st ->
  mild (mm st) m' -> (forall s, thread_holds s th' = thread_holds s th) ->
  match body with [] => True | [e] => (exists s, light_access e s /\ 0 < thread_holds s th /\ forall k, e <> EFree k) | _ => False end ->
  (forall g f, In f (th_stack th') -> busy_frame g f -> (exists f', In f' (th_stack th) /\ busy_frame g f') \/
     exists s o, conn (mm st) s = Some g /\ tok_t st t s /\ [] ++ body ++ [] = [ERmw (Sender s) o Put] /\ acquiring o = true) ->
  light st st' t [] body [].
Proof.
  intros E Ehs M Hs Bd Bu.
  assert (nth_error (threads st') t = Some th') as Et'.
  { rewrite E. cbn. rewrite nth_upd by (apply nth_error_Some; congruence). now rewrite Nat.eqb_refl. }
  apply (thread_light [] body [] hs (lost st) (fresh st) m' th'); auto; try solve [inl].
  - destruct body as [|e [|? ?]]; try contradiction; inl. destruct Bd as (s & A & T & _). exists s. split; auto. now apply right_here.
  - destruct body as [|e [|? ?]]; try contradiction; cbn; auto. split; auto. destruct Bd as (s & A & T & N). destruct e; auto. destruct (N _ eq_refl).
  - destruct body as [|e [|? ?]]; try contradiction; cbn; auto. split; auto. destruct Bd as (s & A & T & N). intros k A' _. left. right. right. right. left.
    apply (tok_t_at _ _ _ _ Et'). rewrite Hs. assert (k = s) as -> by (destruct e; cbn in *; try contradiction; congruence). auto.
  - intros s h T N. subst hs. contradiction.
  - intros s h T. subst hs. auto.
  - intros s T Z. rewrite Hs in Z. lia.
  - intros s T. rewrite Hs in T. now apply right_here.
Qed.

Lemma s_disconnect h : luser_step kl_orders st t th (UDisconnect h) = (es, Next st' r) -> sound st st' t es.
Proof.
  intros E. cbn [luser_step] in E. destruct (nth_error (handles st) h) as [[s|]|] eqn:Eh; [| |discriminate].
  - open_step E u. cbn in Ee. set (th' := mkthread (th_tls th) (FDisc s DExchange :: th_stack th)) in *.
    assert (nth_error (threads st') t = Some th') as Et'.
    { rewrite <- Es. cbn. rewrite nth_upd by (apply nth_error_Some; congruence). now rewrite Nat.eqb_refl. }
    apply (light_is [EBeg (OConn h) true] [] [EFin (OConn h) true]); [exact Ee|].
    apply (thread_light _ _ _ (upd (handles st) h None) (lost st) (fresh st) (mm st) th'); auto using mild_refl; try solve [inl].
    + cbn. auto.
    + cbn. auto.
    + intros k h' T N. rewrite (tok_upd _ _ _ _ _ _ Eh) in N. destruct (Nat.eq_dec h' h) as [->|n]; [|destruct N; auto].
      split; [here|]. left. unfold tok_h in T. rewrite Eh in T. injection T as ->. right. right. right. left.
      apply (tok_t_at _ _ _ _ Et'). unfold th', thread_holds. cbn. rewrite Nat.eqb_refl. cbn. lia.
    + intros k h' T. rewrite (tok_upd _ _ _ _ _ _ Eh) in T. destruct T as [[_ [=]]|[_ T]]. auto.
    + intros k T Z. unfold th', thread_holds in *. cbn in Z. lia.
    + intros k T. destruct (Nat.eq_dec k s) as [->|n]; [by_h h|]. apply right_here. unfold th', thread_holds in *. cbn in T.
      destruct (Nat.eqb_spec s k); [congruence|]. cbn in T. exact T.
    + intros g f [<-|Hf] B; [destruct B|]. left. eauto.
  - injection E as Ee Es _. apply (light_is [] [] []); [auto|]. apply (table_light _ _ _ (handles st) (blockers st) (mm st)); auto using mild_refl; try same_table; try solve [inl].
    + rewrite <- Es; apply eta.
    + cbn. auto.
    + cbn. auto.
Qed.

Lemma s_stop : luser_step kl_orders st t th UStop = (es, Next st' r) -> sound st st' t es.
Proof.
  intros E. cbn [luser_step] in E. injection E as Ee Es _. apply (light_is [] [] []); [auto|].
  eapply quiet_light; [symmetry; exact Es|reflexivity|apply mild_refl|reflexivity|exact I|]. intros g f Hf B. left. eauto.
Qed.

Lemma current_held s : user_ready th = true -> t_current (th_tls th) = Some s -> 0 < thread_holds s th.
Proof.
  intros Hr Hc. destruct (Forall2_nth _ _ _ _ _ (r_threads _ _ _ _ R) Et) as (is & Ei & Rs). cbn beta in Rs.
  unfold user_ready in Hr. unfold thread_holds. destruct (th_stack th) as [|[e|k d] fs] eqn:Ef; [| |discriminate].
  - cbn in Rs. destruct is; [|contradiction]. congruence.
  - destruct (e_phase e) eqn:Ep; try discriminate. cbn in Rs. destruct is as [|[ie|? ?] is]; try contradiction.
    destruct Rs as (_ & Hcur & _). specialize (Hcur Ep). cbn. rewrite Ep. rewrite <- Hcur, Hc, hold_some. lia.
Qed.

Lemma s_current : user_ready th = true -> luser_step kl_orders st t th UCurrent = (es, Next st' r) -> sound st st' t es.
Proof.
  intros Hr E. cbn [luser_step] in E. destruct (t_current (th_tls th)) as [s|] eqn:Ec.
  - pose proof (current_held s Hr Ec) as T. open_step E m2. apply lbind_ok in E. destruct E as (m1 & E & E2 & Ef). apply then_ok in E2. destruct E2 as [<- E2].
    rewrite Ef, E2 in Ee. cbn in Ee, E. destruct (add_ref_mild _ _ _ E) as (M & _).
    assert (right st t [] [] s) as Rt by (now apply right_here).
    apply (light_is [] [ERmw (Count s) Relaxed Add] [EFin (OConn (length (handles st))) true]); [exact Ee|].
    apply (table_light _ _ _ (handles st ++ [Some s]) (blockers st) m1); auto; try same_table; try solve [inl].
    + inl. exists s. split; [reflexivity|auto].
    + cbn. auto.
    + cbn. split; auto. intros k A _. cbn in A. subst k. left. at_h (length (handles st)). rewrite tok_snoc. auto.
    + intros k h' T' N. destruct N. rewrite tok_snoc. auto.
    + intros k h' T'. rewrite tok_snoc in T'. destruct T' as [[-> [= ->]]|T']; auto. right. split; [here|auto].
  - open_step E u. cbn in Ee. apply (light_is [] [] [EFin (OConn (length (handles st))) true]); [exact Ee|].
    apply (table_light _ _ _ (handles st ++ [None]) (blockers st) (mm st)); auto using mild_refl; try same_table; try solve [inl].
    + cbn. auto.
    + cbn. auto.
    + intros k h' T' N. destruct N. rewrite tok_snoc. auto.
    + intros k h' T'. rewrite tok_snoc in T'. destruct T' as [[-> [=]]|T']; auto.
Qed.

Lemma s_return : user_ready th = true -> luser_step kl_orders st t th UReturn = (es, Next st' r) -> sound st st' t es.
Proof.
  intros Hr E. cbn [luser_step] in E. unfold user_ready in Hr. destruct (th_stack th) as [|[e|k d] fs] eqn:Ef; try discriminate.
  destruct (e_phase e) eqn:Ep; try discriminate. injection E as Ee Es _. apply (light_is [] [] []); [auto|].
  eapply quiet_light; [symmetry; exact Es|reflexivity|apply mild_refl| |exact I|].
  - intros s. unfold thread_holds. rewrite Ef. cbn. rewrite Ep. reflexivity.
  - intros g f Hf B. left. rewrite Ef. cbn in Hf. destruct Hf as [<-|Hf]; [exists (FEmit e); cbn; auto|exists f; cbn; auto].
Qed.

Lemma s_throw : user_ready th = true -> luser_step kl_orders st t th UThrow = (es, Next st' r) -> sound st st' t es.
Proof.
  intros Hr E. cbn [luser_step] in E. unfold user_ready in Hr. destruct (th_stack th) as [|[e|k d] fs] eqn:Ef; try discriminate.
  destruct (e_phase e) eqn:Ep; try discriminate. injection E as Ee Es _. apply (light_is [] [] []); [auto|].
  assert (forall s, thread_holds s th = hold s (e_cur e) + hold s (e_last e) + tot (frame_holds s) fs) as Hh.
  { intros s. unfold thread_holds. rewrite Ef. cbn. rewrite Ep. reflexivity. }
  eapply (thread_light [] [] [] (handles st)); [symmetry; exact Es| | | | | | | | | | | | |]; try solve [inl|cbn; auto|apply mild_refl|auto].
  - intros s h T N. contradiction.
  - intros s T Z. unfold thread_holds in Z. cbn in Z. left. right. right. right. right. rewrite <- Es. cbn.
    rewrite Hh in T. assert (0 < hold s (e_cur e)) as Hc by lia. apply hold_is in Hc. rewrite Hc. left. auto.
  - intros s T. apply right_here. rewrite Hh. unfold thread_holds in T. cbn in T. lia.
  - intros s Hs. destruct (e_cur e); [right|]; auto.
  - intros s Hs. destruct (e_cur e) as [c|] eqn:Ec; auto. destruct Hs as [<-|Hs]; auto. right. apply tok_here. rewrite Hh, hold_some. lia.
  - intros g f Hf B. left. rewrite Ef. cbn in Hf. destruct Hf as [<-|Hf]; [exists (FEmit e); cbn; auto|exists f; cbn; auto].
Qed.

(* ------------------------------------------------------------- library steps *)

Ltac tau E Ef := unfold ltau_step in E; rewrite Ef in E; cbv zeta in E.

Lemma t_exchange s fs : th_stack th = FDisc s DExchange :: fs -> ltau_step kl_orders st t th = (es, Next st' r) -> sound st st' t es.
Proof.
  intros Ef E. tau E Ef. open_step E p. apply lbind_ok in E. destruct E as (x & G & E & Ef1). apply lbind_ok in E. destruct E as (m1 & Er & E & Ef2).
  cbn in E. injection E as <-. cbn [fst snd] in Es. rewrite Ef1, Ef2 in Ee. cbn in Ee, G, Er. destruct (invalidate_mild _ _ _ Er) as (M & _).
  apply (light_is [] [ERmw (Sender s) AcqRel Put] []); [exact Ee|].
  assert (0 < thread_holds s th) as T by (unfold thread_holds; rewrite Ef; cbn; rewrite Nat.eqb_refl; cbn; lia).
  eapply quiet_light; [symmetry; exact Es|reflexivity|exact M| | |].
  - intros k. unfold thread_holds. rewrite Ef. cbn. reflexivity.
  - exists s. split; [reflexivity|]. split; auto. discriminate.
  - intros g f Hf B. cbn in Hf. destruct Hf as [<-|Hf]; [|left; rewrite Ef; exists f; cbn; auto].
    right. destruct (s_sender x) as [g'|] eqn:Ex; cbn in B; [|contradiction]. subst g'. exists s, AcqRel.
    split; [|split; [now apply tok_here|auto]]. destruct (get_slot_at _ _ _ G) as (En & _). unfold conn, slot_view. rewrite En. auto.
Qed.

Lemma t_disc_release s fs : th_stack th = FDisc s DRelease :: fs -> ltau_step kl_orders st t th = (es, Next st' r) -> sound st st' t es.
Proof.
  intros Ef E. tau E Ef. open_step E m1. apply (release_opt_run _ (Some s)) in E. destruct E as [E E1]. cbn [lrelease_opt] in E1. rewrite E1 in Ee.
  destruct (release_opt_mild _ _ _ E) as (M & _).
  assert (forall k, thread_holds k th = b2n (Nat.eqb s k) + tot (frame_holds k) fs) as Hh by (intros k; unfold thread_holds; rewrite Ef; reflexivity).
  apply (light_is [] (released (mm st) (Some s)) []); [now rewrite app_nil_r|].
  eapply (thread_light [] _ [] (handles st)); [symmetry; exact Es| | | | | | | | | | | | |]; try solve [inl|cbn; auto|auto].
  - apply released_access. intros k [= <-]. apply right_here. rewrite Hh, Nat.eqb_refl. cbn. lia.
  - rewrite <- (app_nil_r (released _ _)). eapply released_frees; eauto. cbn. auto.
  - rewrite <- (app_nil_r (released _ _)). eapply released_lefts; eauto. cbn. auto.
  - intros k h T N. contradiction.
  - intros k T Z. right. unfold thread_holds in Z. cbn in Z. rewrite Hh in T. destruct (Nat.eq_dec s k) as [Ek|n]; [subst k|apply Nat.eqb_neq in n; rewrite n in T; cbn in T; lia].
    rewrite <- (app_nil_r (released _ _)). apply (released_dropped _ _ []).
  - intros k T. apply right_here. rewrite Hh. unfold thread_holds in T. cbn in T. lia.
  - intros g f Hf B. left. rewrite Ef. exists f. cbn in *. auto.
Qed.

Lemma t_blocked e c fs : th_stack th = FEmit e :: fs -> e_phase e = PBlocked -> e_cur e = Some c ->
  ltau_step kl_orders st t th = (es, Next st' r) -> sound st st' t es.
Proof.
  intros Ef Ep Ec E. tau E Ef. rewrite Ep, Ec in E. open_step E x. cbn in Ee. apply (light_is [] [ELoad (Blocking c) Relaxed] []); [exact Ee|].
  eapply quiet_light; [symmetry; exact Es|reflexivity|apply mild_refl| | |].
  - intros s. unfold thread_holds. rewrite Ef. cbn. rewrite Ep. destruct (blocked x); reflexivity.
  - exists c. split; [reflexivity|]. split; [|discriminate]. unfold thread_holds. rewrite Ef. cbn. rewrite Ep, Ec, hold_some. lia.
  - intros g f Hf B. left. rewrite Ef. cbn in Hf. destruct Hf as [<-|Hf]; [exists (FEmit e); cbn; auto|exists f; cbn; auto].
Qed.
Lemma t_valid e c fs : th_stack th = FEmit e :: fs -> e_phase e = PValid -> e_cur e = Some c ->
  ltau_step kl_orders st t th = (es, Next st' r) -> sound st st' t es.
Proof.
  intros Ef Ep Ec E. tau E Ef. rewrite Ep, Ec in E. open_step E x. cbn in Ee. apply (light_is [] [ELoad (Sender c) Acquire] []); [exact Ee|].
  eapply quiet_light; [symmetry; exact Es|reflexivity|apply mild_refl| | |].
  - intros s. unfold thread_holds. rewrite Ef. cbn. rewrite Ep. destruct (valid x); reflexivity.
  - exists c. split; [reflexivity|]. split; [|discriminate]. unfold thread_holds. rewrite Ef. cbn. rewrite Ep, Ec, hold_some. lia.
  - intros g f Hf B. left. rewrite Ef. cbn in Hf. destruct Hf as [<-|Hf]; [exists (FEmit e); cbn; auto|exists f; cbn; auto].
Qed.
Lemma t_call e c fs : th_stack th = FEmit e :: fs -> e_phase e = PCall -> e_cur e = Some c ->
  ltau_step kl_orders st t th = (es, Next st' r) -> sound st st' t es.
Proof.
  intros Ef Ep Ec E. tau E Ef. rewrite Ep, Ec in E. open_step E x. cbn in Ee. apply (light_is [] [ETarget c] []); [exact Ee|].
  eapply quiet_light; [symmetry; exact Es|reflexivity|apply mild_refl| | |].
  - intros s. unfold thread_holds. rewrite Ef. cbn. rewrite Ep. reflexivity.
  - exists c. split; [reflexivity|]. split; [|discriminate]. unfold thread_holds. rewrite Ef. cbn. rewrite Ep, Ec, hold_some. lia.
  - intros g f Hf B. left. rewrite Ef. cbn in Hf. destruct Hf as [<-|Hf]; [exists (FEmit e); cbn; auto|exists f; cbn; auto].
Qed.
Lemma t_last_slot e c fs : th_stack th = FEmit e :: fs -> e_phase e = PAdvance -> e_cur e = Some c -> is_slot (e_last e) c || t_stopped (th_tls th) = true ->
  ltau_step kl_orders st t th = (es, Next st' r) -> sound st st' t es.
Proof.
  intros Ef Ep Ec El E. tau E Ef. rewrite Ep, Ec in E. rewrite El in E. injection E as Ee Es _. apply (light_is [] [] []); [auto|].
  eapply quiet_light; [symmetry; exact Es|reflexivity|apply mild_refl| |exact I|].
  - intros s. unfold thread_holds. rewrite Ef. cbn. rewrite Ep. lia.
  - intros g f Hf B. left. rewrite Ef. cbn in Hf. destruct Hf as [<-|Hf]; [exists (FEmit e); cbn; auto|exists f; cbn; auto].
Qed.

Lemma t_release e c nx brk fs : th_stack th = FEmit e :: fs -> e_phase e = PRelease nx brk -> e_cur e = Some c ->
  ltau_step kl_orders st t th = (es, Next st' r) -> sound st st' t es.
Proof.
  intros Ef Ep Ec E. tau E Ef. rewrite Ep, Ec in E. open_step E m1. apply (release_opt_run _ (Some c)) in E. destruct E as [E E1]. cbn [lrelease_opt] in E1. rewrite E1 in Ee.
  destruct (release_opt_mild _ _ _ E) as (M & _).
  assert (brk = true -> nx = None) as Hb.
  { intros ->. destruct (Forall2_nth _ _ _ _ _ (r_threads _ _ _ _ R) Et) as (is & Ei & Rs). cbn beta in Rs. rewrite Ef in Rs. cbn in Rs.
    destruct is as [|[ie|? ?] is]; try contradiction. destruct Rs as [Re _]. unfold emission_rel in Re. rewrite Ep in Re.
    destruct Re as (_ & _ & _ & _ & _ & c' & la & _ & _ & Hn & _). exact Hn. }
  assert (forall k, thread_holds k th = hold k (Some c) + hold k nx + hold k (e_last e) + tot (frame_holds k) fs) as Hh.
  { intros k; unfold thread_holds; rewrite Ef; cbn. rewrite Ep, Ec. reflexivity. }
  set (e' := mkem (e_id e) (e_sig e) nx (e_last e) (e_prev e) (if brk || negb (is_some nx) then PLast else PBlocked)) in *.
  assert (forall k tl, thread_holds k (mkthread tl (FEmit e' :: fs)) = hold k nx + hold k (e_last e) + tot (frame_holds k) fs) as Hh'.
  { intros k tl. unfold thread_holds, e'. cbn. destruct brk; cbn; [rewrite Hb by auto; cbn; lia|]. destruct nx as [n|]; cbn; auto. }
  apply (light_is [] (released (mm st) (Some c)) []); [now rewrite app_nil_r|].
  eapply (thread_light [] _ [] (handles st)); [symmetry; exact Es| | | | | | | | | | | | |]; try solve [inl|cbn; auto|auto].
  - apply released_access. intros k [= <-]. apply right_here. rewrite Hh, hold_some. lia.
  - rewrite <- (app_nil_r (released _ _)). eapply released_frees; eauto. cbn. auto.
  - rewrite <- (app_nil_r (released _ _)). eapply released_lefts; eauto. cbn. auto.
  - intros k h T N. contradiction.
  - intros k T Z. right. rewrite Hh' in Z. rewrite Hh in T. assert (0 < hold k (Some c)) as Hc by lia. apply hold_is in Hc. injection Hc as ->.
    rewrite <- (app_nil_r (released _ _)). apply (released_dropped _ _ []).
  - intros k T. apply right_here. rewrite Hh. rewrite Hh' in T. lia.
  - intros g f Hf B. left. rewrite Ef. cbn in Hf. destruct Hf as [<-|Hf]; [exists (FEmit e); cbn; auto|exists f; cbn; auto].
Qed.
Lemma t_last e fs : th_stack th = FEmit e :: fs -> e_phase e = PLast -> ltau_step kl_orders st t th = (es, Next st' r) -> sound st st' t es.
Proof.
  intros Ef Ep E. tau E Ef. rewrite Ep in E. open_step E m1. apply release_opt_run in E. destruct E as [E E1]. rewrite E1 in Ee.
  destruct (release_opt_mild _ _ _ E) as (M & _).
  assert (forall k, thread_holds k th = hold k (e_last e) + tot (frame_holds k) fs) as Hh.
  { intros k; unfold thread_holds; rewrite Ef; cbn. rewrite Ep. reflexivity. }
  apply (light_is [] (released (mm st) (e_last e)) []); [now rewrite app_nil_r|].
  eapply (thread_light [] _ [] (handles st)); [symmetry; exact Es| | | | | | | | | | | | |]; try solve [inl|cbn; auto|auto].
  - apply released_access. intros k El. apply right_here. rewrite Hh, El, hold_some. lia.
  - rewrite <- (app_nil_r (released _ _)). eapply released_frees; eauto. cbn. auto.
  - rewrite <- (app_nil_r (released _ _)). eapply released_lefts; eauto. cbn. auto.
  - intros k h T N. contradiction.
  - intros k T Z. right. unfold thread_holds in Z. cbn in Z. rewrite Hh in T. assert (0 < hold k (e_last e)) as Hc by lia. apply hold_is in Hc. rewrite Hc.
    rewrite <- (app_nil_r (released _ _)). apply (released_dropped _ _ []).
  - intros k T. apply right_here. rewrite Hh. unfold thread_holds in T. cbn in T. lia.
  - intros g f Hf B. left. rewrite Ef. cbn in Hf. destruct Hf as [<-|Hf]; [exists (FEmit e); cbn; auto|exists f; cbn; auto].
Qed.

End Ops.
