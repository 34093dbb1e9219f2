(** The operations that take the mutex of one signal are sound. *)
From Coq Require Import List Arith Bool Lia.
From Verif Require Import Base XinfoProofs SignalModel SignalSpec SignalMemProofs SignalRelProofs SignalStepProofs SignalRunProofs SignalHoldProofs.
From Verif Require Import SignalRaceModel SignalRaceEraseProofs SignalRaceSpec SignalRaceHbProofs SignalRaceInvProofs SignalRaceLightProofs SignalRaceUserProofs.
From Verif Require Import SignalRaceListProofs SignalRaceRegionProofs.
Import ListNotations.

Lemma X_same (st st' : state) : (forall s, tot (thread_holds s) (threads st') = tot (thread_holds s) (threads st)) ->
  handles st' = handles st -> blockers st' = blockers st -> lost st' = lost st -> forall s, X st' s = X st s.
Proof. intros E E1 E2 E3 s. unfold X. now rewrite E, E1, E2, E3. Qed.
Lemma tot_thread (f : thread -> nat) l t th th' : nth_error l t = Some th -> f th' = f th -> tot f (upd l t th') = tot f l.
Proof. intros E F. pose proof (tot_upd f _ _ _ th' E). lia. Qed.
Lemma direct_run {T} g (x : logged T) a : snd (direct g x) = Ok a -> snd x = Ok a /\ fst (direct g x) = EBeg (OSig g) false :: fst x.
Proof. unfold direct. intros E. apply lbind_ok in E. destruct E as (u & _ & E & F). cbn in F. auto. Qed.
Lemma say_run {T} l (x : logged T) a : snd (lbind (log l (Ok tt)) (fun _ => x)) = Ok a -> snd x = Ok a /\ fst (lbind (log l (Ok tt)) (fun _ => x)) = l ++ fst x.
Proof. intros E. apply lbind_ok in E. destruct E as (u & _ & E & F). auto. Qed.

Section Locks.
Variables (st st' : state) (i i' : ideal) (L L' : nat -> list nat) (H H' : nat -> option nat).
Hypothesis R : rel st i L H.
Hypothesis R' : rel st' i' L' H'.
Variables (t : nat) (th : thread) (es : list access) (r : obs).
Hypothesis Et : nth_error (threads st) t = Some th.
Variable g : nat.
Hypothesis Hg : glive (mm st) g = true.

Lemma region_is begs body rl : es = begs ++ ELock g :: body ++ rl -> region st st' t g begs body rl -> sound st st' t es.
Proof. intros -> Q. exists begs, [ELock g], body, rl. split; auto. eapply region_sound; eauto. Qed.

Lemma list_region begs body rl m' ths th' fr Z S L2 H2 X2 B2 A2 :
  st' = mkstate m' ths (handles st) (blockers st) (lost st) fr ->
  (forall u, u <> t -> nth_error ths u = nth_error (threads st) u) -> nth_error ths t = Some th' ->
  (begs = [EBeg (OSig g) false] \/ begs = [] /\ busy st t g) ->
  (exists rl', rl = EUnlock g :: rl' /\ forall e, In e rl' -> (exists b w, e = EFin b w) \/ (e = ESigDel g /\ glive m' g = false)) ->
  length (heap m') = length (heap (mm st)) -> length (sigs m') = length (sigs (mm st)) ->
  (forall k, glive m' k = true -> glive (mm st) k = true) ->
  minv m' L2 H2 X2 B2 A2 -> (forall k, k <> g -> L2 k = L k) ->
  okb g Z S (fun s => In s (L g)) (fun s => In s (L2 g)) body ->
  (forall s, Z s -> X st' s = 0) ->
  (forall s, In s (L g) -> S s -> conn m' s = None) ->
  (forall s k, conn m' s = Some k -> conn (mm st) s = Some k) ->
  (forall s, 0 < thread_holds s th -> 0 < thread_holds s th') ->
  (forall s, 0 < thread_holds s th' -> 0 < thread_holds s th \/ In s (L g)) ->
  (forall k f, In f (th_stack th') -> busy_frame k f -> (exists f', In f' (th_stack th) /\ busy_frame k f') \/ k = g) ->
  region st st' t g begs body rl.
Proof.
  intros E To Et' Bg Rl Eh Es Gl I2 Lo O HZ HS Cn T1 T2 Bu.
  assert (forall k, listed st k = L k) as Ls by (intros k; eapply listed_is; eauto).
  assert (forall k, listed st' k = L2 k) as Ls' by (intros k; rewrite E; eapply listed_minv; eauto).
  assert (forall k, L' k = L2 k) as EL by (intros k; rewrite <- Ls'; symmetry; eapply listed_is; eauto).
  assert (nth_error (threads st') t = Some th') as Et2 by (now rewrite E).
  assert (mm st' = m') as Em by (now rewrite E). assert (handles st' = handles st) as Eha by (now rewrite E).
  constructor; auto.
  - now rewrite Em.
  - rewrite Em. lia.
  - now rewrite Em.
  - intros k. rewrite Em. auto.
  - intros k n. rewrite Ls, Ls'. auto.
  - intros e Hi. destruct (ob_form _ _ _ _ _ _ O _ Hi) as [?|(s & Hs & A)]; auto. right. exists s. rewrite Ls. auto.
  - intros b1 s b2 Eb. destruct (ob_free _ _ _ _ _ _ O _ _ _ Eb) as (Hp & Hk & Hz & Hx). split; auto.
    rewrite (mi_refs _ _ _ _ _ _ (r_minv _ _ _ _ R')), HZ by auto. unfold held. destruct (H' s) as [k|] eqn:Eh'; auto. exfalso.
    apply (mi_in _ _ _ _ _ _ (r_minv _ _ _ _ R')) in Eh'. rewrite EL in Eh'.
    destruct (Nat.eq_dec k g) as [->|n]; [auto|]. rewrite Lo in Eh' by auto.
    apply (mi_in _ _ _ _ _ _ (r_minv _ _ _ _ R)) in Eh'. apply (mi_in _ _ _ _ _ _ (r_minv _ _ _ _ R)) in Hp. congruence.
  - intros b1 e b2 s Eb A Hp. rewrite Ls'. assert (In e body) as Hi by (rewrite Eb; apply in_or_app; right; left; auto).
    destruct A as [A| ->].
    + apply (ob_left _ _ _ _ _ _ O _ _ _ _ Eb A). intros ->.
      destruct (ob_free _ _ _ _ _ _ O _ _ _ Eb) as (Hp' & Hk & Hz & Hx).
      assert (0 < refs (mm st') s) as Hr by auto. rewrite (mi_refs _ _ _ _ _ _ (r_minv _ _ _ _ R')), HZ in Hr by auto. unfold held in Hr.
      destruct (H' s) as [k|] eqn:Eh'; [|lia].
      apply (mi_in _ _ _ _ _ _ (r_minv _ _ _ _ R')) in Eh'. rewrite EL in Eh'.
      destruct (Nat.eq_dec k g) as [->|n]; [auto|]. rewrite Lo in Eh' by auto.
      apply (mi_in _ _ _ _ _ _ (r_minv _ _ _ _ R)) in Eh'. apply (mi_in _ _ _ _ _ _ (r_minv _ _ _ _ R)) in Hp'. congruence.
    + destruct (ob_form _ _ _ _ _ _ O _ Hi) as [(w & ?)|(k & Hk & A)]; [discriminate|destruct A].
  - intros s. rewrite Ls, Ls'. apply (ob_out _ _ _ _ _ _ O).
  - intros s. rewrite Ls, Ls'. intros Hs. left. apply (ob_sub _ _ _ _ _ _ O), Hs.
  - intros s k. rewrite Em. intros C. left. split; auto. intros o Hi. pose proof (ob_store _ _ _ _ _ _ O _ _ Hi) as Ss.
    destruct (ob_form _ _ _ _ _ _ O _ Hi) as [(w & ?)|(k' & Hk & A)]; [discriminate|]. cbn in A. destruct A as [-> _]. rewrite HS in C by auto. discriminate.
  - intros s h. unfold tok_h. now rewrite Eha.
  - intros s h. unfold tok_h. rewrite Eha. auto.
  - now rewrite E.
  - now rewrite E.
  - intros u n. rewrite E. cbn. auto.
  - intros s. rewrite (tok_t_at _ _ _ _ Et), (tok_t_at _ _ _ _ Et2). auto.
  - intros s. rewrite (tok_t_at _ _ _ _ Et), (tok_t_at _ _ _ _ Et2), Ls. auto.
  - intros k. rewrite (busy_at _ _ _ _ Et), (busy_at _ _ _ _ Et2). intros (f & Hf & Bf). eauto.
Qed.

Lemma upd_other (l : list thread) a u : u <> t -> nth_error (upd l t a) u = nth_error l u.
Proof.
  intros n. apply XinfoProofs.nth_upd_other; auto.
Qed.
Lemma upd_here a : nth_error (upd (threads st) t a) t = Some a.
Proof. rewrite nth_upd by (apply nth_error_Some; congruence). now rewrite Nat.eqb_refl. Qed.

Lemma d_region s fs : th_stack th = FDisc s (DRegion g) :: fs -> ltau_step kl_orders st t th = (es, Next st' r) -> sound st st' t es.
Proof.
  intros Ef E. unfold ltau_step in E. rewrite Ef in E. cbv zeta in E.
  apply ldone_ok in E. destruct E as (m' & E & Ek & Ee). injection Ek as Es _.
  assert (disconnect_id (mm st) g s = Ok m') as Ed by (rewrite <- (e_disconnect_id kl_orders); auto).
  destruct (disconnect_ok _ _ _ _ _ _ g s (r_minv _ _ _ _ R) Hg) as (m2 & E2 & C1 & C2 & C3). rewrite E2 in Ed. injection Ed as ->.
  unfold ldisconnect_id in *. apply say_run in E. destruct E as [E F]. rewrite F in Ee. clear F.
  open E x G F. rewrite F in Ee. clear F. cbn [lsig log snd] in G. rewrite (get_sig_ok _ _ Hg) in G. injection G as <-. cbn [g_head] in *.
  rewrite (chain_hd _ _ _ (mi_chain _ _ _ _ _ _ (r_minv _ _ _ _ R) g)) in *.
  open E m3 G F. rewrite F in Ee. clear F. apply then_ok in E. destruct E as [-> E]. rewrite E in Ee. clear E.
  change (@None nat) with (last_opt (@nil nat)) in *.
  pose proof (disconnect_okb _ _ _ _ _ _ g s _ (r_minv _ _ _ _ R) Hg (L g) [] _ eq_refl (fun z => z) G) as O.
  set (body := fst (ldisconnect_loop _ _ _ _ _ _ _)) in *.
  assert (okb g (fun k => X st k = 0) (fun k => k = s) (fun k => In k (L g)) (fun k => In k (L g) /\ (k = s -> gact (mm st) g <> 0)) ([ESig g false] ++ body)) as O'.
  { apply okb_app with (Q := fun k => In k (L g)); [apply read_okb; cbn; forms|exact O]. }
  assert (exists L2 H2 X2 B2 A2, minv m' L2 H2 X2 B2 A2 /\ (forall k, k <> g -> L2 k = L k) /\ (forall k, In k (L2 g) <-> In k (L g) /\ (k = s -> gact (mm st) g <> 0)) /\
     length (heap m') = length (heap (mm st)) /\ length (sigs m') = length (sigs (mm st)) /\ (forall k, glive m' k = glive (mm st) k) /\
     (forall k, conn m' k = if Nat.eqb k s && is_slot (H s) g then None else conn (mm st) k)) as (L2 & H2 & X2 & B2 & A2 & I2 & Lo & Lk & Eh & Eg & Gl & Ec).
  { pose proof (mi_in _ _ _ _ _ _ (r_minv _ _ _ _ R)) as Hin. assert ({H s = Some g} + {H s <> Some g}) as [e|e] by (repeat decide equality).
    - destruct (Nat.eq_dec (gact (mm st) g) 0) as [ea|ea].
      + destruct (C2 e ea) as (p & q & El & I2 & [c1 c2 c3 c4 c5]). do 5 eexists. split; [exact I2|].
        pose proof (mi_nodup _ _ _ _ _ _ (r_minv _ _ _ _ R) g) as N. rewrite El in N. pose proof (NoDup_remove_2 _ _ _ N) as N2.
        split; [intros; now apply fupd_other|]. split; [|repeat split; auto].
        * intros k. rewrite fupd_same, El, !in_app_iff. rewrite in_app_iff in N2. cbn. split; [intros Hk; split; [tauto|intros ->; contradiction]|].
          intros [[Hk|[<-|Hk]] Hn]; auto. destruct Hn; auto.
        * intros k. rewrite c1, e. cbn. rewrite Nat.eqb_refl, andb_true_r. reflexivity.
      + destruct (C3 e ea) as (I2 & [c1 c2 c3 c4 c5]). do 5 eexists. split; [exact I2|]. split; [auto|]. split; [|repeat split; auto].
        * intros k. split; [intros; split; auto|tauto].
        * intros k. rewrite c1, e. cbn. rewrite Nat.eqb_refl, andb_true_r. reflexivity.
    - rewrite (C1 e). do 5 eexists. split; [apply (r_minv _ _ _ _ R)|]. split; [auto|]. split; [|repeat split; auto].
      + intros k. split; [|tauto]. intros Hk. split; auto. intros ->. apply Hin in Hk. contradiction.
      + intros k. destruct (is_slot (H s) g) eqn:Ei; [apply is_slot_spec in Ei; contradiction|]. now rewrite andb_false_r. }
  assert (forall k, thread_holds k (mkthread (th_tls th) (FDisc s DRelease :: fs)) = thread_holds k th) as Hh by (intros k; unfold thread_holds; rewrite Ef; reflexivity).
  apply (region_is [] ([ESig g false] ++ body) [EUnlock g]).
  { rewrite Ee. cbn. reflexivity. }
  eapply (list_region [] _ _ m' (upd (threads st) t (mkthread (th_tls th) (FDisc s DRelease :: fs))) (mkthread (th_tls th) (FDisc s DRelease :: fs))
    (fresh st) (fun k => X st k = 0) (fun k => k = s) L2 H2 X2 B2 A2); auto using upd_other, upd_here.
  - right. split; auto. exists th, (FDisc s (DRegion g)). rewrite Ef. cbn. auto.
  - exists []. split; auto. intros e [].
  - intros k. now rewrite Gl.
  - eapply okb_to; [exact O'|]. intros k. now rewrite Lk.
  - intros k Hx. rewrite <- Hx. rewrite <- Es. apply X_same; auto. intros k'. eapply tot_thread; eauto.
  - intros k Hk ->. rewrite Ec, Nat.eqb_refl. apply (mi_in _ _ _ _ _ _ (r_minv _ _ _ _ R)) in Hk. rewrite Hk. cbn. now rewrite Nat.eqb_refl.
  - intros k j. rewrite Ec. destruct (Nat.eqb k s && is_slot (H s) g); [discriminate|auto].
  - intros k. now rewrite Hh.
  - intros k. rewrite Hh. auto.
  - intros k f Hf B. cbn in Hf. destruct Hf as [<-|Hf]; [destruct B|]. left. exists f. rewrite Ef. cbn. auto.
Qed.

Lemma all_body m' : snd (ldisconnect_all kl_orders (mm st) g) = Ok m' ->
  exists body, fst (ldisconnect_all kl_orders (mm st) g) = ELock g :: body ++ [EUnlock g] /\
    okb g (fun k => X st k = 0) (fun _ => True) (fun k => In k (L g)) (fun k => In k (L g) /\ gact (mm st) g <> 0) body.
Proof.
  intros E. unfold ldisconnect_all in *. apply say_run in E. destruct E as [E F]. rewrite F. clear F.
  open E x G F. rewrite F. clear F. cbn [lsig log snd] in G. rewrite (get_sig_ok _ _ Hg) in G. injection G as <-. cbn [g_head g_active] in *.
  rewrite (chain_hd _ _ _ (mi_chain _ _ _ _ _ _ (r_minv _ _ _ _ R) g)) in *.
  open E m3 G F. rewrite F. clear F. apply then_ok in E. destruct E as [-> E]. rewrite E. clear E.
  exists ([ESig g false] ++ fst (ldisconnect_all_loop kl_orders (S (length (heap (mm st)))) (mm st) g (Nat.eqb (gact (mm st) g) 0) (hd_opt (L g)) None)).
  split; [reflexivity|]. apply okb_app with (Q := fun k => In k (L g)); [apply read_okb; cbn; forms|].
  destruct (Nat.eqb_spec (gact (mm st) g) 0) as [e|e].
  - eapply okb_to; [eapply all_remove_okb; [apply (r_minv _ _ _ _ R)|exact Hg|exact e|reflexivity|exact G]|]. cbn. intros s. tauto.
  - change (@None nat) with (last_opt (@nil nat)) in *.
    eapply okb_to; [eapply all_defer_okb; [apply (r_minv _ _ _ _ R)|exact Hg|reflexivity|exact G]|]. cbn. intros s. tauto.
Qed.

Lemma s_disconnect_all : luser_step kl_orders st t th (UDisconnectAll g) = (es, Next st' r) -> sound st st' t es.
Proof.
  intros E. cbn [luser_step] in E. destruct (sig_live (mm st) g); [|discriminate].
  apply ldone_ok in E. destruct E as (m' & E & Ek & Ee). injection Ek as Es _. apply direct_run in E. destruct E as [E F]. rewrite F in Ee. clear F.
  destruct (all_body _ E) as (body & F & O). rewrite F in Ee. rewrite e_disconnect_all in E.
  destruct (disconnect_all_ok _ _ _ _ _ _ g (r_minv _ _ _ _ R) Hg) as (m2 & E2 & C1 & C2). rewrite E2 in E. injection E as ->.
  apply (region_is [EBeg (OSig g) false] body [EUnlock g]); [exact Ee|].
  assert (exists L2 H2 d, minv m' L2 H2 (X st) (B st) (A st) /\ chg (resend L g None (conn (mm st))) d (mm st) m' /\
     (forall k, k <> g -> L2 k = L k) /\ forall k, In k (L2 g) <-> In k (L g) /\ gact (mm st) g <> 0) as (L2 & H2 & d & I2 & Ch & Lo & Lk).
  { destruct (Nat.eq_dec (gact (mm st) g) 0) as [e|e].
    - destruct (C1 e) as [I2 Ch]. do 3 eexists. split; [exact I2|]. split; [exact Ch|]. split; [intros; now apply fupd_other|].
      intros k. rewrite fupd_same. cbn. tauto.
    - destruct (C2 e) as [I2 Ch]. do 3 eexists. split; [exact I2|]. split; [exact Ch|]. split; [auto|]. intros k. tauto. }
  destruct Ch as [c1 c2 c3 c4 c5].
  eapply (list_region _ _ _ m' (threads st) th (fresh st) (fun k => X st k = 0) (fun _ => True) L2 H2 _ _ _); auto.
  - exists []. split; auto. intros e [].
  - intros k. now rewrite c3.
  - exact I2.
  - eapply okb_to; [exact O|]. intros k. now rewrite Lk.
  - intros k Hx. rewrite <- Hx. rewrite <- Es. apply X_same; auto.
  - intros k Hk _. rewrite c1. unfold resend. destruct (in_dec Nat.eq_dec k (L g)); [auto|contradiction].
  - intros k j. rewrite c1. unfold resend. destruct (in_dec Nat.eq_dec k (L g)); [discriminate|auto].
  - intros k f Hf Bf. eauto.
Qed.

Lemma s_destroy : ~ emitting st g -> luser_step kl_orders st t th (UDestroy g) = (es, Next st' r) -> sound st st' t es.
Proof.
  intros Ne E. cbn [luser_step] in E. destruct (sig_live (mm st) g); [|discriminate].
  assert (gact (mm st) g = 0) as Ha.
  { rewrite (mi_act _ _ _ _ _ _ (r_minv _ _ _ _ R)). destruct (A st g) eqn:EA; auto. destruct Ne. apply A_pos. lia. }
  apply ldone_ok in E. destruct E as (m' & E & Ek & Ee). injection Ek as Es _. apply direct_run in E. destruct E as [E F]. rewrite F in Ee. clear F.
  destruct (destroy_ok _ _ _ _ _ _ g (r_minv _ _ _ _ R) Hg Ha) as (m2 & E2 & I2 & [c1 c2 c3 c4 c5]).
  pose proof E as E3. rewrite e_destroy, E2 in E3. injection E3 as ->.
  unfold ldestroy_sig in *. open E m1 G F. rewrite F in Ee. clear F. destruct (all_body _ G) as (body & F & O). rewrite F in Ee.
  open E x Gx F1. rewrite F1 in Ee. clear E F F1. cbn in Ee.
  apply (region_is [EBeg (OSig g) false] body [EUnlock g; ESigDel g]); [rewrite Ee; cbn; now rewrite <- app_assoc|].
  eapply (list_region _ _ _ m' (threads st) th (fresh st) (fun k => X st k = 0) (fun _ => True) (fupd L g []) _ _ _ _); auto.
  - exists [ESigDel g]. split; auto. intros e [<-|[]]. right. split; auto. rewrite c3. apply fupd_same.
  - intros k. rewrite c3. unfold fupd. destruct (Nat.eqb k g); [discriminate|auto].
  - exact I2.
  - intros k n. now apply fupd_other.
  - eapply okb_to; [exact O|]. intros k. rewrite fupd_same. cbn. tauto.
  - intros k Hx. rewrite <- Hx. rewrite <- Es. apply X_same; auto.
  - intros k Hk _. rewrite c1. unfold resend. destruct (in_dec Nat.eq_dec k (L g)); [auto|contradiction].
  - intros k j. rewrite c1. unfold resend. destruct (in_dec Nat.eq_dec k (L g)); [discriminate|auto].
  - intros k f Hf Bf. eauto.
Qed.

Lemma s_num_slots : luser_step kl_orders st t th (UNumSlots g) = (es, Next st' r) -> sound st st' t es.
Proof.
  intros E. cbn [luser_step] in E. destruct (sig_live (mm st) g); [|discriminate].
  apply ldone_ok in E. destruct E as (n & E & Ek & Ee). injection Ek as Es _. apply direct_run in E. destruct E as [E F]. rewrite F in Ee. clear F.
  unfold lnum_slots in *. apply say_run in E. destruct E as [E F]. rewrite F in Ee. clear F.
  open E x G F. rewrite F in Ee. clear F. cbn [lsig log snd] in G. rewrite (get_sig_ok _ _ Hg) in G. injection G as <-. cbn [g_head] in *.
  rewrite (chain_hd _ _ _ (mi_chain _ _ _ _ _ _ (r_minv _ _ _ _ R) g)) in *.
  open E k G F. rewrite F in Ee. clear F. apply then_ok in E. destruct E as [-> E]. rewrite E in Ee. clear E.
  apply (region_is [EBeg (OSig g) false] ([ESig g false] ++ fst (lnum_slots_loop kl_orders (S (length (heap (mm st)))) (mm st) (hd_opt (L g)) 0)) [EUnlock g]); [exact Ee|].
  eapply (list_region _ _ _ (mm st) (threads st) th (fresh st) (fun k => X st k = 0) (fun _ => False) L H _ _ _); auto.
  - rewrite <- Es. apply eta.
  - exists []. split; auto. intros e [].
  - apply (r_minv _ _ _ _ R).
  - apply okb_app with (Q := fun k => In k (L g)); [apply read_okb; cbn; forms|]. eapply (num_okb g _ _ _ (L g) []); eauto. apply (r_minv _ _ _ _ R).
  - intros k Hx. now rewrite <- Es.
  - intros k _ [].
  - intros k f Hf Bf. eauto.
Qed.

Lemma add_opt_run m o m' : snd (ladd_ref_opt kl_orders m o) = Ok m' -> add_ref_opt m o = Ok m' /\ fst (ladd_ref_opt kl_orders m o) = match o with Some s => [ERmw (Count s) Relaxed Add] | None => [] end.
Proof. destruct o; cbn; auto. Qed.
Lemma add_opt_mild m o m' : add_ref_opt m o = Ok m' -> mild m m'.
Proof. destruct o; cbn; [intros E; now destruct (add_ref_mild _ _ _ E)|intros [= <-]; apply mild_refl]. Qed.
Lemma mild_glive m m' : mild m m' -> forall k, glive m' k = glive m k.
Proof. intros M k. unfold glive, sig_view. now rewrite (md_sigs _ _ M). Qed.

Lemma s_emit : luser_step kl_orders st t th (UEmit g) = (es, Next st' r) -> sound st st' t es.
Proof.
  intros E. cbn [luser_step] in E. destruct (sig_live (mm st) g); [|discriminate].
  apply ldone_ok in E. destruct E as (p & E & Ek & Ee). apply direct_run in E. destruct E as [E F]. rewrite F in Ee. clear F.
  apply say_run in E. destruct E as [E F]. rewrite F in Ee. clear F.
  open E x G F. rewrite F in Ee. clear F. cbn [lsig log snd] in G. rewrite (get_sig_ok _ _ Hg) in G. injection G as <-. cbn [g_head g_tail g_active] in *.
  pose proof (r_minv _ _ _ _ R) as I.
  rewrite (chain_hd _ _ _ (mi_chain _ _ _ _ _ _ I g)), (mi_tail _ _ _ _ _ _ I g) in *.
  open E m1 G1 F. rewrite F in Ee. clear F. cbn [lset_active log snd] in G1.
  destruct (set_active_ok _ _ _ _ _ _ g (gact (mm st) g + 1) I Hg) as (m1' & E1 & I1 & S1). rewrite E1 in G1. injection G1 as ->.
  open E m2 G2 F. rewrite F in Ee. clear F. open E m3 G3 F. rewrite F in Ee. clear F. apply then_ok in E. destruct E as [<- E]. rewrite E in Ee. clear E.
  cbn [fst snd] in Ek. injection Ek as Es _.
  apply add_opt_run in G2. destruct G2 as [G2 F2]. apply add_opt_run in G3. destruct G3 as [G3 F3]. rewrite F2, F3 in Ee. clear F2 F3.
  assert (In g [g]) as _ by (left; auto).
  assert (forall k, last_opt (L g) = Some k -> In k (L g)) as Hla.
  { intros k El. destruct (last_opt_some _ _ El) as [w ->]. apply in_or_app. right. left. auto. }
  assert (forall k, hd_opt (L g) = Some k -> In k (L g)) as Hhd.
  { intros k El. destruct (L g); [discriminate|]. injection El as ->. left. auto. }
  destruct (add_ref_opt_ok _ _ _ _ _ _ (last_opt (L g)) I1) as (m2' & E2 & I2 & S2).
  { intros k El. eapply minv_in_refs; eauto. }
  rewrite E2 in G2. injection G2 as ->.
  destruct (add_ref_opt_ok _ _ _ _ _ _ (hd_opt (L g)) I2) as (m3' & E3 & I3 & S3).
  { intros k El. eapply minv_in_refs; eauto. }
  rewrite E3 in G3. injection G3 as ->.
  pose proof (same_trans _ _ _ S1 (same_trans _ _ _ S2 S3)) as [c1 c2 c3 c4 c5].
  set (e := mkem (fresh st) g (hd_opt (L g)) (last_opt (L g)) (th_tls th) (if is_some (hd_opt (L g)) then PBlocked else PLast)) in *.
  set (th' := mkthread (mktls false (t_current (th_tls th))) (FEmit e :: th_stack th)).
  assert (forall k, thread_holds k th' = hold k (hd_opt (L g)) + hold k (last_opt (L g)) + thread_holds k th) as Hh.
  { intros k. unfold th', thread_holds, e. cbn. destruct (hd_opt (L g)); cbn; reflexivity. }
  apply (region_is [EBeg (OSig g) false] ([ESig g false; ESig g true] ++ (match last_opt (L g) with Some s => [ERmw (Count s) Relaxed Add] | None => [] end) ++
     match hd_opt (L g) with Some s => [ERmw (Count s) Relaxed Add] | None => [] end) [EUnlock g]).
  { rewrite Ee. cbn. now rewrite <- !app_assoc. }
  eapply (list_region _ _ _ m3 (upd (threads st) t th') th' (S (fresh st)) (fun _ => False) (fun _ => False) L H _ _ _); auto using upd_other, upd_here.
  - exists []. split; auto. intros f [].
  - intros k. now rewrite c3.
  - exact I3.
  - apply okb_app with (Q := fun k => In k (L g)); [apply read_okb; cbn; forms|].
    apply okb_app with (Q := fun k => In k (L g)); apply read_okb.
    + destruct (last_opt (L g)); cbn; forms.
    + destruct (hd_opt (L g)); cbn; forms.
  - intros k [].
  - intros k _ [].
  - intros k j. rewrite c1. auto.
  - intros k. rewrite Hh. lia.
  - intros k. rewrite Hh. intros Hk. destruct (le_lt_dec (thread_holds k th) 0) as [l|l]; auto. right.
    destruct (hold k (hd_opt (L g))) eqn:Eh.
    + apply Hla, hold_is. lia.
    + apply Hhd, hold_is. lia.
  - intros k f [<-|Hf] B; [right; symmetry; exact B|left; eauto].
Qed.

Lemma t_advance e c fs : th_stack th = FEmit e :: fs -> e_phase e = PAdvance -> e_cur e = Some c -> e_sig e = g -> is_slot (e_last e) c || t_stopped (th_tls th) = false ->
  ltau_step kl_orders st t th = (es, Next st' r) -> sound st st' t es.
Proof.
  intros Ef Ep Ec Eg El E. unfold ltau_step in E. rewrite Ef in E. cbv zeta in E. rewrite Ep, Ec, El in E. rewrite Eg in E.
  apply ldone_ok in E. destruct E as (p & E & Ek & Ee). injection Ek as Es _.
  open E x G F. rewrite F in Ee. clear F G x. cbn [pure fst app] in Ee. apply say_run in E. destruct E as [E F]. rewrite F in Ee. clear F.
  pose proof (r_minv _ _ _ _ R) as I.
  assert (In c (L g) /\ forall k, nxt (mm st) c = Some k -> In k (L g)) as [Hc Hn].
  { destruct (Forall2_nth _ _ _ _ _ (r_threads _ _ _ _ R) Et) as (is & Ei & Rs). cbn beta in Rs. rewrite Ef in Rs. cbn in Rs.
    destruct is as [|[ie|? ?] is]; try contradiction. destruct Rs as [Re _]. unfold emission_rel in Re. rewrite Ep in Re.
    destruct Re as (_ & _ & _ & _ & c' & mid & la & Ec' & _ & Sg & _). rewrite Ec in Ec'. injection Ec' as <-. cbn [w_list world_of] in Sg. rewrite Eg in Sg.
    split; [eapply seg_in; [exact Sg|left; auto]|]. destruct Sg as (pre & post & El' & _). intros k Ek.
    pose proof (mi_chain _ _ _ _ _ _ I g) as C. rewrite El' in C. cbn in C.
    destruct (chain_next _ _ _ _ _ C) as [En _]. rewrite En in Ek. rewrite El'. destruct (mid ++ post) as [|y ys] eqn:Em; [discriminate|]. injection Ek as ->.
    apply in_or_app. right. cbn. rewrite Em. cbn. auto. }
  assert (0 < refs (mm st) c) as Hp by (eapply minv_in_refs; eauto).
  open E x G F. rewrite F in Ee. clear F. cbn [lnext log snd] in G. rewrite (get_slot_ok _ _ (mi_wf _ _ _ _ _ _ I) Hp) in G. injection G as <-. cbn [s_next] in *.
  open E m2 G2 F. rewrite F in Ee. clear F. apply then_ok in E. destruct E as [<- E]. rewrite E in Ee. clear E. cbn [fst snd s_next] in Es.
  apply add_opt_run in G2. destruct G2 as [G2 F2]. rewrite F2 in Ee. clear F2.
  destruct (add_ref_opt_ok _ _ _ _ _ _ (nxt (mm st) c) I) as (m2' & E2 & I2 & [c1 c2 c3 c4 c5]).
  { intros k Ek. eapply minv_in_refs; eauto. }
  rewrite E2 in G2. injection G2 as ->.
  set (th' := mkthread (th_tls th) (FEmit (at_phase e (PRelease (nxt (mm st) c) false)) :: fs)).
  assert (forall k, thread_holds k th' = hold k (nxt (mm st) c) + thread_holds k th) as Hh.
  { intros k. unfold th', thread_holds. rewrite Ef. cbn. rewrite Ep. lia. }
  apply (region_is [] ([ENext c false] ++ match nxt (mm st) c with Some s => [ERmw (Count s) Relaxed Add] | None => [] end) [EUnlock g]).
  { rewrite Ee. cbn. reflexivity. }
  eapply (list_region _ _ _ m2 (upd (threads st) t th') th' (fresh st) (fun _ => False) (fun _ => False) L H _ _ _); auto using upd_other, upd_here.
  - right. split; auto. exists th, (FEmit e). rewrite Ef. cbn. auto.
  - exists []. split; auto. intros f [].
  - intros k. now rewrite c3.
  - exact I2.
  - apply okb_app with (Q := fun k => In k (L g)); apply read_okb; [cbn; forms|]. destruct (nxt (mm st) c); cbn; forms.
  - intros k [].
  - intros k _ [].
  - intros k j. rewrite c1. auto.
  - intros k. rewrite Hh. lia.
  - intros k. rewrite Hh. intros Hk. destruct (le_lt_dec (thread_holds k th) 0) as [l|l]; auto. right. apply Hn, hold_is. lia.
  - intros k f Hf B. left. cbn in Hf. rewrite Ef. destruct Hf as [<-|Hf]; [exists (FEmit e); cbn; auto|exists f; cbn; auto].
Qed.

Lemma t_finish e fs : th_stack th = FEmit e :: fs -> e_phase e = PFinish -> e_sig e = g -> ltau_step kl_orders st t th = (es, Next st' r) -> sound st st' t es.
Proof.
  intros Ef Ep Eg E. unfold ltau_step in E. rewrite Ef in E. cbv zeta in E. rewrite Ep in E. rewrite Eg in E.
  assert ((exists c, e_cur e = Some c) \/ True) as _ by auto.
  apply ldone_ok in E. destruct E as (m' & E & Ek & Ee). injection Ek as Es _.
  apply say_run in E. destruct E as [E F]. rewrite F in Ee. clear F.
  pose proof (r_minv _ _ _ _ R) as I.
  open E x G F. rewrite F in Ee. clear F. cbn [lsig log snd] in G. rewrite (get_sig_ok _ _ Hg) in G. injection G as <-. cbn [g_active] in *.
  open E m1 G1 F. rewrite F in Ee. clear F. cbn [lset_active log snd] in G1.
  destruct (set_active_ok _ _ _ _ _ _ g (gact (mm st) g - 1) I Hg) as (m1' & E1 & I1 & S1). rewrite E1 in G1. injection G1 as ->.
  open E m2 G2 F. rewrite F in Ee. clear F. apply then_ok in E. destruct E as [-> E]. rewrite E in Ee. clear E.
  set (th' := mkthread (e_prev e) fs).
  assert (forall k, thread_holds k th' = thread_holds k th) as Hh.
  { intros k. unfold th', thread_holds. rewrite Ef. cbn. rewrite Ep. reflexivity. }
  assert (glive m1 g = true) as Hg1 by (rewrite (sm_glive _ _ S1); auto).
  match type of Ee with context [fst (if ?c then ?x else ?y)] => set (b := fst (if c then x else y)) in Ee end.
  assert (exists L2 H2, minv m' L2 H2 (X st) (B st) (fupd (A st) g (gact (mm st) g - 1)) /\ (forall k, k <> g -> L2 k = L k) /\
     length (heap m') = length (heap (mm st)) /\ length (sigs m') = length (sigs (mm st)) /\ (forall k, glive m' k = glive (mm st) k) /\
     (forall k, conn m' k = conn (mm st) k) /\ 
     okb g (fun k => X st k = 0) (fun _ => False) (fun k => In k (L g)) (fun k => In k (L2 g)) b) as (L2 & H2 & I2 & Lo & Eh & Es' & Gl & Cn & O).
  { unfold b. clear b Ee. destruct (Nat.eqb_spec (gact (mm st) g) 1) as [e1|e1].
    - assert (gact m1 g = 0) as Ha by (rewrite (mi_act _ _ _ _ _ _ I1), fupd_same; lia).
      pose proof (cleanup_okb g _ _ _ _ _ _ _ I1 Hg1 Ha G2) as O. rewrite e_cleanup in G2. destruct (gdfr m1 g) eqn:Ed.
      + destruct (cleanup_ok _ _ _ _ _ _ g I1 Hg1 Ha Ed) as (m2 & E2 & I2 & [c1 c2 c3 c4 c5]). rewrite E2 in G2. injection G2 as ->.
        destruct S1 as [d1 d2 d3 d4 d5]. do 2 eexists. split; [exact I2|]. split; [intros; now apply fupd_other|].
        split; [congruence|]. split; [congruence|]. split; [intros; rewrite c3; auto|]. split; [intros; rewrite c1; auto|].
        eapply okb_to; [exact O|]. intros k. rewrite fupd_same, filter_In. tauto.
      + rewrite (cleanup_nop _ _ Hg1 Ed) in G2. injection G2 as ->. destruct S1 as [d1 d2 d3 d4 d5]. do 2 eexists. split; [exact I1|]. split; [auto|].
        repeat (split; [solve [auto]|]). eapply okb_to; [exact O|]. intros k. cbn. split; [tauto|]. intros; split; auto. discriminate.
    - cbn in G2. injection G2 as ->. destruct S1 as [d1 d2 d3 d4 d5]. do 2 eexists. split; [exact I1|]. split; [auto|].
      repeat (split; [solve [auto]|]). apply okb_nil. }
  apply (region_is [] ([ESig g false; ESig g true] ++ b) [EUnlock g]).
  { rewrite Ee. cbn. reflexivity. }
  eapply (list_region _ _ _ m' (upd (threads st) t th') th' (fresh st) (fun k => X st k = 0) (fun _ => False) L2 H2 _ _ _); auto using upd_other, upd_here.
  - right. split; auto. exists th, (FEmit e). rewrite Ef. cbn. auto.
  - exists []. split; auto. intros f [].
  - intros k. now rewrite Gl.
  - exact I2.
  - apply okb_app with (Q := fun k => In k (L g)); [apply read_okb; cbn; forms|exact O].
  - intros k Hx. rewrite <- Hx. rewrite <- Es. apply X_same; auto. intros k'. eapply tot_thread; eauto.
  - intros k _ [].
  - intros k j. now rewrite Cn.
  - intros k. now rewrite Hh.
  - intros k. rewrite Hh. auto.
  - intros k f Hf B. left. exists f. rewrite Ef. cbn. auto.
Qed.

Lemma s_connect fr : luser_step kl_orders st t th (UConnect g fr) = (es, Next st' r) -> sound st st' t es.
Proof.
  intros E. cbn [luser_step] in E. destruct (sig_live (mm st) g); [|discriminate].
  apply ldone_ok in E. destruct E as (p & E & Ek & Ee). injection Ek as Es _. apply direct_run in E. destruct E as [E F]. rewrite F in Ee. clear F.
  open E q G F. rewrite F in Ee. clear F. apply then_ok in E. destruct E as [-> E]. rewrite E in Ee. clear E.
  pose proof (r_minv _ _ _ _ R) as I. set (n := length (heap (mm st))) in *.
  destruct (connect_ok _ _ _ _ _ _ g fr I Hg) as (m' & E & I' & [c1 c2 c3 c4 c5]). fold n in E, I', c1, c4.
  pose proof G as G0. rewrite e_connect, E in G0. injection G0 as <-. cbn [fst snd] in Es.
  unfold lconnect in G, Ee. fold n in G, Ee. apply say_run in G. destruct G as [G F]. rewrite F in Ee. clear F.
  open G m2 G2 F. rewrite F in Ee. clear F. open G m3 G3 F. rewrite F in Ee. clear F. apply then_ok in G. destruct G as [_ F]. rewrite F in Ee. clear F.
  cbn [ladd_ref log fst] in Ee.
  set (m1 := mkmem (heap (mm st) ++ [mkslot true 1 (Some g) 0 None]) (sigs (mm st))) in *.
  assert (forall k, listed st k = L k) as Ls by (intros k; eapply listed_is; eauto).
  assert (forall k, listed st' k = fupd L g (if fr then n :: L g else L g ++ [n]) k) as Ls' by (intros k; rewrite <- Es; eapply listed_minv; eauto).
  assert (In n (listed st' g)) as Hn by (rewrite Ls', fupd_same; destruct fr; [left|apply in_or_app; right; left]; auto).
  assert (Forall (fun e => match e with ESig k _ => k = g | ENext s _ => s = n \/ In s (L g) | _ => False end) (fst (linsert_new_slot m1 g n fr))) as Fi.
  { unfold linsert_new_slot in *. open G2 x Gx F. rewrite F. clear F. cbn [lsig log snd] in Gx.
    assert (glive m1 g = true) as Hg1 by exact Hg. rewrite (get_sig_ok _ _ Hg1) in Gx. injection Gx as <-. cbn [g_head g_tail] in *.
    change (gtail m1 g) with (gtail (mm st) g) in *. rewrite (mi_tail _ _ _ _ _ _ I g) in *. rewrite Forall_app. split; [cbn; forms|].
    destruct (ghead m1 g); [destruct fr|].
    - open G2 y Gy F. rewrite F. cbn; forms.
    - destruct (last_opt (L g)) as [la|] eqn:El; [|discriminate]. open G2 y Gy F. rewrite F. cbn; forms. right. destruct (last_opt_some _ _ El) as [w ->]. apply in_or_app. right. left. auto.
    - open G2 y Gy F. rewrite F. cbn; forms. }
  set (ins := fst (linsert_new_slot m1 g n fr)) in *.
  rewrite Forall_forall in Fi.
  apply (region_is [EBeg (OSig g) false] (ENew n :: ins ++ [ERmw (Count n) Relaxed Add]) [EUnlock g; EFin (OConn (length (handles st))) true]).
  { rewrite Ee. cbn. now rewrite <- !app_assoc. }
  assert (forall e, In e (ins ++ [ERmw (Count n) Relaxed Add]) -> (exists w, e = ESig g w) \/ exists s, (s = n \/ In s (L g)) /\ list_access e s) as Fb.
  { intros e Hi. apply in_app_or in Hi. destruct Hi as [Hi|[<-|[]]].
    - specialize (Fi _ Hi). destruct e; try contradiction; [right; exists s; cbn; auto|left; subst; eauto].
    - right. exists n. split; [auto|cbn; auto]. }
  assert (forall s, In s (L g) -> In s (listed st' g)) as Kp.
  { intros s Hs. rewrite Ls', fupd_same. destruct fr; [right|apply in_or_app; left]; auto. }
  constructor; auto.
  - eexists. split; [reflexivity|]. intros e [<-|[]]. eauto.
  - rewrite <- Es. cbn. fold n. lia.
  - rewrite <- Es. cbn. auto.
  - intros k. rewrite <- Es. cbn. now rewrite c3.
  - intros k ne. rewrite Ls, Ls'. now apply fupd_other.
  - intros e [<-|Hi]; [right; exists n; fold n; split; [right; repeat split; auto; left; auto|auto]|].
    destruct (Fb _ Hi) as [?|(s & [-> |Hs] & A)]; auto; right; [exists n|exists s].
    + split; auto. right. fold n. split; auto. split; auto. left. auto.
    + split; auto. left. now rewrite Ls.
  - intros b1 s b2 Eb. exfalso. assert (In (EFree s) (ENew n :: ins ++ [ERmw (Count n) Relaxed Add])) as Hi by (rewrite Eb; apply in_or_app; right; left; auto).
    destruct Hi as [Hi|Hi]; [discriminate|]. apply in_app_or in Hi. destruct Hi as [Hi|[Hi|[]]]; [exact (Fi _ Hi)|discriminate].
  - intros b1 e b2 s Eb A _. left. assert (In e (ENew n :: ins ++ [ERmw (Count n) Relaxed Add])) as Hi by (rewrite Eb; apply in_or_app; right; left; auto).
    destruct Hi as [<-|Hi]; [destruct A as [A|A]; [destruct A|injection A as <-; auto]|].
    destruct (Fb _ Hi) as [(w & ->)|(k & Hk & A')]; [destruct A as [[]|]; discriminate|].
    destruct A as [A| ->]; [|destruct A'].
    assert (k = s) as <-; [|destruct Hk as [->|]; auto].
    destruct e; cbn in *; try contradiction; try congruence; destruct c; try contradiction; try congruence; destruct A, A'; congruence.
  - intros s. rewrite Ls. auto.
  - intros s. rewrite Ls, Ls', fupd_same. fold n. intros Hs. assert (s = n \/ In s (L g)) as [->|?]; auto.
    + destruct fr; [destruct Hs; auto|apply in_app_or in Hs; destruct Hs as [|[]]; auto; contradiction].
    + right. split; auto. left. auto.
  - intros s k. rewrite <- Es. cbn [mm set_handles set_mem]. rewrite c1. unfold fupd. destruct (Nat.eqb_spec s n) as [->|ne].
    + intros [= <-]. right. split; auto. left. auto.
    + intros C. left. split; auto. intros o [Hi|Hi]; [discriminate|]. apply in_app_or in Hi. destruct Hi as [Hi|[Hi|[]]]; [exact (Fi _ Hi)|discriminate].
  - intros s h T. rewrite <- Es. unfold tok_h in *. cbn. rewrite tok_snoc. auto.
  - intros s h T. rewrite <- Es in T. unfold tok_h in T. cbn in T. rewrite tok_snoc in T. destruct T as [[-> E']|T]; [|left; exact T].
    injection E' as <-. right. fold n. repeat split; auto; [right; left|left]; auto.
  - now rewrite <- Es.
  - now rewrite <- Es.
  - intros u _. now rewrite <- Es.
  - intros s T. rewrite <- Es. exact T.
  - intros s T. rewrite <- Es in T. left. exact T.
  - intros k Bu. rewrite <- Es in Bu. left. exact Bu.
Qed.
End Locks.
