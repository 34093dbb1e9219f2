(** Steps that take no lock are sound. *)
From Coq Require Import List Arith Bool Lia.
From Verif Require Import Base SignalModel SignalSpec SignalMemProofs SignalRelProofs SignalStepProofs SignalRunProofs.
From Verif Require Import SignalRaceModel SignalRaceEraseProofs SignalRaceSpec SignalRaceHbProofs SignalRaceInvProofs.
Import ListNotations.

(* ----------------------------------------------------- references and their holders *)

Definition held_at (st : state) (s : nat) : Prop :=
  (exists g, In s (listed st g)) \/ (exists h, tok_h st h s) \/ (exists b, tok_b st b s) \/ (exists u, tok_t st u s) \/ In s (lost st).

Lemma tot_some {T} (f : T -> nat) l : 0 < tot f l -> exists i a, nth_error l i = Some a /\ 0 < f a.
Proof.
  induction l as [|a l IH]; cbn; [lia|]. intros H. destruct (f a) eqn:E.
  - destruct IH as (i & b & Ei & Hb); [lia|]. exists (S i), b. auto.
  - exists 0, a. split; auto. lia.
Qed.
Lemma hold_is s o : 0 < hold s o -> o = Some s.
Proof. unfold hold. destruct o as [k|]; cbn; [|lia]. destruct (Nat.eqb_spec k s); cbn; [congruence|lia]. Qed.

Lemma held_refs st i L H s : rel st i L H -> held_at st s -> 0 < refs (mm st) s.
Proof.
  intros R T. pose proof (r_minv _ _ _ _ R) as I. destruct T as [[g Hs]|T].
  - rewrite (listed_is _ _ _ _ _ R) in Hs. eapply minv_in_refs; eauto.
  - eapply X_refs; eauto. destruct T as [[h Hs]|[[b Hs]|[(u & th & E & Hs)|Hs]]].
    + eapply handle_X; eauto.
    + eapply blocker_X; eauto.
    + unfold X. pose proof (tot_pos (thread_holds s) _ _ _ E). lia.
    + unfold X. pose proof (tot_in (fun k => b2n (Nat.eqb k s)) _ _ Hs) as P. cbn in P. rewrite Nat.eqb_refl in P. cbn in P. lia.
Qed.
Lemma refs_held st i L H s : rel st i L H -> 0 < refs (mm st) s -> held_at st s.
Proof.
  intros R Hp. pose proof (r_minv _ _ _ _ R) as I. rewrite (mi_refs _ _ _ _ _ _ I) in Hp. unfold held in Hp.
  destruct (H s) as [g|] eqn:Eh.
  - left. exists g. rewrite (listed_is _ _ _ _ _ R). now apply (mi_in _ _ _ _ _ _ I).
  - cbn in Hp. unfold X in Hp.
    destruct (tot (hold s) (handles st)) eqn:E1.
    2: { destruct (tot_some (hold s) (handles st)) as (h & c & Ec & Hc); [lia|]. apply hold_is in Hc. subst. right. left. exists h. exact Ec. }
    destruct (tot (hold s) (blockers st)) eqn:E2.
    2: { destruct (tot_some (hold s) (blockers st)) as (h & c & Ec & Hc); [lia|]. apply hold_is in Hc. subst. right. right. left. exists h. exact Ec. }
    destruct (tot (thread_holds s) (threads st)) eqn:E3.
    2: { destruct (tot_some (thread_holds s) (threads st)) as (h & c & Ec & Hc); [lia|]. right. right. right. left. exists h, c. auto. }
    destruct (tot_some (fun k => b2n (Nat.eqb k s)) (lost st)) as (h & c & Ec & Hc); [lia|].
    right. right. right. right. apply nth_error_In in Ec. destruct (Nat.eqb_spec c s); [now subst|cbn in Hc; lia].
Qed.

Lemma tok_t_at st t th s : nth_error (threads st) t = Some th -> (tok_t st t s <-> 0 < thread_holds s th).
Proof.
  intros E. split; [|intros H; exists th; auto]. intros (th' & E' & H). congruence.
Qed.
Lemma busy_at st t th g : nth_error (threads st) t = Some th -> (busy st t g <-> exists f, In f (th_stack th) /\ busy_frame g f).
Proof.
  intros E. split; [|intros (f & H & B); exists th, f; auto]. intros (th' & f & E' & H & B). rewrite E in E'. injection E' as <-. eauto.
Qed.

Lemma stack_live w tl fs is f g : stack_rel w tl fs is -> In f fs -> busy_frame g f -> w_live w g = true.
Proof.
  revert tl is. induction fs as [|x fs IH]; intros tl is Rs [].
  - subst x. intros Bf. destruct f as [e|s d]; cbn in Rs; destruct is as [|[ie|s' fin] is]; try contradiction.
    + destruct Rs as [Re _]. cbn in Bf. subst g. apply Re.
    + destruct Rs as (_ & _ & Hl & _). destruct d; cbn in Bf; try contradiction. subst. apply Hl. reflexivity.
  - intros Bf. destruct x as [e|s d]; cbn in Rs; destruct is as [|[ie|s' fin] is]; try contradiction.
    + destruct Rs as (_ & _ & _ & Rs). eauto.
    + destruct Rs as (_ & _ & _ & _ & _ & Rs). eauto.
Qed.
Lemma busy_live st i L H t g : rel st i L H -> busy st t g -> glive (mm st) g = true.
Proof.
  intros R (th & f & E & Hi & Bf). destruct (Forall2_nth _ _ _ _ _ (r_threads _ _ _ _ R) E) as (is & Ei & Rs). cbn beta in Rs.
  apply (stack_live _ _ _ _ _ _ Rs Hi Bf).
Qed.
Lemma conn_live st i L H s g : rel st i L H -> conn (mm st) s = Some g -> glive (mm st) g = true.
Proof.
  intros R C. apply (r_sender _ _ _ _ R) in C. apply (mi_in _ _ _ _ _ _ (r_minv _ _ _ _ R)) in C.
  destruct (glive (mm st) g) eqn:G; auto. apply (r_gone _ _ _ _ R) in G. rewrite G in C. destruct C.
Qed.

(* ------------------------------------------------------------------ memory unchanged *)

Record mild (m m' : mem) : Prop := {
  md_sigs : sigs m' = sigs m;
  md_len : length (heap m') = length (heap m);
  md_nxt : forall s, nxt m' s = nxt m s;
  md_conn : forall s g, conn m' s = Some g -> conn m s = Some g
}.
Lemma mild_refl m : mild m m.
Proof. constructor; auto. Qed.
Lemma mild_trans a b c : mild a b -> mild b c -> mild a c.
Proof. intros [] []. constructor; intros; try congruence; eauto. Qed.

Lemma walk_ext hp hp' : length hp' = length hp -> (forall s, nxt (mkmem hp' []) s = nxt (mkmem hp []) s) ->
  forall fuel o, walk hp' fuel o = walk hp fuel o.
Proof.
  intros El En. induction fuel as [|fuel IH]; intros [s|]; cbn; auto. specialize (En s). unfold nxt, slot_view in En. cbn in En.
  destruct (nth_error hp s) as [x|] eqn:E, (nth_error hp' s) as [x'|] eqn:E'.
  - now rewrite En, IH.
  - apply nth_error_None in E'. assert (nth_error hp s <> None) as N by congruence. apply nth_error_Some in N. lia.
  - apply nth_error_None in E. assert (nth_error hp' s <> None) as N by congruence. apply nth_error_Some in N. lia.
  - auto.
Qed.
Lemma listed_mild st st' g : mild (mm st) (mm st') -> listed st' g = listed st g.
Proof.
  intros [Es El En _]. unfold listed. rewrite Es. destruct (nth_error (sigs (mm st)) g) as [r|]; auto. rewrite El.
  apply walk_ext; auto. 
Qed.

Lemma get_slot_at m s x : get_slot m s = Ok x -> nth_error (heap m) s = Some x /\ s_live x = true /\ s < length (heap m) /\ s_refs x = refs m s.
Proof.
  unfold get_slot. destruct (nth_error (heap m) s) as [y|] eqn:E; [|discriminate]. destruct (s_live y) eqn:Hl; [|discriminate].
  intros [= <-]. split; auto. split; auto. split; [apply nth_error_Some; congruence|]. unfold refs, slot_view. now rewrite E.
Qed.
Lemma mild_put m s x y : get_slot m s = Ok x -> s_next y = s_next x -> (forall g, s_sender y = Some g -> s_sender x = Some g) -> mild m (put_slot m s y).
Proof.
  intros G En Ec. destruct (get_slot_at _ _ _ G) as (E & _ & Hs & _). constructor; auto.
  - cbn. apply length_upd.
  - intros k. unfold nxt. rewrite slot_view_put by auto. unfold fupd. destruct (Nat.eqb_spec k s) as [->|]; auto.
    unfold slot_view. now rewrite E.
  - intros k g. unfold conn. rewrite slot_view_put by auto. unfold fupd. destruct (Nat.eqb_spec k s) as [->|]; auto.
    unfold slot_view. rewrite E. auto.
Qed.
Lemma refs_put m s x y k : get_slot m s = Ok x -> refs (put_slot m s y) k = if Nat.eqb k s then s_refs y else refs m k.
Proof. intros G. destruct (get_slot_at _ _ _ G) as (E & _ & Hs & _). unfold refs. rewrite slot_view_put by auto. reflexivity. Qed.

Lemma add_ref_mild m s m' : add_ref m s = Ok m' -> mild m m' /\ (forall k, refs m' k = if Nat.eqb k s then S (refs m s) else refs m k) /\ exists x, get_slot m s = Ok x.
Proof.
  unfold add_ref. destruct (get_slot m s) as [x| |] eqn:G; cbn; try discriminate. intros [= <-]. split; [eapply mild_put; eauto|]. split; eauto.
  intros k. rewrite (refs_put _ _ _ _ _ G). cbn. destruct (get_slot_at _ _ _ G) as (_ & _ & _ & ->). destruct (Nat.eqb k s); auto. lia.
Qed.
Lemma release_mild m s m' : release m s = Ok m' ->
  mild m m' /\ 0 < refs m s /\ (forall k, refs m' k = if Nat.eqb k s then refs m s - 1 else refs m k) /\ (exists x, get_slot m s = Ok x) /\
  (refs m s = 1 -> get_slot m' s = UB).
Proof.
  unfold release. destruct (get_slot m s) as [x| |] eqn:G; cbn; try discriminate. destruct (get_slot_at _ _ _ G) as (E & _ & Hs & Er).
  destruct (s_refs x) as [|n] eqn:En; [discriminate|]. intros [= <-]. split; [eapply mild_put; eauto|]. split; [lia|]. split; [|split; eauto].
  - intros k. rewrite (refs_put _ _ _ _ _ G). cbn. destruct (Nat.eqb k s); auto. lia.
  - intros H. unfold get_slot. cbn. rewrite nth_upd by auto. rewrite Nat.eqb_refl.
    cbn. replace n with 0 by lia. reflexivity.
Qed.
Lemma block_mild m s m' : block m s = Ok m' -> mild m m' /\ (forall k, refs m' k = refs m k).
Proof.
  unfold block. destruct (get_slot m s) as [x| |] eqn:G; cbn; try discriminate. intros [= <-]. split; [eapply mild_put; eauto|].
  intros k. rewrite (refs_put _ _ _ _ _ G). cbn. destruct (get_slot_at _ _ _ G) as (_ & _ & _ & ->). destruct (Nat.eqb_spec k s); subst; auto.
Qed.
Lemma unblock_mild m s m' : unblock m s = Ok m' -> mild m m' /\ (forall k, refs m' k = refs m k).
Proof.
  unfold unblock. destruct (get_slot m s) as [x| |] eqn:G; cbn; try discriminate. destruct (s_block x); [discriminate|].
  intros [= <-]. split; [eapply mild_put; eauto|].
  intros k. rewrite (refs_put _ _ _ _ _ G). cbn. destruct (get_slot_at _ _ _ G) as (_ & _ & _ & ->). destruct (Nat.eqb_spec k s); subst; auto.
Qed.
Lemma invalidate_mild m s m' : rebind m s None = Ok m' -> mild m m' /\ conn m' s = None.
Proof.
  unfold rebind. destruct (get_slot m s) as [x| |] eqn:G; cbn; try discriminate. intros [= <-].
  split; [eapply mild_put; eauto; discriminate|]. destruct (get_slot_at _ _ _ G) as (_ & _ & Hs & _).
  unfold conn. rewrite slot_view_put by auto. unfold fupd. now rewrite Nat.eqb_refl.
Qed.

(* ------------------------------------------------------------------- steps without locks *)

Section Light.
Variables (st st' : state) (i i' : ideal) (L L' : nat -> list nat) (H H' : nat -> option nat).
Hypothesis R : rel st i L H.
Hypothesis R' : rel st' i' L' H'.
Variables (t : nat) (begs body rl : list access).

Definition light_access (e : access) (s : nat) : Prop :=
  match e with
  | ERmw c _ _ | ELoad c _ => cell_slot c = s
  | ETarget k | EFree k => k = s
  | _ => False
  end.

Record light : Prop := {
  l_begs : forall e, In e begs -> exists b w, e = EBeg b w;
  l_rel : forall e, In e rl -> exists b w, e = EFin b w;
  l_mild : mild (mm st) (mm st');
  l_body : forall e, In e body -> exists s, light_access e s /\ right st t begs [] s;
  l_free : forall b1 s b2, body = b1 ++ EFree s :: b2 ->
    refs (mm st') s = 0 /\ exists b0 o, b1 = b0 ++ [ERmw (Count s) o Sub] /\ acquiring o = true;
  l_left : forall b1 e b2 s, body = b1 ++ e :: b2 -> light_access e s -> 0 < refs (mm st') s -> left_at st' t rl s \/ dropped s (e :: b2);
  l_out_h : forall s h, tok_h st h s -> ~ tok_h st' h s -> In (EBeg (OConn h) true) begs /\ (left_at st' t rl s \/ dropped s body);
  l_out_b : forall s b, tok_b st b s -> ~ tok_b st' b s -> In (EBeg (OBlocker b) true) begs /\ (left_at st' t rl s \/ dropped s body);
  l_out_t : forall s, tok_t st t s -> ~ tok_t st' t s -> left_at st' t rl s \/ dropped s body;
  l_others : forall u, u <> t -> nth_error (threads st') u = nth_error (threads st) u;
  l_lost : forall s, In s (lost st) -> In s (lost st');
  l_lost' : forall s, In s (lost st') -> In s (lost st) \/ tok_t st t s;
  l_in_h : forall s h, tok_h st' h s -> tok_h st h s \/ In (EFin (OConn h) true) rl /\ right st t begs [] s;
  l_in_b : forall s b, tok_b st' b s -> tok_b st b s \/ In (EFin (OBlocker b) true) rl /\ right st t begs [] s;
  l_in_t : forall s, tok_t st' t s -> right st t begs [] s;
  l_busy : forall g, busy st' t g -> busy st t g \/
    exists s o, conn (mm st) s = Some g /\ tok_t st t s /\ begs ++ body ++ rl = [ERmw (Sender s) o Put] /\ acquiring o = true
}.

Lemma light_uses e s s' : light_access e s -> uses e s' -> s' = s.
Proof. intros A [u U]. destruct e; try contradiction; cbn in *; injection U as <- <-; auto. Qed.
Lemma right_held s : right st t begs [] s -> held_at st s.
Proof. unfold held_at. intros [(g & [] & _)|[(h & w & _ & T)|[(b & w & _ & T)|T]]]; eauto 6. Qed.

Lemma light_sound : light -> sound_step st st' t begs [] body rl.
Proof.
  intros Q. pose proof (l_mild Q) as M. pose proof (fun g => listed_mild st st' g M) as EL.
  assert (forall g, glive (mm st') g = glive (mm st) g) as EG by (intros g; unfold glive, sig_view; now rewrite (md_sigs _ _ M)).
  assert (forall u s, u <> t -> (tok_t st u s <-> tok_t st' u s)) as Oth.
  { intros u s n. unfold tok_t. now rewrite (l_others Q u n). }
  assert (forall e g, In e (begs ++ [] ++ body ++ rl) -> ~ sig_uses e g) as NS.
  { intros e g Hi [u U]. cbn [app] in Hi. rewrite !in_app_iff in Hi. destruct Hi as [Hi|[Hi|Hi]].
    - destruct (l_begs Q _ Hi) as (b & w & ->). discriminate.
    - destruct (l_body Q _ Hi) as (s & A & _). destruct e; try contradiction; discriminate.
    - destruct (l_rel Q _ Hi) as (b & w & ->). discriminate. }
  assert (forall e c, In e (begs ++ [] ++ body ++ rl) -> ~ overwrites c e) as NO.
  { intros e c Hi. cbn [app] in Hi. rewrite !in_app_iff in Hi. destruct Hi as [Hi|[Hi|Hi]].
    - destruct (l_begs Q _ Hi) as (b & w & ->). auto.
    - destruct (l_body Q _ Hi) as (s & A & _). destruct e; try contradiction; auto.
    - destruct (l_rel Q _ Hi) as (b & w & ->). auto. }
  constructor.
  - apply (l_begs Q).
  - intros e [].
  - intros e s Hi [u U]. destruct (l_rel Q _ Hi) as (b & w & ->). discriminate.
  - intros e s Hi. now apply NO.
  - now rewrite (md_len _ _ M).
  - intros s Hi. destruct (l_body Q _ Hi) as (k & A & _). destruct A.
  - intros e s Hi U. right. destruct (l_body Q _ Hi) as (k & A & Hr). now rewrite (light_uses _ _ _ A U).
  - intros e s Hi [w U]. destruct (l_body Q _ Hi) as (k & A & Hr). destruct e; try contradiction; discriminate.
  - apply (l_free Q).
  - intros s Hl Z. destruct (refs (mm st') s) eqn:E; auto. exfalso.
    assert (held_at st' s) as T by (eapply refs_held; eauto; lia).
    assert (held_at st s) as T'.
    { destruct T as [(g & T)|[(h & T)|[(b & T)|[(u & T)|T]]]].
      - left. exists g. now rewrite <- EL.
      - destruct (l_in_h Q _ _ T) as [T'|[_ T']]; [right; left; eauto|now apply right_held].
      - destruct (l_in_b Q _ _ T) as [T'|[_ T']]; [right; right; left; eauto|now apply right_held].
      - destruct (Nat.eq_dec u t) as [->|n']; [now apply right_held, (l_in_t Q)|]. right. right. right. left. exists u. now apply Oth.
      - destruct (l_lost' Q _ T) as [T'|T']; [right; right; right; right; auto|right; right; right; left; eauto]. }
    apply (held_refs _ _ _ _ _ R) in T'. lia.
  - intros b1 e b2 s Eb U Hp. assert (In e body) as Hi by (rewrite Eb; apply in_or_app; right; left; auto).
    destruct (l_body Q _ Hi) as (k & A & Hr). pose proof (light_uses _ _ _ A U) as ->. eapply l_left; eauto.
  - intros s g Hi Hn. rewrite EL in Hn. contradiction.
  - apply (l_out_h Q).
  - apply (l_out_b Q).
  - apply (l_out_t Q).
  - exact Oth.
  - apply (l_lost Q).
  - intros s g Hi. rewrite EL in Hi. auto.
  - intros e s g Hi [w U]. destruct (l_body Q _ Hi) as (k & A & Hr). destruct e; try contradiction; discriminate.
  - intros s h T. destruct (l_in_h Q _ _ T) as [T'|[T' Hr]]; auto.
  - apply (l_in_b Q).
  - apply (l_in_t Q).
  - intros s. apply (held_refs _ _ _ _ _ R').
  - intros s. apply (held_refs _ _ _ _ _ R).
  - now rewrite (md_sigs _ _ M).
  - intros g [].
  - intros g Hi. apply (NS (ESigNew g) g); [|exists Whole; auto]. rewrite app_assoc. apply in_or_app. auto.
  - intros e g Hi U. destruct (NS _ _ Hi U).
  - intros e g u Hi U. destruct (NS e g); [|exists u; auto]. rewrite app_assoc. apply in_or_app. auto.
  - intros b1 e b2 g Eb U. destruct (NS e g); auto. rewrite Eb. apply in_or_app. right. left. auto.
  - intros g _. now rewrite EG.
  - intros g Hi. destruct (NS _ g Hi). exists Whole. auto.
  - intros g Bu. destruct (l_busy Q _ Bu) as [Bu'|(s & o & C & T & E & Ho)]; auto. right. right. exists s, o. auto.
  - intros u g n (th & f & E & Hi & Bf). rewrite (l_others Q u n) in E. exists th, f. auto.
  - intros u Bu. apply (busy_live _ _ _ _ _ _ R) in Bu. apply glive_range in Bu. lia.
  - intros s g C. left. split; [now apply (md_conn _ _ M)|]. intros e Hi. now apply NO.
  - intros s C. apply (conn_live _ _ _ _ _ _ R) in C. apply glive_range in C. lia.
Qed.
End Light.
