(** The invariant that orders all accesses, and what a step must satisfy to keep it. *)
From Coq Require Import List Arith Bool Lia.
From Verif Require Import Base SignalModel SignalSpec SignalMemProofs SignalRelProofs SignalRaceModel SignalRaceSpec SignalRaceHbProofs.
Import ListNotations.

(** Who holds a reference on slot [s]: lists, connections, blockers, threads. *)
Definition tok_h (st : state) (h s : nat) : Prop := nth_error (handles st) h = Some (Some s).
Definition tok_b (st : state) (b s : nat) : Prop := nth_error (blockers st) b = Some (Some s).
Definition tok_t (st : state) (t s : nat) : Prop := exists th, nth_error (threads st) t = Some th /\ 0 < thread_holds s th.

(** Thread [t] is inside a call that works on signal [g]. *)
Definition busy_frame (g : nat) (f : frame) : Prop :=
  match f with FEmit e => e_sig e = g | FDisc _ (DRegion k) => k = g | FDisc _ _ => False end.
Definition busy (st : state) (t g : nat) : Prop :=
  exists th f, nth_error (threads st) t = Some th /\ In f (th_stack th) /\ busy_frame g f.

Definition plain (e : access) (s : nat) : Prop := exists w, slot_use e = Some (s, Plain w).
Definition uses (e : access) (s : nat) : Prop := exists u, slot_use e = Some (s, u).
Definition sig_uses (e : access) (g : nat) : Prop := exists u, sig_use e = Some (g, u).

Record inv (tr : record) (st : state) : Prop := {
  n_slot : forall i t e s, at_ tr i t e -> uses e s -> s < length (heap (mm st));
  n_sig : forall i t e g, at_ tr i t e -> sig_uses e g -> g < length (sigs (mm st));
  n_freed : forall i t s, at_ tr i t (EFree s) -> refs (mm st) s = 0;
  n_del : forall i t g, at_ tr i t (ESigDel g) -> glive (mm st) g = false;
  n_count : forall i t e s, at_ tr i t e -> ~ overwrites (Count s) e;
  n_new_l : forall i t s g, at_ tr i t (ENew s) -> In s (listed st g) -> rmutex tr g i;
  n_new_h : forall i t s h, at_ tr i t (ENew s) -> tok_h st h s -> robj tr (OConn h) true i;
  n_new_b : forall i t s b, at_ tr i t (ENew s) -> tok_b st b s -> robj tr (OBlocker b) true i;
  n_new_t : forall i t s u, at_ tr i t (ENew s) -> tok_t st u s -> known tr u i;
  n_use : forall i t e s, at_ tr i t e -> uses e s -> 0 < refs (mm st) s ->
    rcell tr (Count s) i \/ (exists g, In s (listed st g) /\ rmutex tr g i) \/
    (exists h, tok_h st h s /\ robj tr (OConn h) false i) \/ (exists b, tok_b st b s /\ robj tr (OBlocker b) false i) \/
    (exists u, tok_t st u s /\ known tr u i) \/ In s (lost st);
  n_next : forall i t e s g, at_ tr i t e -> plain e s -> In s (listed st g) -> rmutex tr g i;
  n_sigs : forall i t e g, at_ tr i t e -> sig_uses e g -> glive (mm st) g = true -> rmutex tr g i \/ e = ESigNew g;
  n_snew : forall i t g, at_ tr i t (ESigNew g) -> robj tr (OSig g) true i;
  n_snew_t : forall i t g u, at_ tr i t (ESigNew g) -> busy st u g -> known tr u i;
  n_snew_s : forall i t g s, at_ tr i t (ESigNew g) -> conn (mm st) s = Some g ->
    rcell tr (Sender s) i \/ exists k u, at_ tr k u (ENew s) /\ hb tr i k
}.

Lemma nth_split_in {A} (l : list A) p e : nth_error l p = Some e -> exists b1 b2, l = b1 ++ e :: b2 /\ length b1 = p.
Proof. apply nth_error_split. Qed.

Lemma tok_t_dec st t s : tok_t st t s \/ ~ tok_t st t s.
Proof.
  unfold tok_t. destruct (nth_error (threads st) t) as [th|] eqn:E.
  - destruct (le_lt_dec (thread_holds s th) 0) as [l|l].
    + right. intros (th' & E' & H). injection E' as <-. lia.
    + left. eauto.
  - right. intros (th' & E' & H). discriminate.
Qed.
Lemma opt_dec (o o' : option (option nat)) : o = o' \/ o <> o'.
Proof. assert ({o = o'} + {o <> o'}) as [|] by (repeat decide equality); auto. Qed.

Section Step.
Variables (st st' : state) (t : nat) (begs locks body rel : list access).
Let es := begs ++ locks ++ body ++ rel.

(** A reference on [s] that thread [t] may use in this step. *)
Definition right (s : nat) : Prop :=
  (exists g, In (ELock g) locks /\ In s (listed st g)) \/ (exists h w, In (EBeg (OConn h) w) begs /\ tok_h st h s) \/
  (exists b w, In (EBeg (OBlocker b) w) begs /\ tok_b st b s) \/ tok_t st t s.
(** Where a reference on [s] that thread [t] had is after the step. *)
Definition left_at (s : nat) : Prop :=
  (exists g, In (EUnlock g) rel /\ In s (listed st' g)) \/ (exists h w, In (EFin (OConn h) w) rel /\ tok_h st' h s) \/
  (exists b w, In (EFin (OBlocker b) w) rel /\ tok_b st' b s) \/ tok_t st' t s \/ In s (lost st').
Definition dropped (s : nat) (l : list access) : Prop := exists o, In (ERmw (Count s) o Sub) l /\ releasing o = true.
Definition sright (g : nat) : Prop := In (EBeg (OSig g) false) begs \/ busy st t g.

Record sound_step : Prop := {
  (* the shape *)
  q_begs : forall e, In e begs -> exists b w, e = EBeg b w;
  q_locks : forall e, In e locks -> (exists g, e = ELock g) \/ exists g, e = ESigNew g;
  q_rel : forall e s, In e rel -> ~ uses e s;
  q_count : forall e s, In e es -> ~ overwrites (Count s) e;
  (* uses of slots *)
  q_hlen : length (heap (mm st)) <= length (heap (mm st'));
  q_new : forall s, In (ENew s) body -> s = length (heap (mm st)) /\ s < length (heap (mm st'));
  q_right : forall e s, In e body -> uses e s -> s = length (heap (mm st)) /\ s < length (heap (mm st')) \/ right s;
  q_plain : forall e s, In e body -> plain e s -> s = length (heap (mm st)) \/ exists g, In (ELock g) locks /\ In s (listed st g);
  q_free : forall b1 s b2, body = b1 ++ EFree s :: b2 ->
    refs (mm st') s = 0 /\ exists b0 o, b1 = b0 ++ [ERmw (Count s) o Sub] /\ acquiring o = true;
  q_dead : forall s, s < length (heap (mm st)) -> refs (mm st) s = 0 -> refs (mm st') s = 0;
  q_left : forall b1 e b2 s, body = b1 ++ e :: b2 -> uses e s -> 0 < refs (mm st') s -> left_at s \/ dropped s (e :: b2);
  (* references given up *)
  q_out_l : forall s g, In s (listed st g) -> ~ In s (listed st' g) -> In (ELock g) locks /\ (left_at s \/ dropped s body);
  q_out_h : forall s h, tok_h st h s -> ~ tok_h st' h s -> In (EBeg (OConn h) true) begs /\ (left_at s \/ dropped s body);
  q_out_b : forall s b, tok_b st b s -> ~ tok_b st' b s -> In (EBeg (OBlocker b) true) begs /\ (left_at s \/ dropped s body);
  q_out_t : forall s, tok_t st t s -> ~ tok_t st' t s -> left_at s \/ dropped s body;
  q_others : forall u s, u <> t -> (tok_t st u s <-> tok_t st' u s);
  q_lost : forall s, In s (lost st) -> In s (lost st');
  (* references taken *)
  q_in_l : forall s g, In s (listed st' g) -> In s (listed st g) \/
    In (EUnlock g) rel /\ ((s = length (heap (mm st)) /\ In (ENew s) body) \/ exists g0, In (ELock g0) locks /\ In s (listed st g0));
  q_plain_l : forall e s g, In e body -> plain e s -> In s (listed st' g) -> In (EUnlock g) rel;
  q_in_h : forall s h, tok_h st' h s -> tok_h st h s \/ In (EFin (OConn h) true) rel /\ ((s = length (heap (mm st)) /\ In (ENew s) body) \/ right s);
  q_in_b : forall s b, tok_b st' b s -> tok_b st b s \/ In (EFin (OBlocker b) true) rel /\ right s;
  q_in_t : forall s, tok_t st' t s -> right s;
  q_refs' : forall s, (exists g, In s (listed st' g)) \/ (exists h, tok_h st' h s) \/ (exists b, tok_b st' b s) \/ (exists u, tok_t st' u s) \/ In s (lost st') -> 0 < refs (mm st') s;
  q_refs0 : forall s, (exists g, In s (listed st g)) \/ (exists h, tok_h st h s) \/ (exists b, tok_b st b s) \/ (exists u, tok_t st u s) \/ In s (lost st) -> 0 < refs (mm st) s;
  (* signals *)
  q_slen : length (sigs (mm st)) <= length (sigs (mm st'));
  q_snew : forall g, In (ESigNew g) locks -> g = length (sigs (mm st)) /\ g < length (sigs (mm st')) /\ In (EFin (OSig g) true) rel;
  q_snew' : forall g, ~ In (ESigNew g) (body ++ rel);
  q_suse : forall e g, In e es -> sig_uses e g ->
    g = length (sigs (mm st)) /\ g < length (sigs (mm st')) \/ glive (mm st) g = true /\ sright g;
  q_slock : forall e g u, In e (body ++ rel) -> sig_use e = Some (g, u) -> u <> Atomic -> g = length (sigs (mm st)) \/ In (ELock g) locks;
  q_sfree : forall b1 e b2 g, es = b1 ++ e :: b2 -> sig_uses e g -> glive (mm st') g = true -> e = ESigNew g \/ In (EUnlock g) (e :: b2);
  q_slive : forall g, g < length (sigs (mm st)) -> glive (mm st') g = true -> glive (mm st) g = true;
  q_sdel : forall g, In (ESigDel g) es -> glive (mm st') g = false;
  q_busy : forall g, busy st' t g -> busy st t g \/ sright g \/
    exists s o, conn (mm st) s = Some g /\ tok_t st t s /\ es = [ERmw (Sender s) o Put] /\ acquiring o = true;
  q_busy_o : forall u g, u <> t -> busy st' u g -> busy st u g;
  q_busy_n : forall u, busy st u (length (sigs (mm st))) -> False;
  q_conn : forall s g, conn (mm st') s = Some g ->
    conn (mm st) s = Some g /\ (forall e, In e es -> ~ overwrites (Sender s) e) \/
    (exists x o y, es = x ++ EStore (Sender s) o :: y /\ releasing o = true /\ (forall e, In e y -> ~ overwrites (Sender s) e) /\
       (sright g \/ In (ESigNew g) x)) \/
    (In (ENew s) body /\ sright g);
  q_conn_n : forall s, conn (mm st) s = Some (length (sigs (mm st))) -> False
}.


Lemma pos_begs e : In e begs -> exists q, q < length begs /\ nth_error es q = Some e.
Proof.
  intros Hi. apply In_nth_error in Hi. destruct Hi as [q E]. assert (q < length begs) as Hq by (apply nth_error_Some; congruence).
  exists q. split; auto. unfold es. rewrite nth_error_app1; auto.
Qed.
Lemma pos_locks e : In e locks -> exists q, length begs <= q < length begs + length locks /\ nth_error es q = Some e.
Proof.
  intros Hi. apply In_nth_error in Hi. destruct Hi as [q E]. assert (q < length locks) as Hq by (apply nth_error_Some; congruence).
  exists (length begs + q). split; [lia|]. unfold es. rewrite nth_error_app2 by lia. rewrite nth_error_app1 by lia.
  now replace (length begs + q - length begs) with q by lia.
Qed.
Lemma pos_body p e : nth_error body p = Some e <-> p < length body /\ nth_error es (length begs + length locks + p) = Some e.
Proof.
  assert (p < length body -> nth_error es (length begs + length locks + p) = nth_error body p) as H.
  { intros H. unfold es. rewrite nth_error_app2 by lia. rewrite nth_error_app2 by lia. rewrite nth_error_app1 by lia. f_equal. lia. }
  split.
  - intros E. assert (p < length body) as Hq by (apply nth_error_Some; congruence). split; auto. now rewrite H.
  - intros [Hq E]. now rewrite <- H.
Qed.
Lemma pos_in_body e : In e body -> exists p, p < length body /\ nth_error es (length begs + length locks + p) = Some e.
Proof. intros Hi. apply In_nth_error in Hi. destruct Hi as [q E]. exists q. now apply pos_body. Qed.
Lemma pos_rel e : In e rel -> exists q, length begs + length locks + length body <= q /\ nth_error es q = Some e.
Proof.
  intros Hi. apply In_nth_error in Hi. destruct Hi as [q E]. exists (length begs + length locks + length body + q). split; [lia|].
  unfold es. rewrite nth_error_app2 by lia. rewrite nth_error_app2 by lia. rewrite nth_error_app2 by lia. rewrite <- E. f_equal. lia.
Qed.
Lemma pos_cases p e : nth_error es p = Some e ->
  p < length begs /\ In e begs \/ length begs <= p < length begs + length locks /\ In e locks \/
  (exists p', p = length begs + length locks + p' /\ nth_error body p' = Some e) \/
  length begs + length locks + length body <= p /\ In e rel.
Proof.
  intros E. unfold es in E. destruct (le_lt_dec (length begs) p) as [l1|l1].
  - rewrite nth_error_app2 in E by auto. destruct (le_lt_dec (length locks) (p - length begs)) as [l2|l2].
    + rewrite nth_error_app2 in E by auto. destruct (le_lt_dec (length body) (p - length begs - length locks)) as [l3|l3].
      * rewrite nth_error_app2 in E by auto. right. right. right. split; [lia|]. eapply nth_error_In; eauto.
      * rewrite nth_error_app1 in E by auto. right. right. left. exists (p - length begs - length locks). split; [lia|auto].
    + rewrite nth_error_app1 in E by auto. right. left. split; [lia|]. eapply nth_error_In; eauto.
  - rewrite nth_error_app1 in E by auto. left. split; auto. eapply nth_error_In; eauto.
Qed.

(* ------------------------------------------------------------ keeping the invariant *)

Section Keep.
Variable tr : record.
Hypothesis I : inv tr st.
Hypothesis Q : sound_step.
Let n := length tr.
Let tr' := tr ++ map (pair t) es.
Let nb := length begs + length locks.

Lemma k_use_pos p e s : nth_error es p = Some e -> uses e s -> exists p', p = nb + p' /\ nth_error body p' = Some e.
Proof.
  intros E U. destruct (pos_cases _ _ E) as [[_ Hi]|[[_ Hi]|[Hp|[_ Hi]]]]; auto.
  - destruct (q_begs Q _ Hi) as (b & w & ->). destruct U as [u U]. discriminate.
  - destruct (q_locks Q _ Hi) as [(g & ->)|(g & ->)]; destruct U as [u U]; discriminate.
  - destruct (q_rel Q _ _ Hi U).
Qed.

Lemma k_lock g i : In (ELock g) locks -> rmutex tr g i -> forall p e, nth_error es p = Some e -> nb <= p -> kn tr t es p i.
Proof.
  intros Hi R p e E Hp. destruct (pos_locks _ Hi) as (q & Hq & Eq). eapply kn_mono; [eapply kn_lock; eauto|exact Eq|exact E|unfold nb in Hp; lia].
Qed.
Lemma k_beg b w wo i : In (EBeg b w) begs -> robj tr b wo i -> wo = true \/ w = true ->
  forall p e, nth_error es p = Some e -> length begs <= p -> kn tr t es p i.
Proof.
  intros Hi R Hw p e E Hp. destruct (pos_begs _ Hi) as (q & Hq & Eq). eapply kn_mono; [eapply kn_beg; eauto|exact Eq|exact E|lia].
Qed.

Lemma k_tok s : (exists g, In s (listed st g)) \/ (exists h, tok_h st h s) \/ (exists b, tok_b st b s) \/ (exists u, tok_t st u s) \/ In s (lost st) ->
  s < length (heap (mm st)).
Proof. intros H. apply (q_refs0 Q) in H. now apply refs_range. Qed.
Lemma k_right_tok s : right s -> 0 < refs (mm st) s.
Proof.
  intros [(g & _ & H)|[(h & w & _ & H)|[(b & w & _ & H)|H]]]; apply (q_refs0 Q); eauto 6.
Qed.
Lemma k_right_lt s : right s -> s < length (heap (mm st)).
Proof. intros H. apply k_right_tok in H. now apply refs_range. Qed.

(** The construction of a slot is behind everyone with a right on it. *)
Lemma k_new i u s : at_ tr i u (ENew s) -> right s -> forall p e, nth_error es p = Some e -> nb <= p -> kn tr t es p i.
Proof.
  intros A [(g & L & H)|[(h & w & L & H)|[(b & w & L & H)|H]]] p e E Hp.
  - eapply k_lock; eauto. eapply n_new_l; eauto.
  - eapply k_beg; [exact L|eapply n_new_h; eauto|auto|exact E|unfold nb in Hp; lia].
  - eapply k_beg; [exact L|eapply n_new_b; eauto|auto|exact E|unfold nb in Hp; lia].
  - eapply kn_known; eauto. eapply n_new_t; eauto.
Qed.
Lemma k_snew i u g : at_ tr i u (ESigNew g) -> sright g -> forall p e, nth_error es p = Some e -> length begs <= p -> kn tr t es p i.
Proof.
  intros A [H|H] p e E Hp.
  - eapply k_beg; [exact H|eapply n_snew; eauto|auto|exact E|exact Hp].
  - eapply kn_known; eauto. eapply n_snew_t; eauto.
Qed.

(** From position [q] of the step on, [i] is behind thread [t]. *)
Definition after (q i : nat) : Prop := forall p e, nth_error es p = Some e -> q <= p -> kn tr t es p i \/ i = n + p.
Lemma after_own p e : nth_error es p = Some e -> after p (n + p).
Proof.
  intros E p' e' E' Hp. destruct (Nat.eq_dec p p') as [->|ne]; auto. left. eapply kn_own; eauto. lia.
Qed.
Lemma after_mono q q' i : after q i -> q <= q' -> after q' i.
Proof. intros K H p e E Hp. eapply K; eauto. lia. Qed.
Lemma after_known q i p e : after q i -> nth_error es p = Some e -> q <= p -> known tr' t i.
Proof. intros K E Hp. eapply known_new; eauto. Qed.

Definition held_by (st0 : state) (tr0 : record) (s i : nat) : Prop :=
  (exists g, In s (listed st0 g) /\ rmutex tr0 g i) \/
    (exists h, tok_h st0 h s /\ robj tr0 (OConn h) false i) \/ (exists b, tok_b st0 b s /\ robj tr0 (OBlocker b) false i) \/
    (exists u, tok_t st0 u s /\ known tr0 u i) \/ In s (lost st0).

(** Behind thread [t] and still usable: it is passed on. *)
Lemma k_left s i : left_at s -> after (nb + length body) i -> known tr' t i -> held_by st' tr' s i.
Proof.
  intros L K Kt. unfold held_by.
  destruct L as [(g & Hi & H)|[(h & w & Hi & H)|[(b & w & Hi & H)|[H|H]]]]; auto.
  - left. exists g. split; auto. destruct (pos_rel _ Hi) as (p & Hp & E). eapply rmutex_new; eauto.
  - right. left. exists h. split; auto. destruct (pos_rel _ Hi) as (p & Hp & E). eapply robj_new; eauto. discriminate.
  - right. right. left. exists b. split; auto. destruct (pos_rel _ Hi) as (p & Hp & E). eapply robj_new; eauto. discriminate.
  - right. right. right. left. eauto.
Qed.
Lemma k_drop s i b1 b2 : body = b1 ++ b2 -> dropped s b2 -> after (nb + length b1) i -> rcell tr' (Count s) i.
Proof.
  intros Eb (o & Hi & Ho) K. apply In_nth_error in Hi. destruct Hi as [q E].
  assert (nth_error body (length b1 + q) = Some (ERmw (Count s) o Sub)) as E'.
  { rewrite Eb, nth_error_app2 by lia. rewrite <- E. f_equal. lia. }
  apply pos_body in E'. destruct E' as [_ E']. eapply rcell_new; [exact E'|cbn; auto| |].
  - intros q' x _ Ex. apply (q_count Q). eapply nth_error_In; eauto.
  - eapply K; eauto. fold nb. lia.
Qed.
Lemma k_out s i : left_at s \/ dropped s body -> after nb i -> known tr' t i -> rcell tr' (Count s) i \/ held_by st' tr' s i.
Proof.
  intros [L|D] K Kt.
  - right. apply k_left; auto. eapply after_mono; eauto. lia.
  - left. eapply (k_drop s i [] body); eauto. cbn. now rewrite Nat.add_0_r.
Qed.

Lemma keep_slot i u e s : at_ tr' i u e -> uses e s -> s < length (heap (mm st')).
Proof.
  intros A U. apply at_split in A. pose proof (q_hlen Q). destruct A as [A|(p & -> & -> & E)].
  - pose proof (n_slot _ _ I _ _ _ _ A U). lia.
  - destruct (k_use_pos _ _ _ E U) as (p' & -> & E'). destruct (q_right Q _ _ (nth_error_In _ _ E') U) as [[_ H']|R]; auto.
    apply k_right_lt in R. lia.
Qed.
Lemma keep_sig i u e g : at_ tr' i u e -> sig_uses e g -> g < length (sigs (mm st')).
Proof.
  intros A U. apply at_split in A. pose proof (q_slen Q). destruct A as [A|(p & -> & -> & E)].
  - pose proof (n_sig _ _ I _ _ _ _ A U). lia.
  - destruct (q_suse Q _ _ (nth_error_In _ _ E) U) as [[_ H']|[R _]]; auto.
    assert (g < length (sigs (mm st))) by (now apply glive_range). lia.
Qed.
Lemma keep_freed i u s : at_ tr' i u (EFree s) -> refs (mm st') s = 0.
Proof.
  intros A. apply at_split in A. destruct A as [A|(p & -> & -> & E)].
  - apply (q_dead Q); [eapply n_slot; eauto; exists Whole; auto|eapply n_freed; eauto].
  - destruct (k_use_pos _ _ s E) as (p' & -> & E'); [exists Whole; auto|].
    destruct (nth_error_split _ _ E') as (b1 & b2 & Eb & _). eapply q_free; eauto.
Qed.
Lemma keep_del i u g : at_ tr' i u (ESigDel g) -> glive (mm st') g = false.
Proof.
  intros A. apply at_split in A. destruct A as [A|(p & -> & -> & E)].
  - destruct (glive (mm st') g) eqn:G; auto. apply (q_slive Q) in G; [|eapply n_sig; eauto; exists Whole; auto].
    rewrite (n_del _ _ I _ _ _ A) in G. discriminate.
  - apply (q_sdel Q). eapply nth_error_In; eauto.
Qed.
Lemma keep_count i u e s : at_ tr' i u e -> ~ overwrites (Count s) e.
Proof.
  intros A. apply at_split in A. destruct A as [A|(p & -> & -> & E)]; [eapply n_count; eauto|].
  apply (q_count Q). eapply nth_error_In; eauto.
Qed.

(** Positions of a new slot, in the body. *)
Lemma k_new_pos p s : nth_error es p = Some (ENew s) -> s = length (heap (mm st)) /\ p < nb + length body /\ nb <= p.
Proof.
  intros E. destruct (k_use_pos _ _ s E) as (p' & -> & E'); [exists Whole; auto|].
  assert (p' < length body) by (apply nth_error_Some; congruence).
  split; [|lia]. eapply q_new; eauto. eapply nth_error_In; eauto.
Qed.
Lemma old_not_new i u e s : at_ tr i u e -> uses e s -> s = length (heap (mm st)) -> False.
Proof. intros A U ->. pose proof (n_slot _ _ I _ _ _ _ A U). lia. Qed.
Lemma uses_new s : uses (ENew s) s.
Proof. exists Whole. reflexivity. Qed.
Hint Resolve uses_new : core.

Lemma keep_new_l i u s g : at_ tr' i u (ENew s) -> In s (listed st' g) -> rmutex tr' g i.
Proof.
  intros A Hs. apply at_split in A. destruct A as [A|(p & -> & -> & E)].
  - destruct (q_in_l Q _ _ Hs) as [H|[Hu [[H _]|(g0 & L & H)]]].
    + apply rmutex_app. eapply n_new_l; eauto.
    + destruct (old_not_new _ _ _ _ A (uses_new s) H).
    + destruct (pos_rel _ Hu) as (q & Hq & E). eapply rmutex_new; eauto. left. eapply k_lock; eauto; [eapply n_new_l; eauto|unfold nb; lia].
  - destruct (k_new_pos _ _ E) as (-> & Hp & _). destruct (q_in_l Q _ _ Hs) as [H|[Hu _]].
    + apply ex_intro with (x := g) in H. assert (length (heap (mm st)) < length (heap (mm st))) by (apply k_tok; eauto). lia.
    + destruct (pos_rel _ Hu) as (q & Hq & E'). eapply rmutex_new; eauto. left. eapply kn_own; eauto. unfold nb in Hp. lia.
Qed.
Lemma keep_new_h i u s h : at_ tr' i u (ENew s) -> tok_h st' h s -> robj tr' (OConn h) true i.
Proof.
  intros A Hs. apply at_split in A. destruct A as [A|(p & -> & -> & E)].
  - destruct (q_in_h Q _ _ Hs) as [H|[Hu [[H _]|H]]].
    + apply robj_app. eapply n_new_h; eauto.
    + destruct (old_not_new _ _ _ _ A (uses_new s) H).
    + destruct (pos_rel _ Hu) as (q & Hq & E). eapply robj_new; eauto. left. eapply k_new; eauto. unfold nb; lia.
  - destruct (k_new_pos _ _ E) as (-> & Hp & _). destruct (q_in_h Q _ _ Hs) as [H|[Hu _]].
    + apply ex_intro with (x := h) in H. assert (length (heap (mm st)) < length (heap (mm st))) by (apply k_tok; eauto). lia.
    + destruct (pos_rel _ Hu) as (q & Hq & E'). eapply robj_new; eauto. left. eapply kn_own; eauto. unfold nb in Hp. lia.
Qed.
Lemma keep_new_b i u s b : at_ tr' i u (ENew s) -> tok_b st' b s -> robj tr' (OBlocker b) true i.
Proof.
  intros A Hs. apply at_split in A. destruct A as [A|(p & -> & -> & E)].
  - destruct (q_in_b Q _ _ Hs) as [H|[Hu H]].
    + apply robj_app. eapply n_new_b; eauto.
    + destruct (pos_rel _ Hu) as (q & Hq & E). eapply robj_new; eauto. left. eapply k_new; eauto. unfold nb; lia.
  - destruct (k_new_pos _ _ E) as (-> & Hp & _). destruct (q_in_b Q _ _ Hs) as [H|[Hu H]].
    + apply ex_intro with (x := b) in H. assert (length (heap (mm st)) < length (heap (mm st))) by (apply k_tok; eauto). lia.
    + apply k_right_lt in H. lia.
Qed.
(** What a right in this step makes known. *)
Lemma k_right_known i s (P : nat -> Prop) :
  right s ->
  (forall g, In s (listed st g) -> rmutex tr g i) -> (forall h, tok_h st h s -> robj tr (OConn h) true i) ->
  (forall b, tok_b st b s -> robj tr (OBlocker b) true i) -> (tok_t st t s -> known tr t i) -> known tr' t i.
Proof.
  intros [(g & L & H)|[(h & w & L & H)|[(b & w & L & H)|H]]] K1 K2 K3 K4.
  - destruct (pos_locks _ L) as (q & Hq & E). eapply known_new; eauto. left. eapply kn_lock; eauto.
  - destruct (pos_begs _ L) as (q & Hq & E). eapply known_new; eauto. left. eapply kn_beg; eauto.
  - destruct (pos_begs _ L) as (q & Hq & E). eapply known_new; eauto. left. eapply kn_beg; eauto.
  - apply known_app. auto.
Qed.
Lemma keep_new_t i u s v : at_ tr' i u (ENew s) -> tok_t st' v s -> known tr' v i.
Proof.
  intros A Hs. apply at_split in A. destruct (Nat.eq_dec v t) as [->|ne].
  - destruct A as [A|(p & -> & -> & E)].
    + apply (k_right_known i s (fun _ => True)); [now apply (q_in_t Q)| | | |]; intros; [eapply n_new_l|eapply n_new_h|eapply n_new_b|eapply n_new_t]; eauto.
    + eapply known_new; eauto.
  - apply (q_others Q) in Hs; auto. destruct A as [A|(p & -> & -> & E)].
    + apply known_app. eapply n_new_t; eauto.
    + destruct (k_new_pos _ _ E) as (-> & Hp & _).
      apply ex_intro with (x := v) in Hs. assert (length (heap (mm st)) < length (heap (mm st))) by (apply k_tok; eauto 6). lia.
Qed.

Lemma keep_use i u e s : at_ tr' i u e -> uses e s -> 0 < refs (mm st') s -> rcell tr' (Count s) i \/ held_by st' tr' s i.
Proof.
  intros A U Hr. apply at_split in A. destruct A as [A|(p & -> & -> & E)].
  - assert (0 < refs (mm st) s) as Hr0.
    { destruct (refs (mm st) s) eqn:Z; [|lia]. rewrite (q_dead Q) in Hr; auto. eapply n_slot; eauto. }
    destruct (n_use _ _ I _ _ _ _ A U Hr0) as [R|[(g & H & R)|[(h & H & R)|[(b & H & R)|[(v & H & R)|H]]]]].
    + left. apply rcell_app; auto. intros x Hx. now apply (q_count Q).
    + destruct (in_dec Nat.eq_dec s (listed st' g)) as [Y|N].
      * right. left. exists g. split; auto. now apply rmutex_app.
      * destruct (q_out_l Q _ _ H N) as [L D]. destruct (pos_locks _ L) as (q & Hq & E).
        apply k_out; auto; [|eapply known_new; eauto; left; eapply kn_lock; eauto].
        intros p x Ex Hp. left. eapply k_lock; eauto.
    + destruct (opt_dec (nth_error (handles st') h) (Some (Some s))) as [Y|N].
      * right. right. left. exists h. split; auto. now apply robj_app.
      * destruct (q_out_h Q _ _ H N) as [L D]. destruct (pos_begs _ L) as (q & Hq & E).
        apply k_out; auto; [|eapply known_new; eauto; left; eapply kn_beg; eauto].
        intros p x Ex Hp. left. eapply k_beg; eauto. unfold nb in Hp. lia.
    + destruct (opt_dec (nth_error (blockers st') b) (Some (Some s))) as [Y|N].
      * right. right. right. left. exists b. split; auto. now apply robj_app.
      * destruct (q_out_b Q _ _ H N) as [L D]. destruct (pos_begs _ L) as (q & Hq & E).
        apply k_out; auto; [|eapply known_new; eauto; left; eapply kn_beg; eauto].
        intros p x Ex Hp. left. eapply k_beg; eauto. unfold nb in Hp. lia.
    + destruct (Nat.eq_dec v t) as [->|ne].
      * destruct (tok_t_dec st' t s) as [Y|N].
        -- right. right. right. right. left. exists t. split; auto. now apply known_app.
        -- apply k_out; [eapply q_out_t; eauto| |now apply known_app].
           intros p x Ex Hp. left. eapply kn_known; eauto.
      * right. right. right. right. left. exists v. split; [now apply (q_others Q)|now apply known_app].
    + right. right. right. right. right. now apply (q_lost Q).
  - destruct (k_use_pos _ _ _ E U) as (p' & -> & E'). destruct (nth_error_split _ _ E') as (b1 & b2 & Eb & Hl).
    assert (known tr' t (n + (nb + p'))) as Kt by (eapply known_new; eauto).
    destruct (q_left Q _ _ _ _ Eb U Hr) as [L|D].
    + right. apply k_left; auto. eapply after_mono; [eapply after_own; eauto|].
      assert (p' < length body) by (apply nth_error_Some; congruence). lia.
    + left. eapply k_drop; eauto. rewrite Hl. eapply after_own; eauto.
Qed.

Lemma keep_next i u e s g : at_ tr' i u e -> plain e s -> In s (listed st' g) -> rmutex tr' g i.
Proof.
  intros A Hp Hs. assert (uses e s) as U by (destruct Hp as [w Hp]; exists (Plain w); auto).
  apply at_split in A. destruct A as [A|(p & -> & -> & E)].
  - destruct (q_in_l Q _ _ Hs) as [H|[Hu [[H _]|(g0 & L & H)]]].
    + apply rmutex_app. eapply n_next; eauto.
    + destruct (old_not_new _ _ _ _ A U H).
    + destruct (pos_rel _ Hu) as (q & Hq & E). eapply rmutex_new; eauto. left. eapply k_lock; eauto; [eapply n_next; eauto|unfold nb; lia].
  - destruct (k_use_pos _ _ _ E U) as (p' & -> & E'). assert (p' < length body) by (apply nth_error_Some; congruence).
    pose proof (q_plain_l Q _ _ _ (nth_error_In _ _ E') Hp Hs) as Hu.
    destruct (pos_rel _ Hu) as (q & Hq & E''). eapply rmutex_new; eauto. left. eapply kn_own; eauto. unfold nb. lia.
Qed.

Lemma keep_sigs i u e g : at_ tr' i u e -> sig_uses e g -> glive (mm st') g = true -> rmutex tr' g i \/ e = ESigNew g.
Proof.
  intros A U G. apply at_split in A. destruct A as [A|(p & -> & -> & E)].
  - apply (q_slive Q) in G; [|eapply n_sig; eauto]. destruct (n_sigs _ _ I _ _ _ _ A U G); auto. left. now apply rmutex_app.
  - destruct (nth_error_split _ _ E) as (b1 & b2 & Eb & Hl). destruct (q_sfree Q _ _ _ _ Eb U G) as [->|Hu]; auto.
    left. apply In_nth_error in Hu. destruct Hu as [q Eq]. assert (nth_error es (p + q) = Some (EUnlock g)) as E'.
    { rewrite Eb, nth_error_app2 by lia. rewrite <- Eq. f_equal. lia. }
    eapply rmutex_new; [exact E'|]. destruct (Nat.eq_dec q 0) as [->|ne]; [right; lia|]. left. eapply kn_own; eauto. lia.
Qed.
Lemma k_signew_pos p g : nth_error es p = Some (ESigNew g) -> In (ESigNew g) locks /\ length begs <= p < nb.
Proof.
  intros E. destruct (pos_cases _ _ E) as [[_ Hi]|[[Hp Hi]|[(p' & -> & E')|[_ Hi]]]].
  - destruct (q_begs Q _ Hi) as (b & w & H). discriminate.
  - auto.
  - destruct (q_snew' Q g). apply in_or_app. left. eapply nth_error_In; eauto.
  - destruct (q_snew' Q g). apply in_or_app. auto.
Qed.
Lemma keep_snew i u g : at_ tr' i u (ESigNew g) -> robj tr' (OSig g) true i.
Proof.
  intros A. apply at_split in A. destruct A as [A|(p & -> & -> & E)].
  - apply robj_app. eapply n_snew; eauto.
  - destruct (k_signew_pos _ _ E) as [Hi Hp]. destruct (q_snew Q _ Hi) as (_ & _ & Hf). destruct (pos_rel _ Hf) as (q & Hq & E').
    eapply robj_new; eauto. left. eapply kn_own; eauto. unfold nb in Hp. lia.
Qed.
Lemma sig_uses_new g : sig_uses (ESigNew g) g.
Proof. exists Whole. reflexivity. Qed.
Lemma keep_snew_t i u g v : at_ tr' i u (ESigNew g) -> busy st' v g -> known tr' v i.
Proof.
  intros A B. apply at_split in A. destruct (Nat.eq_dec v t) as [->|ne].
  - destruct A as [A|(p & -> & -> & E)]; [|eapply known_new; eauto].
    destruct (q_busy Q _ B) as [B'|[[L|B']|(s & o & C & T & Ee & Ho)]].
    + apply known_app. eapply n_snew_t; eauto.
    + destruct (pos_begs _ L) as (q & Hq & E). eapply known_new; eauto. left. eapply kn_beg; eauto. eapply n_snew; eauto.
    + apply known_app. eapply n_snew_t; eauto.
    + assert (nth_error es 0 = Some (ERmw (Sender s) o Put)) as E by (fold es in Ee; rewrite Ee; reflexivity).
      eapply known_new; [exact E|]. left.
      destruct (n_snew_s _ _ I _ _ _ _ A C) as [R|(k & w & Ak & Hk)].
      * eapply kn_cell; [exact E|cbn; auto|exact R|]. intros q x Hq. lia.
      * eapply kn_known; [|exact E]. pose proof (n_new_t _ _ I _ _ _ _ Ak T) as (k' & x & Ak' & Uk).
        exists k', x. split; auto. right. destruct Uk as [->|Hk']; auto. eapply HB_trans; eauto.
  - apply (q_busy_o Q) in B; auto. destruct A as [A|(p & -> & -> & E)].
    + apply known_app. eapply n_snew_t; eauto.
    + destruct (k_signew_pos _ _ E) as [Hi _]. destruct (q_snew Q _ Hi) as (-> & _). destruct (q_busy_n Q _ B).
Qed.
Lemma keep_snew_s i u g s : at_ tr' i u (ESigNew g) -> conn (mm st') s = Some g ->
  rcell tr' (Sender s) i \/ exists k v, at_ tr' k v (ENew s) /\ hb tr' i k.
Proof.
  intros A C. apply at_split in A. destruct (q_conn Q _ _ C) as [[C' N]|[(x & o & y & Ee & Ho & N & S)|[Hn S]]].
  - destruct A as [A|(p & -> & -> & E)].
    + destruct (n_snew_s _ _ I _ _ _ _ A C') as [R|(k & v & Ak & Hk)].
      * left. now apply rcell_app.
      * right. exists k, v. split; [now apply at_app|now apply hb_app].
    + destruct (k_signew_pos _ _ E) as [Hi _]. destruct (q_snew Q _ Hi) as (-> & _). destruct (q_conn_n Q _ C').
  - left. fold es in Ee. assert (nth_error es (length x) = Some (EStore (Sender s) o)) as E.
    { rewrite Ee, nth_error_app2 by lia. now rewrite Nat.sub_diag. }
    destruct (k_use_pos _ _ s E) as (p' & Hp' & E'); [exists Atomic; reflexivity|].
    eapply rcell_new; [exact E|cbn; auto| |].
    + intros q z Hq Ez. rewrite Ee, nth_error_app2 in Ez by lia. destruct (q - length x) as [|q'] eqn:Z; [lia|]. cbn in Ez.
      apply N. eapply nth_error_In; eauto.
    + left. destruct A as [A|(p & -> & -> & Ep)].
      * destruct S as [S|S].
        -- eapply k_snew; eauto. unfold nb in Hp'. lia.
        -- apply In_nth_error in S. destruct S as [q Eq]. assert (nth_error es q = Some (ESigNew g)) as Eq'.
           { rewrite Ee, nth_error_app1; auto. apply nth_error_Some. congruence. }
           destruct (k_signew_pos _ _ Eq') as [Hi _]. destruct (q_snew Q _ Hi) as (-> & _).
           pose proof (n_sig _ _ I _ _ _ _ A (sig_uses_new _)). lia.
      * destruct (k_signew_pos _ _ Ep) as [Hi Hp]. eapply kn_own; eauto. lia.
  - right. destruct (pos_in_body _ Hn) as (p & Hp & E). exists (n + (nb + p)), t. split; [now apply at_new|].
    destruct A as [A|(q & -> & -> & Eq)].
    + eapply (k_snew i u g A S); eauto. unfold nb. lia.
    + destruct (k_signew_pos _ _ Eq) as [Hi Hq]. eapply kn_own; eauto. lia.
Qed.

Lemma inv_step : inv tr' st'.
Proof.
  constructor.
  - exact keep_slot.
  - exact keep_sig.
  - exact keep_freed.
  - exact keep_del.
  - exact keep_count.
  - exact keep_new_l.
  - exact keep_new_h.
  - exact keep_new_b.
  - exact keep_new_t.
  - exact keep_use.
  - exact keep_next.
  - exact keep_sigs.
  - exact keep_snew.
  - exact keep_snew_t.
  - exact keep_snew_s.
Qed.

(* ------------------------------------------------------------------- conflicts *)

Lemma step_slots i u e p x s v w : at_ tr i u e -> nth_error es p = Some x -> slot_use e = Some (s, v) -> slot_use x = Some (s, w) ->
  clash v w -> hb tr' i (n + p).
Proof.
  intros A E V W Cl. assert (uses e s) as U by (exists v; auto). assert (uses x s) as Ux by (exists w; auto).
  destruct (k_use_pos _ _ _ E Ux) as (p' & -> & E'). pose proof (nth_error_In _ _ E') as Hx.
  destruct (q_right Q _ _ Hx Ux) as [[H _]|R]; [destruct (old_not_new _ _ _ _ A U H)|].
  assert (v = Whole \/ w = Whole \/ (exists a b, v = Plain a /\ w = Plain b)) as Cs.
  { destruct v, w; cbn in Cl; auto; try contradiction. right. right. eauto. }
  destruct Cs as [->|[->|(a & b & -> & ->)]].
  - destruct e; try discriminate; injection V as ->.
    + eapply k_new; eauto. lia.
    + pose proof (n_freed _ _ I _ _ _ A). apply k_right_tok in R. lia.
  - destruct x; try discriminate; injection W as ->.
    + destruct (q_new Q _ Hx) as [H _]. destruct (old_not_new _ _ _ _ A U H).
    + destruct (nth_error_split _ _ E') as (b1 & b2 & Eb & Hl). destruct (q_free Q _ _ _ Eb) as (Z & b0 & o & Eb1 & Ho).
      assert (forall T : (exists g, In s (listed st' g)) \/ (exists h, tok_h st' h s) \/ (exists b, tok_b st' b s) \/ (exists u, tok_t st' u s) \/ In s (lost st'), False) as No.
      { intros T. apply (q_refs' Q) in T. lia. }
      destruct (n_use _ _ I _ _ _ _ A U (k_right_tok _ R)) as [K|[(g & H & K)|[(h & H & K)|[(b & H & K)|[(v' & H & K)|H]]]]].
      * assert (nth_error es (nb + length b0) = Some (ERmw (Count s) o Sub)) as Es.
        { apply pos_body. rewrite Eb, Eb1, <- app_assoc. rewrite nth_error_app2 by lia. now rewrite Nat.sub_diag. }
        eapply kn_mono; [eapply kn_cell; [exact Es|cbn; auto|exact K|]|exact Es|exact E|].
        -- intros q y _ Ey. apply (q_count Q). eapply nth_error_In; eauto.
        -- rewrite Eb1, app_length in Hl. cbn in Hl. lia.
      * destruct (in_dec Nat.eq_dec s (listed st' g)) as [Y|N]; [destruct No; eauto|].
        destruct (q_out_l Q _ _ H N) as [L _]. eapply k_lock; eauto. lia.
      * destruct (opt_dec (nth_error (handles st') h) (Some (Some s))) as [Y|N]; [destruct No; eauto|].
        destruct (q_out_h Q _ _ H N) as [L _]. eapply k_beg; eauto. unfold nb. lia.
      * destruct (opt_dec (nth_error (blockers st') b) (Some (Some s))) as [Y|N]; [destruct No; eauto|].
        destruct (q_out_b Q _ _ H N) as [L _]. eapply k_beg; eauto. unfold nb. lia.
      * destruct (Nat.eq_dec v' t) as [->|ne]; [eapply kn_known; eauto|].
        destruct No. right. right. right. left. exists v'. now apply (q_others Q).
      * destruct No. right. right. right. right. now apply (q_lost Q).
  - destruct (q_plain Q _ s Hx) as [H|(g & L & H)]; [exists b; auto|destruct (old_not_new _ _ _ _ A U H)|].
    eapply k_lock; eauto; [|lia]. eapply n_next; eauto. exists a. auto.
Qed.

Lemma k_sig_pos p e g : nth_error es p = Some e -> sig_uses e g -> length begs <= p.
Proof.
  intros E U. destruct (le_lt_dec (length begs) p) as [|l]; auto. destruct (pos_cases _ _ E) as [[_ Hi]|[[Hp Hi]|[(p' & -> & E')|[Hp Hi]]]]; try lia.
  destruct (q_begs Q _ Hi) as (b & w & ->). destruct U as [u U]. discriminate.
Qed.
Lemma step_sigs i u e p x g v w : at_ tr i u e -> nth_error es p = Some x -> sig_use e = Some (g, v) -> sig_use x = Some (g, w) ->
  clash v w -> hb tr' i (n + p).
Proof.
  intros A E V W Cl. assert (sig_uses e g) as U by (exists v; auto). assert (sig_uses x g) as Ux by (exists w; auto).
  pose proof (nth_error_In _ _ E) as Hx. pose proof (n_sig _ _ I _ _ _ _ A U) as Hlt. pose proof (k_sig_pos _ _ _ E Ux) as Hp.
  destruct (q_suse Q _ _ Hx Ux) as [[H _]|[G R]]; [lia|].
  assert (forall i0 u0, at_ tr i0 u0 (ESigNew g) -> hb tr' i0 (n + p)) as Knew.
  { intros i0 u0 A0. eapply k_snew; eauto. }
  assert (v = Whole \/ w <> Atomic) as [->|Na].
  { destruct v, w; cbn in Cl; auto; try contradiction; right; discriminate. }
  - destruct e; try discriminate; injection V as ->.
    + eauto.
    + rewrite (n_del _ _ I _ _ _ A) in G. discriminate.
  - assert (In (ELock g) locks /\ nb <= p) as [L Hb].
    { destruct (pos_cases _ _ E) as [[l Hi]|[[l Hi]|[(p' & -> & E')|[l Hi]]]].
      - lia.
      - destruct (q_locks Q _ Hi) as [(g' & ->)|(g' & ->)]; cbn in W; injection W as <- <-; [contradiction|].
        destruct (q_snew Q _ Hi) as (-> & _). lia.
      - split; [|unfold nb; lia]. destruct (q_slock Q x g w) as [->|L]; auto; [|lia]. apply in_or_app. left. eapply nth_error_In; eauto.
      - split; [|unfold nb; lia]. destruct (q_slock Q x g w) as [->|L]; auto; [|lia]. apply in_or_app. auto. }
    destruct (n_sigs _ _ I _ _ _ _ A U G) as [K| ->]; [|eauto]. eapply k_lock; eauto.
Qed.
Lemma step_conflict i u e p x : at_ tr i u e -> nth_error es p = Some x -> conflict e x -> hb tr' i (n + p).
Proof.
  intros A E [(s & v & w & V & W & Cl)|(g & v & w & V & W & Cl)]; [eapply step_slots|eapply step_sigs]; eauto.
Qed.

End Keep.

End Step.

