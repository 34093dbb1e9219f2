(** Steps that are one region under the mutex of a signal are sound. *)
From Coq Require Import List Arith Bool Lia.
From Verif Require Import Base SignalModel SignalSpec SignalMemProofs SignalRelProofs SignalStepProofs SignalRunProofs SignalHoldProofs.
From Verif Require Import SignalRaceModel SignalRaceEraseProofs SignalRaceSpec SignalRaceHbProofs SignalRaceInvProofs SignalRaceLightProofs SignalRaceUserProofs SignalRaceListProofs.
Import ListNotations.

Section Region.
Variables (st st' : state) (i i' : ideal) (L L' : nat -> list nat) (H H' : nat -> option nat).
Hypothesis R : rel st i L H.
Hypothesis R' : rel st' i' L' H'.
Variables (t g : nat) (begs body rl : list access).
Let n := length (heap (mm st)).

Record region : Prop := {
  g_begs : begs = [EBeg (OSig g) false] \/ begs = [] /\ busy st t g;
  g_live : glive (mm st) g = true;
  g_rl : exists rl', rl = EUnlock g :: rl' /\ forall e, In e rl' -> (exists b w, e = EFin b w) \/ (e = ESigDel g /\ glive (mm st') g = false);
  g_hlen : length (heap (mm st)) <= length (heap (mm st'));
  g_slen : length (sigs (mm st')) = length (sigs (mm st));
  g_glive : forall k, glive (mm st') k = true -> glive (mm st) k = true;
  g_other : forall k, k <> g -> listed st' k = listed st k;
  g_form : forall e, In e body -> (exists w, e = ESig g w) \/
    exists s, (In s (listed st g) \/ s = n /\ In (ENew s) body /\ In s (listed st' g)) /\ (list_access e s \/ e = ENew s /\ s = n);
  g_free : forall b1 s b2, body = b1 ++ EFree s :: b2 ->
    refs (mm st') s = 0 /\ exists b0 o, b1 = b0 ++ [ERmw (Count s) o Sub] /\ acquiring o = true;
  g_left : forall b1 e b2 s, body = b1 ++ e :: b2 -> list_access e s \/ e = ENew s -> 0 < refs (mm st') s -> In s (listed st' g) \/ dropped s (e :: b2);
  g_out : forall s, In s (listed st g) -> In s (listed st' g) \/ dropped s body;
  g_in : forall s, In s (listed st' g) -> In s (listed st g) \/ s = n /\ In (ENew s) body;
  g_conn : forall s k, conn (mm st') s = Some k ->
    conn (mm st) s = Some k /\ (forall o, ~ In (EStore (Sender s) o) body) \/ In (ENew s) body /\ k = g;
  g_h : forall s h, tok_h st h s -> tok_h st' h s;
  g_h' : forall s h, tok_h st' h s -> tok_h st h s \/ In (EFin (OConn h) true) rl /\ s = n /\ In (ENew s) body;
  g_b : blockers st' = blockers st;
  g_lost : lost st' = lost st;
  g_oth : forall u, u <> t -> nth_error (threads st') u = nth_error (threads st) u;
  g_t : forall s, tok_t st t s -> tok_t st' t s;
  g_t' : forall s, tok_t st' t s -> tok_t st t s \/ In s (listed st g);
  g_busy : forall k, busy st' t k -> busy st t k \/ k = g
}.

Lemma list_uses e s s' : list_access e s -> uses e s' -> s' = s.
Proof.
  intros A [u U]. destruct e; try contradiction; cbn in *; try (injection U as <- <-; auto; fail); destruct c; try contradiction; cbn in *; injection U as <- <-; try destruct A; auto.
Qed.
Lemma form_uses e s s' : list_access e s \/ e = ENew s /\ s = n -> uses e s' -> s' = s.
Proof. intros [A|[-> _]] U; [eapply list_uses; eauto|]. destruct U as [u U]. cbn in U. congruence. Qed.
Lemma list_sig e s k : list_access e s \/ e = ENew s /\ s = n -> ~ sig_uses e k.
Proof. intros [A|[-> _]] [u U]; [|discriminate]. destruct e; try contradiction; discriminate. Qed.

Lemma region_sound : region -> sound_step st st' t begs [ELock g] body rl.
Proof.
  intros Q. destruct (g_rl Q) as (rl' & Erl & Hrl).
  assert (sright st t begs g) as SR by (unfold sright; destruct (g_begs Q) as [->|[_ B]]; [left; left|right]; auto).
  assert (forall e, In e begs -> exists b w, e = EBeg b w) as Bg.
  { intros e Hi. destruct (g_begs Q) as [->|[-> _]]; [destruct Hi as [<-|[]]; eauto|destruct Hi]. }
  assert (forall e, In e rl -> (forall s, ~ uses e s) /\ (forall c, ~ overwrites c e) /\ (forall k, e <> ESigNew k) /\ (forall k, sig_uses e k -> k = g)) as Rl.
  { intros e Hi. rewrite Erl in Hi. destruct Hi as [<-|Hi]; [|destruct (Hrl _ Hi) as [(b & w & ->)|[-> _]]].
    all: split; [intros s [u U]; discriminate|]; split; [intros c []|]; split; [discriminate|]; intros k [u U]; cbn in U; congruence. }
  assert (In (EUnlock g) rl) as Un by (rewrite Erl; left; auto).
  assert (forall s k k', In s (listed st k) -> In s (listed st k') -> k = k') as Uq.
  { intros s k k' H1 H2. rewrite (listed_is _ _ _ _ _ R) in H1. rewrite (listed_is _ _ _ _ _ R) in H2. apply (mi_in _ _ _ _ _ _ (r_minv _ _ _ _ R)) in H1. apply (mi_in _ _ _ _ _ _ (r_minv _ _ _ _ R)) in H2. congruence. }
  assert (forall k, In n (listed st k) -> False) as Nn.
  { intros k Hi. assert (0 < refs (mm st) n) as Hp by (eapply held_refs; eauto; left; eauto). apply refs_range in Hp. unfold n in Hp. lia. }
  assert (forall u s, u <> t -> (tok_t st u s <-> tok_t st' u s)) as Oth by (intros u s ne; unfold tok_t; now rewrite (g_oth Q u ne)).
  assert (forall k, busy st t k \/ k = g -> sright st t begs k) as SB by (intros k [B| ->]; [right|]; auto).
  constructor.
  - exact Bg.
  - intros e [<-|[]]. left. eauto.
  - intros e s Hi. now apply Rl.
  - intros e s Hi. cbn [app] in Hi. rewrite in_app_iff in Hi. destruct Hi as [Hi|[<-|Hi]].
    + destruct (Bg _ Hi) as (b & w & ->). auto.
    + auto.
    + rewrite in_app_iff in Hi. destruct Hi as [Hi|Hi]; [|now apply Rl].
      destruct (g_form Q _ Hi) as [(w & ->)|(k & _ & [A|[-> _]])]; auto. destruct e; auto. cbn. intros ->. destruct A.
  - apply (g_hlen Q).
  - intros s Hi. destruct (g_form Q _ Hi) as [(w & E)|(k & Hk & [A|[E E']])]; [discriminate|destruct A|]. injection E as ->. split; auto.
    destruct Hk as [Hk|(_ & _ & Hk)]; [subst; destruct (Nn _ Hk)|].
    assert (0 < refs (mm st') k) as Hp by (eapply held_refs; eauto; left; eauto). now apply refs_range in Hp.
  - intros e s Hi U. destruct (g_form Q _ Hi) as [(w & ->)|(k & Hk & A)]; [destruct U; discriminate|].
    rewrite (form_uses _ _ _ A U). destruct Hk as [Hk|(-> & _ & Hk)]; [right; left; exists g; cbn; auto|]. left. split; auto.
    assert (0 < refs (mm st') n) as Hp by (eapply held_refs; eauto; left; eauto). now apply refs_range in Hp.
  - intros e s Hi [w U]. destruct (g_form Q _ Hi) as [(w' & ->)|(k & Hk & A)]; [discriminate|].
    assert (s = k) as -> by (eapply form_uses; eauto; eexists; eauto). destruct Hk as [Hk|(-> & _)]; [right; exists g; cbn; auto|auto].
  - apply (g_free Q).
  - intros s Hl Z. destruct (refs (mm st') s) eqn:E; auto. exfalso.
    assert (held_at st' s) as T by (eapply refs_held; eauto; lia).
    assert (held_at st s) as T'.
    { destruct T as [(k & T)|[(h & T)|[(b & T)|[(u & T)|T]]]].
      - left. destruct (Nat.eq_dec k g) as [->|ne]; [|exists k; now rewrite <- (g_other Q)].
        destruct (g_in Q _ T) as [T'|[-> _]]; [eauto|lia].
      - destruct (g_h' Q _ _ T) as [T'|(_ & -> & _)]; [right; left; eauto|lia].
      - right. right. left. exists b. unfold tok_b in *. now rewrite <- (g_b Q).
      - destruct (Nat.eq_dec u t) as [->|ne]; [|right; right; right; left; exists u; now apply Oth].
        destruct (g_t' Q _ T) as [T'|T']; [right; right; right; left; eauto|left; eauto].
      - right. right. right. right. now rewrite <- (g_lost Q). }
    apply (held_refs _ _ _ _ _ R) in T'. lia.
  - intros b1 e b2 s Eb U Hp. assert (In e body) as Hi by (rewrite Eb; apply in_or_app; right; left; auto).
    destruct (g_form Q _ Hi) as [(w & ->)|(k & Hk & A)]; [destruct U; discriminate|].
    assert (s = k) as -> by (eapply form_uses; eauto).
    destruct (g_left Q b1 e b2 k Eb) as [Hs|D]; auto; [tauto|]. left. left. exists g. auto.
  - intros s k Hi Hn. destruct (Nat.eq_dec k g) as [->|ne]; [|rewrite (g_other Q) in Hn by auto; contradiction].
    split; [left; auto|]. destruct (g_out Q _ Hi) as [?|D]; [contradiction|auto].
  - intros s h T Tn. destruct Tn. now apply (g_h Q).
  - intros s b T Tn. destruct Tn. unfold tok_b in *. now rewrite (g_b Q).
  - intros s T Tn. destruct Tn. now apply (g_t Q).
  - exact Oth.
  - intros s. now rewrite (g_lost Q).
  - intros s k Hi. destruct (Nat.eq_dec k g) as [->|ne]; [|rewrite (g_other Q) in Hi by auto; auto].
    destruct (g_in Q _ Hi) as [Hi'|[-> Hn]]; auto.
  - intros e s k Hi [w U] Hk. destruct (Nat.eq_dec k g) as [->|ne]; auto. rewrite (g_other Q) in Hk by auto.
    destruct (g_form Q _ Hi) as [(w' & ->)|(s' & Hs & A)]; [discriminate|].
    assert (s = s') as <- by (eapply form_uses; eauto; eexists; eauto). destruct Hs as [Hs|(-> & _)]; [destruct ne; eauto|destruct (Nn _ Hk)].
  - intros s h T. destruct (g_h' Q _ _ T) as [T'|(Hf & -> & Hn)]; auto.
  - intros s b T. left. unfold tok_b in *. now rewrite <- (g_b Q).
  - intros s T. destruct (g_t' Q _ T) as [T'|T']; [right; right; right; auto|left; exists g; cbn; auto].
  - intros s. apply (held_refs _ _ _ _ _ R').
  - intros s. apply (held_refs _ _ _ _ _ R).
  - now rewrite (g_slen Q).
  - intros k [E|[]]. discriminate.
  - intros k Hi. apply in_app_or in Hi. destruct Hi as [Hi|Hi]; [|destruct (Rl _ Hi) as (_ & _ & Hx & _); destruct (Hx k eq_refl)].
    destruct (g_form Q _ Hi) as [(w & E)|(s & _ & A)]; [discriminate|]. apply (list_sig _ _ k A). exists Whole. reflexivity.
  - intros e k Hi U. right. assert (k = g) as ->; [|split; [apply (g_live Q)|auto]].
    cbn [app] in Hi. rewrite in_app_iff in Hi. destruct Hi as [Hi|[<-|Hi]].
    + destruct (Bg _ Hi) as (b & w & ->). destruct U; discriminate.
    + destruct U as [u U]. cbn in U. congruence.
    + rewrite in_app_iff in Hi. destruct Hi as [Hi|Hi]; [|now apply (Rl _ Hi)].
      destruct (g_form Q _ Hi) as [(w & ->)|(s & _ & A)]; [destruct U as [u U]; cbn in U; congruence|]. destruct (list_sig _ _ k A U).
  - intros e k u Hi U _. right. left. f_equal. symmetry. rewrite in_app_iff in Hi. destruct Hi as [Hi|Hi].
    + destruct (g_form Q _ Hi) as [(w & ->)|(s & _ & A)]; [cbn in U; congruence|]. destruct (list_sig _ _ k A). exists u. auto.
    + apply (Rl _ Hi). exists u. auto.
  - intros b1 e b2 k Eb U Hl. right. rewrite Erl in Eb. rewrite !app_assoc in Eb.
    apply split_app in Eb. destruct Eb as [(c & Ec & ->)|(c & -> & Ec)].
    + assert (k = g) as ->; [|right; apply in_or_app; right; left; auto].
      assert (In e ((begs ++ [ELock g]) ++ body)) as Hi by (rewrite Ec; apply in_or_app; right; left; auto).
      rewrite !in_app_iff in Hi. destruct Hi as [[Hi|[<-|[]]]|Hi].
      * destruct (Bg _ Hi) as (b & w & ->). destruct U; discriminate.
      * destruct U as [u U]. cbn in U. congruence.
      * destruct (g_form Q _ Hi) as [(w & ->)|(s & _ & A)]; [destruct U as [u U]; cbn in U; congruence|]. destruct (list_sig _ _ k A U).
    + destruct c as [|x c]; cbn in Ec; injection Ec as E1 E2.
      * subst e. left. destruct U as [u U]. cbn in U. congruence.
      * assert (In e rl') as Hi by (rewrite E2; apply in_or_app; right; left; auto).
        destruct (Hrl _ Hi) as [(b & w & ->)|[-> Hd]]; [destruct U; discriminate|]. destruct U as [u U]. cbn in U. congruence.
  - intros k _. apply (g_glive Q).
  - intros k Hi. cbn [app] in Hi. rewrite in_app_iff in Hi. destruct Hi as [Hi|[E|Hi]]; [|discriminate|].
    + destruct (Bg _ Hi) as (b & w & E). discriminate.
    + rewrite in_app_iff in Hi. destruct Hi as [Hi|Hi].
      * destruct (g_form Q _ Hi) as [(w & E)|(s & _ & A)]; [discriminate|]. destruct (list_sig _ _ k A). exists Whole. reflexivity.
      * rewrite Erl in Hi. destruct Hi as [E|Hi]; [discriminate|]. destruct (Hrl _ Hi) as [(b & w & E)|[E Hd]]; [discriminate|]. now injection E as ->.
  - intros k Bu. right. left. apply SB, (g_busy Q), Bu.
  - intros u k ne (th & f & E & Hi & Bf). rewrite (g_oth Q u ne) in E. exists th, f. auto.
  - intros u Bu. apply (busy_live _ _ _ _ _ _ R) in Bu. apply glive_range in Bu. lia.
  - intros s k C. destruct (g_conn Q _ _ C) as [[C' Ns]|[Hn ->]]; auto. left. split; auto. intros e Hi Ov.
    cbn [app] in Hi. rewrite in_app_iff in Hi. destruct Hi as [Hi|[<-|Hi]].
    + destruct (Bg _ Hi) as (b & w & ->). auto.
    + auto.
    + rewrite in_app_iff in Hi. destruct Hi as [Hi|Hi]; [|destruct (Rl _ Hi) as (_ & Ho & _); exact (Ho _ Ov)]. destruct e; try contradiction. cbn in Ov. subst c. exact (Ns _ Hi).
  - intros s C. apply (conn_live _ _ _ _ _ _ R) in C. apply glive_range in C. lia.
Qed.
End Region.
