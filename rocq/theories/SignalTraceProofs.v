(** Which slots an emission calls. *)
From Coq Require Import List Arith Bool Lia.
From Verif Require Import Base XinfoProofs SignalModel SignalSpec SignalMemProofs SignalRelProofs SignalStepProofs SignalFrameProofs SignalTauProofs SignalEmitProofs SignalRunProofs SignalDeadProofs.
Import ListNotations.
Local Open Scope outcome_scope.

(* ---------------------------------------------------------------- part_of *)

Lemma part_of_nil {T} (l : list T) : part_of [] l.
Proof. induction l; constructor; auto. Qed.
Lemma part_of_refl {T} (l : list T) : part_of l l.
Proof. induction l; [constructor|apply po_take; auto]. Qed.
Lemma part_of_trans {T} (b c : list T) : part_of b c -> forall a, part_of a b -> part_of a c.
Proof.
  intros P. induction P as [|l x k P IH|l x k P IH]; intros a Q; auto.
  - constructor. auto.
  - inversion Q; subst.
    + constructor. auto.
    + apply po_take. auto.
Qed.
Lemma part_of_app {T} (l a b : list T) : part_of a b -> part_of (l ++ a) (l ++ b).
Proof. intros P. induction l; cbn; auto. apply po_take. auto. Qed.
Lemma part_of_in {T} (a b : list T) x : part_of a b -> In x a -> In x b.
Proof. intros P. induction P; cbn; intros H; auto. destruct H; auto. Qed.
Lemma part_of_nodup {T} (a b : list T) : part_of a b -> NoDup b -> NoDup a.
Proof.
  intros P. induction P as [|l x k P IH|l x k P IH]; intros N; auto; inversion N; subst; auto.
  constructor; auto. intros Hi. apply (part_of_in _ _ _ P) in Hi. auto.
Qed.

(* --------------------------------------------------- the ideal emissions *)

Definition remaining (e : iemission) : list nat :=
  match ie_at e with
  | IUnblocked s | ICalling s => s :: ie_todo e
  | ITurn | IIn _ => ie_todo e
  | IEnding => []
  end.

Definition pending (e : iemission) (s : nat) : Prop := ie_stop e = false /\ In s (remaining e).

Definition called (r : obs) : list nat := match r with OCalled _ s => [s] | _ => [] end.
Definition silent (r : obs) : Prop := match r with OCalled _ _ | OEnded _ => False | _ => True end.

Definition halts (l : label) : Prop := l = User UStop \/ l = User UThrow.

Inductive tstep (i : ideal) (l : label) : list iframe -> list iframe -> nat -> obs -> Prop :=
| TS_same fs r : silent r -> tstep i l fs fs (i_fresh i) r
| TS_disc s fs : tstep i l fs (IDisc s false :: fs) (i_fresh i) ONone
| TS_disc2 s fs : tstep i l (IDisc s false :: fs) (IDisc s true :: fs) (i_fresh i) ONone
| TS_disc3 s fs : tstep i l (IDisc s true :: fs) fs (i_fresh i) ONone
| TS_emit g fs : l = User (UEmit g) ->
    tstep i l fs (IEmit (mkie (i_fresh i) g (nth g (i_order i) []) false ITurn) :: fs) (S (i_fresh i)) (OStarted (i_fresh i))
| TS_turn e e' fs r :
    ie_id e' = ie_id e -> (r = ONone \/ l = Tau /\ exists s, r = OCalled (ie_id e) s) ->
    part_of (called r ++ remaining e') (remaining e) ->
    (forall s, i_conn i s <> None -> i_blocked i s = false -> ~ halts l -> pending e s ->
       r = OCalled (ie_id e) s \/ pending e' s) ->
    tstep i l (IEmit e :: fs) (IEmit e' :: fs) (i_fresh i) r
| TS_end e fs : ie_at e = IEnding -> tstep i l (IEmit e :: fs) fs (i_fresh i) (OEnded (ie_id e)).

Lemma istep_tstep i t l i' r fs : istep i t l = Some (i', r) -> nth_error (i_threads i) t = Some fs ->
  exists fs', i_threads i' = put (i_threads i) t fs' /\ tstep i l fs fs' (i_fresh i') r.
Proof.
  intros E Et. unfold istep in E. rewrite Et in E.
  assert (i_threads i = put (i_threads i) t fs) as Same by (symmetry; apply put_id; auto).
  destruct l as [o|].
  - destruct (i_ready fs) eqn:Hr; [|discriminate].
    destruct o; cbn [i_user] in E; break E; inj E; cbn;
      try solve [eexists; split; [exact Same|apply (TS_same i (User _)); exact I]].
    + eexists. split; [reflexivity|]. constructor.
    + eexists. split; [reflexivity|]. econstructor. reflexivity.
    + eexists. split; [reflexivity|]. cbn in Hr. apply TS_turn; auto.
      * cbn. unfold remaining. cbn. destruct (ie_at e); apply part_of_refl.
      * intros s _ _ W. exfalso. apply W. left; auto.
    + eexists. split; [reflexivity|]. cbn in Hr. apply TS_turn; auto.
      * cbn. unfold remaining. cbn. destruct (ie_at e); try discriminate. apply part_of_refl.
      * intros s _ _ _ [P1 P2]. right. split; auto. unfold remaining in *. cbn. destruct (ie_at e); try discriminate. auto.
    + eexists. split; [reflexivity|]. cbn in Hr. apply TS_turn; auto.
      * cbn. unfold remaining. cbn. apply part_of_nil.
      * intros s _ _ W. exfalso. apply W. right; auto.
  - unfold i_tau in E. destruct fs as [|[e|s [|]] fs]; try discriminate.
    2,3: inj E; cbn; eexists; split; [reflexivity|]; constructor.
    destruct (ie_at e) as [|s|s|s|] eqn:Ea; try discriminate.
    + destruct (ie_stop e) eqn:Es.
      { inj E. cbn. eexists. split; [reflexivity|]. apply TS_turn; auto.
        - cbn. apply part_of_nil.
        - intros s _ _ _ [P1 P2]. congruence. }
      destruct (ie_todo e) as [|s todo] eqn:Ed.
      { inj E. cbn. eexists. split; [reflexivity|]. apply TS_turn; auto.
        - cbn. apply part_of_nil.
        - intros s _ _ _ [P1 P2]. unfold remaining in P2. rewrite Ea, Ed in P2. destruct P2. }
      inj E. cbn. eexists. split; [reflexivity|]. apply TS_turn; auto.
      * cbn. unfold remaining. cbn. rewrite Ea, Ed. destruct (i_blocked i s); [apply po_skip|]; apply part_of_refl.
      * intros k Hc Hb _ [P1 P2]. right. unfold remaining in *. rewrite Ea, Ed in P2. split; auto. cbn.
        destruct P2 as [-> | P2]; [rewrite Hb; left; auto|]. destruct (i_blocked i s); [auto|right; auto].
    + inj E. cbn. eexists. split; [reflexivity|]. apply TS_turn; auto.
      * cbn. unfold remaining. cbn. rewrite Ea. destruct (is_some (i_conn i s)); [apply part_of_refl|apply po_skip, part_of_refl].
      * intros k Hc Hb _ [P1 P2]. right. unfold remaining in *. rewrite Ea in P2. split; auto. cbn.
        destruct P2 as [-> | P2].
        -- destruct (i_conn i k); [left; auto|congruence].
        -- destruct (is_some (i_conn i s)); [right; auto|auto].
    + inj E. cbn. eexists. split; [reflexivity|]. apply TS_turn; eauto.
      * cbn. unfold remaining. cbn. rewrite Ea. apply part_of_refl.
      * intros k Hc Hb _ [P1 P2]. unfold remaining in *. rewrite Ea in P2. cbn. destruct P2 as [-> | P2]; auto.
        right. split; auto.
    + inj E. cbn. eexists. split; [reflexivity|]. constructor. auto.
Qed.

(* ------------------------------------------------------ ids are not reused *)

Definition is_id (e : nat) (f : iframe) : nat := match f with IEmit ie => b2n (Nat.eqb (ie_id ie) e) | IDisc _ _ => 0 end.
Definition nids (e : nat) (i : ideal) : nat := tot (tot (is_id e)) (i_threads i).
Definition ids_ok (i : ideal) : Prop := forall e, nids e i <= 1 /\ (i_fresh i <= e -> nids e i = 0).

Lemma istep_thread i t l i' r : istep i t l = Some (i', r) -> exists fs, nth_error (i_threads i) t = Some fs.
Proof. unfold istep. destruct (nth_error (i_threads i) t); [eauto|discriminate]. Qed.

Lemma nids_step i t l i' r e : istep i t l = Some (i', r) ->
  i_fresh i <= i_fresh i' /\ (e < i_fresh i -> nids e i' <= nids e i /\ (r = OEnded e -> S (nids e i') = nids e i)) /\
  (i_fresh i <= e -> nids e i' <= S (nids e i) /\ (i_fresh i' <= e -> nids e i' <= nids e i)).
Proof.
  intros E. destruct (istep_thread _ _ _ _ _ E) as [fs Et]. destruct (istep_tstep _ _ _ _ _ _ E Et) as (fs' & ET & TS).
  unfold nids. rewrite ET. change (@put) with (@upd). pose proof (tot_upd (tot (is_id e)) _ _ _ fs' Et) as T.
  assert (forall k, r = OEnded k -> OEnded k = r) as Sy by auto.
  inversion TS; subst; cbn in T; try (split; [lia|]); try (split; [intros Hlt; split; [lia|try discriminate]|intros Hge; split; [lia|lia]]).
  - intros ->. contradiction.
  - split; [intros Hlt; split; [|discriminate]|intros Hge; split; [|intros Hge']].
    + destruct (Nat.eqb_spec (i_fresh i) e); cbn in T; lia.
    + destruct (Nat.eqb_spec (i_fresh i) e); cbn in T; lia.
    + destruct (Nat.eqb_spec (i_fresh i) e); cbn in T; lia.
  - rewrite H0 in T. split; [intros Hlt; split; [lia|]|intros Hge; split; lia].
    intros ->. destruct H1 as [W|[_ [s W]]]; discriminate.
  - intros W. injection W as W. rewrite W, Nat.eqb_refl in T. cbn in T. lia.
Qed.

Lemma ids_step i t l i' r : istep i t l = Some (i', r) -> ids_ok i -> ids_ok i'.
Proof.
  intros E Ok e. destruct (nids_step _ _ _ _ _ e E) as (F & P1 & P2). destruct (Ok e) as [O1 O2].
  destruct (Nat.lt_ge_cases e (i_fresh i)) as [Hlt|Hge].
  - destruct (P1 Hlt) as [P3 _]. split; [lia|]. intros. lia.
  - destruct (P2 Hge) as [P3 P4]. specialize (O2 Hge). split; [lia|]. intros W. specialize (P4 W). lia.
Qed.

Lemma ids_init n : ids_ok (ideal_init n).
Proof.
  intros e. unfold nids. cbn. assert (tot (tot (is_id e)) (repeat [] n) = 0) as ->.
  { apply tot_zero. intros a Ha. apply repeat_spec in Ha. now subst. }
  auto.
Qed.

Lemma ids_runs i evs i' : ideal_runs i evs i' -> ids_ok i -> ids_ok i' /\ i_fresh i <= i_fresh i'.
Proof.
  intros R. induction R as [|i t l j r evs k E R IH]; intros Ok; auto.
  pose proof (ids_step _ _ _ _ _ E Ok) as Ok'. destruct (IH Ok') as [H1 H2]. split; auto.
  destruct (nids_step _ _ _ _ _ 0 E) as (F & _). lia.
Qed.

Lemma ended_gone i evs i' e t : ideal_runs i evs i' -> ids_ok i -> e < i_fresh i -> In (ELib t (OEnded e)) evs -> nids e i' = 0.
Proof.
  intros R. induction R as [|i u l j r evs k E R IH]; intros Ok He Hi; [destruct Hi|].
  pose proof (ids_step _ _ _ _ _ E Ok) as Ok'. destruct (nids_step _ _ _ _ _ e E) as (F & P & _).
  destruct (P He) as [P1 P2]. apply in_app_or in Hi. destruct Hi as [Hi|Hi]; [|apply IH; auto; lia].
  assert (r = OEnded e) as Hr.
  { destruct l as [o|]; [destruct Hi as [W|[]]; discriminate|]. destruct r; cbn in Hi; try contradiction; destruct Hi as [W|[]]; congruence. }
  specialize (P2 Hr). destruct (Ok e) as [O1 _]. assert (nids e j = 0) as Z by lia.
  assert (e < i_fresh j) as Hj by lia. clear - R Z Hj Ok'. revert Z Hj Ok'.
  induction R as [|i u l j r evs k E R IH]; intros Z Hj Ok; auto.
  destruct (nids_step _ _ _ _ _ e E) as (F & P & _). destruct (P Hj) as [P1 _]. apply IH; [lia|lia|].
  eapply ids_step; eauto.
Qed.

(* ------------------------------------------------------------ calls in order *)

Definition left_of (e : nat) (f : iframe) : list nat :=
  match f with IEmit ie => if Nat.eqb (ie_id ie) e then remaining ie else [] | IDisc _ _ => [] end.
Definition rest (e : nat) (i : ideal) : list nat := flat_map (flat_map (left_of e)) (i_threads i).

Lemma flat_map_none {T U} (f : T -> list U) l : (forall x, In x l -> f x = []) -> flat_map f l = [].
Proof. induction l as [|a l IH]; cbn; intros H; auto. rewrite (H a), IH; auto. Qed.

Lemma tot_flat {T U} (f : T -> list U) (g : T -> nat) l : (forall x, g x = 0 -> f x = []) -> tot g l = 0 -> flat_map f l = [].
Proof. intros H Z. apply flat_map_none. intros x Hx. apply H. eapply tot_zero_inv; eauto. Qed.

Lemma left_none e f : is_id e f = 0 -> left_of e f = [].
Proof. destruct f; cbn; auto. destruct (Nat.eqb (ie_id e0) e); auto. discriminate. Qed.

Lemma flat_upd_same {T U} (f : T -> list U) l : forall t a b, nth_error l t = Some a -> f b = f a -> flat_map f (upd l t b) = flat_map f l.
Proof.
  induction l as [|x l IH]; intros [|t] a b E H; try discriminate; cbn in *.
  - injection E as ->. now rewrite H.
  - erewrite IH; eauto.
Qed.

Lemma flat_upd_only {T U} (f : T -> list U) (g : T -> nat) l : (forall x, g x = 0 -> f x = []) ->
  forall t a b, nth_error l t = Some a -> tot g l <= 1 -> g a = 1 -> flat_map f l = f a /\ flat_map f (upd l t b) = f b.
Proof.
  intros H. induction l as [|x l IH]; intros [|t] a b E Hl Ha; try discriminate; cbn in *.
  - injection E as ->. rewrite (tot_flat f g l H) by lia. now rewrite !app_nil_r.
  - pose proof (tot_pos g l t a E). rewrite (H x) by lia. apply (IH t a b); auto. lia.
Qed.

Lemma calls_app e a b : calls e (a ++ b) = calls e a ++ calls e b.
Proof.
  induction a as [|[t o r|t r] a IH]; cbn; auto. destruct r; auto. destruct (Nat.eqb e0 e); cbn; congruence.
Qed.

Lemma calls_event e t l r : calls e (event_of t l r) =
  match l, r with Tau, OCalled k s => if Nat.eqb k e then [s] else [] | _, _ => [] end.
Proof. destruct l as [o|]; cbn; auto. destruct r; auto. Qed.

Lemma rest_step i t l i' r e : istep i t l = Some (i', r) -> ids_ok i -> e < i_fresh i ->
  part_of (calls e (event_of t l r) ++ rest e i') (rest e i).
Proof.
  intros E Ok He. destruct (istep_thread _ _ _ _ _ E) as [fs Et]. destruct (istep_tstep _ _ _ _ _ _ E Et) as (fs' & ET & TS).
  unfold rest. rewrite ET. change (@put) with (@upd). rewrite calls_event. destruct (Ok e) as [O1 _]. unfold nids in O1.
  assert (flat_map (left_of e) fs' = flat_map (left_of e) fs -> called r = [] ->
    part_of (match l with User _ => [] | Tau => match r with OCalled k s => if Nat.eqb k e then [s] else [] | _ => [] end end ++
      flat_map (flat_map (left_of e)) (upd (i_threads i) t fs')) (flat_map (flat_map (left_of e)) (i_threads i))) as Easy.
  { intros H1 H2. rewrite (flat_upd_same _ _ _ _ _ Et H1). destruct l; [apply part_of_refl|]. destruct r; try apply part_of_refl. discriminate. }
  assert (forall x, tot (is_id e) x = 0 -> flat_map (left_of e) x = []) as N1.
  { intros x. apply tot_flat. apply left_none. }
  inversion TS; subst; try (apply Easy; reflexivity).
  - apply Easy; auto. destruct r; auto. contradiction.
  - apply Easy; auto. cbn. destruct (Nat.eqb_spec (i_fresh i) e); [lia|auto].
  - destruct (Nat.eqb_spec (ie_id e0) e) as [Ee|Ne].
    + assert (tot (is_id e) (IEmit e0 :: fs0) = 1) as G1.
      { pose proof (tot_pos (tot (is_id e)) _ _ _ Et) as Hp. cbn in *. rewrite Ee, Nat.eqb_refl in *. cbn in *. lia. }
      destruct (flat_upd_only _ _ _ N1 _ _ (IEmit e' :: fs0) Et O1 G1) as [-> ->].
      cbn in G1. rewrite Ee, Nat.eqb_refl in G1. cbn in G1. cbn [flat_map left_of]. rewrite H0, Ee, Nat.eqb_refl.
      rewrite (N1 fs0) by lia. rewrite !app_nil_r.
      destruct H1 as [-> | [-> [s ->]]]; cbn in H2; [destruct l; auto|].
      cbn. rewrite Ee, Nat.eqb_refl; auto.
    + rewrite (flat_upd_same _ _ _ _ _ Et).
      * destruct l; [apply part_of_refl|]. destruct H1 as [-> | [_ [s ->]]]; [apply part_of_refl|].
        apply Nat.eqb_neq in Ne. rewrite Ne. apply part_of_refl.
      * cbn. rewrite H0. apply Nat.eqb_neq in Ne. now rewrite Ne.
  - destruct (Nat.eqb_spec (ie_id e0) e) as [Ee|Ne].
    + assert (tot (is_id e) (IEmit e0 :: fs') = 1) as G1.
      { pose proof (tot_pos (tot (is_id e)) _ _ _ Et) as Hp. cbn in *. rewrite Ee, Nat.eqb_refl in *. cbn in *. lia. }
      destruct (flat_upd_only _ _ _ N1 _ _ fs' Et O1 G1) as [-> ->].
      cbn in G1. rewrite Ee, Nat.eqb_refl in G1. cbn in G1. rewrite (N1 fs') by lia. destruct l; apply part_of_nil.
    + apply Easy; auto. cbn. apply Nat.eqb_neq in Ne. now rewrite Ne.
Qed.

Lemma rest_runs i evs i' e : ideal_runs i evs i' -> ids_ok i -> e < i_fresh i -> part_of (calls e evs ++ rest e i') (rest e i).
Proof.
  intros R. induction R as [|i t l j r evs k E R IH]; intros Ok He; [apply part_of_refl|].
  rewrite calls_app, <- app_assoc. pose proof (rest_step _ _ _ _ _ _ E Ok He) as P.
  eapply part_of_trans; [exact P|]. apply part_of_app. destruct (nids_step _ _ _ _ _ 0 E) as (F & _).
  apply IH; [eapply ids_step; eauto|lia].
Qed.

(** The concrete and the ideal run together. *)
Lemma reach_ids n evs st : runs (init n) evs st -> exists i L H, ideal_runs (ideal_init n) evs i /\ rel st i L H /\ ids_ok i.
Proof.
  intros Rn. destruct (reach_rel _ _ _ Rn) as (i & L & H & IR & R). exists i, L, H. split; auto. split; auto.
  apply (ids_runs _ _ _ IR), ids_init.
Qed.

Lemma istep_order i t l i' r g : istep i t l = Some (i', r) -> l = Tau ->
  part_of (nth g (i_order i') []) (nth g (i_order i) []) /\ i_fresh i' = i_fresh i /\ i_blockers i' = i_blockers i /\
  (forall s, In s (nth g (i_order i) []) -> s < length (i_slots i) -> i_conn i' s <> None -> In s (nth g (i_order i') [])).
Proof.
  intros E ->. unfold istep in E. destruct (nth_error (i_threads i) t) as [fs|]; [|discriminate].
  assert (forall k s, part_of (without k s) s) as Pf.
  { intros k s. unfold without. induction s as [|x s IH]; cbn; [constructor|]. destruct (negb (Nat.eqb x k)); [apply po_take|apply po_skip]; auto. }
  unfold i_tau in E. break E; inj E; cbn; try (split; [apply part_of_refl|auto]).
  assert (nth g (map (without s) (i_order i)) [] = without s (nth g (i_order i) [])) as ->.
  { change (@nil nat) with (without s []) at 1. apply map_nth. }
  split; [apply Pf|]. split; [auto|]. split; [auto|]. unfold i_conn. cbn. intros k Hk Hl Hc.
  unfold without. apply filter_In. split; auto. destruct (Nat.eqb_spec k s) as [-> | n]; auto.
  exfalso. apply Hc. rewrite nth_put by auto. now rewrite Nat.eqb_refl.
Qed.

Lemma emit_istep i t g j r : istep i t (User (UEmit g)) = Some (j, r) ->
  exists fs, nth_error (i_threads i) t = Some fs /\ r = OStarted (i_fresh i) /\ i_fresh j = S (i_fresh i) /\
    i_threads j = put (i_threads i) t (IEmit (mkie (i_fresh i) g (nth g (i_order i) []) false ITurn) :: fs) /\
    i_slots j = i_slots i /\ i_blockers j = i_blockers i.
Proof.
  intros E. unfold istep in E. destruct (nth_error (i_threads i) t) as [fs|] eqn:Et; [|discriminate].
  destruct (i_ready fs); [|discriminate]. cbn [i_user] in E. destruct (i_alive i g); [|discriminate]. inj E. exists fs. auto 10.
Qed.

Lemma silent_split i evs i' : ideal_runs i evs i' -> forall t o r, evs = [EUser t o r] ->
  exists j k, ideal_runs i [] j /\ istep j t (User o) = Some (k, r) /\ ideal_runs k [] i'.
Proof.
  intros R. induction R as [|i u l j r evs k E R IH]; intros t o r0 Ev; [discriminate|].
  destruct l as [o'|].
  - cbn in Ev. injection Ev as -> -> -> ->. exists i, j. split; [constructor|auto].
  - cbn in Ev. destruct r; cbn in Ev; try discriminate. destruct (IH _ _ _ Ev) as (j' & k' & R1 & E' & R2).
    exists j', k'. split; auto. change (@nil event) with (event_of u Tau ONone ++ []). econstructor; eauto.
Qed.

Lemma silent_order i evs j : ideal_runs i evs j -> evs = [] ->
  i_fresh j = i_fresh i /\ i_blockers j = i_blockers i /\
  forall g, part_of (nth g (i_order j) []) (nth g (i_order i) []) /\
    (forall s, In s (nth g (i_order i) []) -> s < length (i_slots i) -> i_conn j s <> None -> In s (nth g (i_order j) [])).
Proof.
  intros R. induction R as [|i u l j r evs k E R IH]; intros Ev.
  - split; auto. split; auto. intros g. split; auto. apply part_of_refl.
  - destruct l as [o|]; [discriminate|]. cbn in Ev. destruct r; try discriminate. cbn in Ev.
    destruct (IH Ev) as (H1 & H2 & H3). split; [|split].
    + rewrite H1. apply (istep_order _ _ _ _ _ 0 E eq_refl).
    + rewrite H2. apply (istep_order _ _ _ _ _ 0 E eq_refl).
    + intros g. destruct (istep_order _ _ _ _ _ g E eq_refl) as (P1 & _ & _ & P2). destruct (H3 g) as [P3 P4]. split.
      * eapply part_of_trans; eauto.
      * intros s Hs Hl Hc. destruct (istep_conn _ _ _ _ _ s E Hl) as [Hl' Hd]. apply P4; auto. apply P2; auto.
        intros W. apply Hc. apply (ideal_dead _ _ _ _ R); auto.
Qed.

Definition pend (i : ideal) (t e s : nat) : Prop :=
  exists fs ie, nth_error (i_threads i) t = Some fs /\ In (IEmit ie) fs /\ ie_id ie = e /\ pending ie s.

Lemma start_order i i1 t g e : ideal_runs i [EUser t (UEmit g) (OStarted e)] i1 -> ids_ok i ->
  e = i_fresh i /\ e < i_fresh i1 /\ part_of (rest e i1) (nth g (i_order i) []).
Proof.
  intros R Ok. destruct (silent_split _ _ _ R _ _ _ eq_refl) as (j & k & R1 & E & R2).
  destruct (silent_order _ _ _ R1 eq_refl) as (F1 & _ & P1). destruct (P1 g) as [P2 _].
  destruct (ids_runs _ _ _ R1 Ok) as [Okj _]. pose proof (ids_step _ _ _ _ _ E Okj) as Okk.
  destruct (ids_runs _ _ _ R2 Okk) as [_ F2].
  destruct (emit_istep _ _ _ _ _ E) as (fs & Et & Er & Ef & ET & _). injection Er as Er.
  assert (e = i_fresh i) as He by congruence. split; [auto|]. split; [lia|].
  pose proof (rest_runs _ _ _ e R2 Okk ltac:(lia)) as P. cbn in P. eapply part_of_trans; [exact P2|]. eapply part_of_trans; [|exact P].
  unfold rest. rewrite ET. change (@put) with (@upd). destruct (Okk e) as [O1 _]. unfold nids in O1. rewrite ET in O1.
  pose proof Et as Et'.
  destruct (Okj e) as [_ O2]. specialize (O2 ltac:(lia)). unfold nids in O2.
  pose proof (tot_pos (tot (is_id e)) _ _ _ Et) as T1.
  assert (t < length (i_threads j)) as Ht by (apply nth_error_Some; congruence).
  match goal with |- part_of (flat_map _ (upd _ t ?n)) _ => set (new := n) end.
  assert (nth_error (upd (i_threads j) t new) t = Some new) as En by (apply nth_upd_same; auto).
  assert (tot (is_id e) new = 1) as T2.
  { unfold new. cbn. rewrite <- Er, Nat.eqb_refl. cbn. lia. }
  destruct (flat_upd_only (flat_map (left_of e)) (tot (is_id e)) _ (fun x => tot_flat _ _ x (left_none e)) _ _ new En O1 T2) as [-> _].
  unfold new. cbn [flat_map left_of ie_id]. rewrite <- Er, Nat.eqb_refl. rewrite (tot_flat _ (is_id e) fs (left_none e)) by lia.
  rewrite app_nil_r. apply part_of_refl.
Qed.

Lemma start_pend i i1 t g e s : ideal_runs i [EUser t (UEmit g) (OStarted e)] i1 -> ids_ok i ->
  In s (nth g (i_order i) []) -> s < length (i_slots i) -> i_conn i1 s <> None ->
  exists k, pend k t e s /\ ideal_runs k [] i1 /\ ids_ok k /\ s < length (i_slots k).
Proof.
  intros R Ok Hs Hl Hc. destruct (silent_split _ _ _ R _ _ _ eq_refl) as (j & k & R1 & E & R2).
  destruct (silent_order _ _ _ R1 eq_refl) as (F1 & _ & P1). destruct (P1 g) as [_ P2].
  destruct (ids_runs _ _ _ R1 Ok) as [Okj _]. pose proof (ids_step _ _ _ _ _ E Okj) as Okk.
  destruct (emit_istep _ _ _ _ _ E) as (fs & Et & Er & Ef & ET & Es & Eb). injection Er as Er.
  assert (s < length (i_slots j)) as Hlj.
  { clear - R1 Hl. remember [] as evs eqn:Ev. revert Ev. induction R1 as [|i u l j r evs k E R IH]; intros Ev; auto.
    destruct (istep_conn _ _ _ _ _ s E Hl) as [Hl' _]. apply IH; auto. destruct l; [discriminate|]. destruct r; try discriminate. auto. }
  exists k. split; [|split; [|split]]; auto; [|congruence].
  assert (i_conn j s <> None) as Hcj.
  { intros W. apply Hc. apply (ideal_dead _ _ _ _ R2); [congruence|]. unfold i_conn in *. congruence. }
  eexists. eexists. split; [rewrite ET; apply nth_upd_same; apply nth_error_Some; congruence|]. split; [left; reflexivity|].
  split; [cbn; auto|]. split; auto.
Qed.

(* --------------------------------------------------------------- nobody left out *)

Lemma pend_step i u l i' r t e s : istep i u l = Some (i', r) -> ids_ok i ->
  i_conn i s <> None -> i_blocked i s = false ->
  (u = t -> halts l -> forall ie fs, nth_error (i_threads i) t = Some (IEmit ie :: fs) -> ie_id ie <> e) ->
  pend i t e s -> In s (calls e (event_of u l r)) \/ pend i' t e s.
Proof.
  intros E Ok Hc Hb Hh (fs & ie & Et & Hi & He & Hp).
  destruct (istep_thread _ _ _ _ _ E) as [fs0 Et0]. destruct (istep_tstep _ _ _ _ _ _ E Et0) as (fs' & ET & TS).
  destruct (Nat.eq_dec u t) as [-> | n].
  2: { right. exists fs, ie. split; auto. rewrite ET. change (@put) with (@upd). rewrite nth_upd_other; auto. }
  assert (fs0 = fs) as -> by congruence.
  assert (nth_error (i_threads i') t = Some fs') as Et'.
  { rewrite ET. apply nth_upd_same. apply nth_error_Some. congruence. }
  assert (In (IEmit ie) fs' -> In s (calls e (event_of t l r)) \/ pend i' t e s) as Keep.
  { intros Hf. right. exists fs', ie. auto. }
  assert (forall f rs, fs = IEmit f :: rs -> ie_id f = e -> ie = f) as Uniq.
  { intros f rs Hfs Hf. rewrite Hfs in Hi. destruct Hi as [W|Hi]; [congruence|].
    destruct (Ok e) as [O1 _]. unfold nids in O1. pose proof (tot_pos (tot (is_id e)) _ _ _ Et) as T. rewrite Hfs in T. cbn in T.
    pose proof (tot_in (is_id e) _ _ Hi) as T2. cbn in T2. rewrite Hf, Nat.eqb_refl in T. rewrite He, Nat.eqb_refl in T2. cbn in *. lia. }
  inversion TS; subst.
  - auto.
  - apply Keep. right; auto.
  - apply Keep. destruct Hi as [W|Hi]; [discriminate|right; auto].
  - apply Keep. destruct Hi as [W|Hi]; [discriminate|auto].
  - apply Keep. right; auto.
  - destruct (Nat.eq_dec (ie_id e0) (ie_id ie)) as [Ee|Ne].
    + pose proof (Uniq _ _ eq_refl Ee) as W. subst e0. 
      destruct (H5 s Hc Hb) as [W|W]; auto.
      * intros Hl. eapply Hh; eauto.
      * left. rewrite calls_event. destruct H1 as [W'|[-> [k W']]]; [congruence|]. rewrite W. rewrite Nat.eqb_refl. left; auto.
      * right. exists (IEmit e' :: fs0), e'. split; auto. split; [left; auto|]. auto.
    + apply Keep. destruct Hi as [W|Hi]; [injection W as ->; congruence|right; auto].
  - destruct Hi as [W|Hi]; [|auto]. injection W as ->. exfalso. destruct Hp as [_ Hp]. unfold remaining in Hp. now rewrite H2 in Hp.
Qed.

Fixpoint users (evs : list event) : nat :=
  match evs with [] => 0 | EUser _ _ _ :: evs' => S (users evs') | ELib _ _ :: evs' => users evs' end.
Lemma users_app a b : users (a ++ b) = users a + users b.
Proof. induction a as [|[] a IH]; cbn; auto. Qed.

Lemma tau_blockers i t i' r : istep i t Tau = Some (i', r) -> i_blockers i' = i_blockers i.
Proof. intros E. apply (istep_order _ _ _ _ _ 0 E eq_refl). Qed.

Lemma no_users_blockers i evs i' : ideal_runs i evs i' -> users evs = 0 -> i_blockers i' = i_blockers i.
Proof.
  intros R. induction R as [|i u l j r evs k E R IH]; intros Hu; auto. rewrite users_app in Hu.
  destruct l as [o|]; [cbn in Hu; lia|]. rewrite IH by lia. eapply tau_blockers; eauto.
Qed.

Lemma ready_tau i t fs i' r : nth_error (i_threads i) t = Some fs -> i_ready fs = true -> istep i t Tau = Some (i', r) -> False.
Proof.
  intros Et Hr E. unfold istep in E. rewrite Et in E. destruct fs as [|[ie|s b] fs]; try discriminate. cbn in Hr, E.
  destruct (ie_at ie); discriminate.
Qed.

Definition halting (o : op) : Prop := o = UStop \/ o = UThrow.

Lemma pend_runs i evs i' t e s : ideal_runs i evs i' -> ids_ok i -> s < length (i_slots i) ->
  i_conn i' s <> None -> i_blocked i s = false -> i_blocked i' s = false -> users evs <= 1 ->
  (forall o r, In (EUser t o r) evs -> halting o ->
     exists fs, nth_error (i_threads i) t = Some fs /\ i_ready fs = true /\ forall ie rs, fs = IEmit ie :: rs -> ie_id ie <> e) ->
  pend i t e s -> In s (calls e evs) \/ pend i' t e s.
Proof.
  intros R. induction R as [|i u l j r evs k E R IH]; intros Ok Hl Hc Hb Hb' Hu Hh Hp; auto.
  destruct (istep_conn _ _ _ _ _ s E Hl) as [Hlj Hd]. pose proof (ids_step _ _ _ _ _ E Ok) as Okj.
  assert (i_conn j s <> None) as Hcj. { intros W. apply Hc. apply (ideal_dead _ _ _ _ R); auto. }
  assert (i_conn i s <> None) as Hci by (intros W; apply Hcj; auto).
  rewrite users_app in Hu. rewrite calls_app.
  destruct (pend_step _ _ _ _ _ t e s E Ok Hci Hb) as [Hca|Hpj]; auto.
  - intros -> Hhl ie fs Et. assert (exists o, l = User o /\ halting o) as (o & -> & Ho).
    { destruct Hhl as [-> | ->]; eexists; split; eauto; [left|right]; auto. }
    destruct (Hh o r) as (fs' & Et' & _ & Hn); auto. { apply in_or_app. left. left. auto. }
    eapply Hn. assert (fs' = IEmit ie :: fs) as -> by congruence. reflexivity.
  - left. apply in_or_app. auto.
  - destruct (IH Okj Hlj Hc) as [W|W]; auto.
    + destruct l as [o|].
      * cbn in Hu. unfold i_blocked in *. rewrite <- (no_users_blockers _ _ _ R) by lia. auto.
      * unfold i_blocked in *. now rewrite (tau_blockers _ _ _ _ E).
    + lia.
    + intros o r' Hi Ho. destruct l as [o'|].
      * exfalso. cbn in Hu. assert (0 < users evs); [|lia]. clear - Hi. induction evs as [|[] evs IH]; cbn in *; [destruct Hi|lia|].
        destruct Hi as [W|Hi]; [discriminate|auto].
      * destruct (Hh o r') as (fs & Et & Hr & Hn); auto. { apply in_or_app. auto. }
        exists fs. split; auto. destruct (Nat.eq_dec u t) as [-> | n]; [exfalso; eapply ready_tau; eauto|].
        destruct (istep_thread _ _ _ _ _ E) as [fs0 Et0]. destruct (istep_tstep _ _ _ _ _ _ E Et0) as (fs' & ET & _).
        rewrite ET. change (@put) with (@upd). rewrite nth_upd_other; auto.
    + left. apply in_or_app. auto.
Qed.
