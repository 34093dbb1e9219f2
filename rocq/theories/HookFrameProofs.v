(** Requests with validators that tidy up single values. *)
From Coq Require Import List NArith ZArith Arith Bool Lia.
From Verif Require Import Base PathModel PathSpec PathProofs TrackerModel TrackerSpec EnumModel EnumProofs
  SerialModel SerialSpec SerialBaseProofs SerialTypeProofs SerialDumpProofs
  ResourceModel ResourceSpec ResourceBaseProofs ResourcePathProofs ResourceOpProofs ResourceCaseProofs
  ResourceAnswerSpec ResourceAnswerProofs HookModel HookSpec HookProofs HookShapeProofs HookReasonProofs HookRestProofs.
Import ListNotations.

Local Notation str := (list N) (only parsing).

Section Validators.
Context {W : Type}.
Context (E : henv W).
Context (L : leaf_only E).

Lemma each_one {A} (f : W -> A -> W * A * option hexn) pre u post :
  (forall x, In x pre \/ In x post -> forall w w' x' e, f w x = (w', x', e) -> x' = x) ->
  forall w w' l' e, each f w (pre ++ u :: post) = (w', l', e) ->
  exists u', l' = pre ++ u' :: post /\
    ((u' = u /\ e <> None) \/ exists w0 w0' e0, f w0 u = (w0', u', e0) /\ (e = None -> e0 = None)).
Proof.
  induction pre as [|x pre IH]; intros H w w' l' e; cbn [app each].
  - destruct (f w u) as [[w1 u1] [e1|]] eqn:Ef.
    + intros [= <- <- <-]. exists u1. split; [reflexivity|]. right. exists w, w1, (Some e1). split; [exact Ef|discriminate].
    + destruct (each f w1 post) as [[w2 l2] e2] eqn:El. intros [= <- <- <-]. exists u1.
      rewrite (each_quiet f post (fun w x w' x' e Hx => H x (or_intror Hx) w w' x' e) _ _ _ _ El). split; [reflexivity|].
      right. exists w, w1, None. auto.
  - destruct (f w x) as [[w1 x1] [e1|]] eqn:Ef; rewrite (H x (or_introl (or_introl eq_refl)) _ _ _ _ Ef).
    + intros [= <- <- <-]. exists u. split; [reflexivity|]. left. split; [reflexivity|discriminate].
    + destruct (each f w1 (pre ++ u :: post)) as [[w2 l2] e2] eqn:El. intros [= <- <- <-].
      destruct (IH (fun y Hy => H y match Hy with or_introl h => or_introl (or_intror h) | or_intror h => or_intror h end) _ _ _ _ El) as (u' & -> & Hu).
      exists u'. auto.
Qed.

Lemma each_field_one (f : nkind -> ty -> W -> val -> W * val * option hexn) fs : forall i a t vs u,
  nth_error fs i = Some (a, t) -> nth_error vs i = Some u ->
  (forall j b t' x, j <> i -> nth_error fs j = Some (b, t') -> nth_error vs j = Some x ->
     forall w w' x' e, f (NField b) t' w x = (w', x', e) -> x' = x) ->
  forall w w' l' e, each_field f w fs vs = (w', l', e) ->
  exists u', l' = set_nth i u' vs /\
    ((u' = u /\ e <> None) \/ exists w0 w0' e0, f (NField a) t w0 u = (w0', u', e0) /\ (e = None -> e0 = None)).
Proof.
  induction fs as [|[b t'] fs IH]; intros i a t vs u Ha Hu H w w' l' e; [destruct i; discriminate|].
  destruct vs as [|v vs]; [destruct i; discriminate|]. cbn [each_field]. destruct i as [|i]; cbn [nth_error] in Ha, Hu.
  - injection Ha as -> ->. injection Hu as ->. cbn [set_nth]. destruct (f (NField a) t w u) as [[w1 u1] [e1|]] eqn:Ef.
    + intros [= <- <- <-]. exists u1. split; [reflexivity|]. right. exists w, w1, (Some e1). split; [exact Ef|discriminate].
    + destruct (each_field f w1 fs vs) as [[w2 l2] e2] eqn:El. intros [= <- <- <-]. exists u1.
      assert (l2 = vs) as ->.
      { refine (each_field_same f fs vs _ _ _ _ _ El). intros j b t' x Hb Hx. apply (H (S j) b t' x); [discriminate|exact Hb|exact Hx]. }
      split; [reflexivity|]. right. exists w, w1, None. auto.
  - cbn [set_nth]. destruct (f (NField b) t' w v) as [[w1 x1] [e1|]] eqn:Ef; rewrite (H 0 b t' v (O_S i) eq_refl eq_refl _ _ _ _ Ef).
    + intros [= <- <- <-]. exists u. rewrite (set_nth_back i u vs Hu). split; [reflexivity|]. left. split; [reflexivity|discriminate].
    + destruct (each_field f w1 fs vs) as [[w2 l2] e2] eqn:El. intros [= <- <- <-].
      destruct (IH i a t vs u Ha Hu) with (2 := El) as (u' & -> & Hu'); [|exists u'; auto].
      intros j b' t0 x Hj Hb Hx. apply (H (S j) b' t0 x); [congruence|exact Hb|exact Hx].
Qed.

(** The part [x] was replaced by [y] while a validation ended with [e]. *)
Definition focus (t1 : ty) (x y : val) (e : option hexn) : Prop :=
  (y = x /\ e <> None) \/ exists n0 w0 w0' e0, hvalidate E t1 n0 w0 x = (w0', y, e0) /\ (e = None -> e0 = None).

Lemma focus_weaken t1 x y e0 e : focus t1 x y e0 -> (e = None -> e0 = None) -> focus t1 x y e.
Proof.
  intros [[-> H]|(n0 & w0 & w0' & e1 & H & He)] K; [left; split; [reflexivity|]; intros ->; now apply H, K|].
  right. exists n0, w0, w0', e1. auto.
Qed.

Lemma focus_start t1 x (e : option hexn) : e <> None -> focus t1 x x e.
Proof. left. auto. Qed.

Ltac open_hook :=
  match goal with |- context [hhook E ?u ?w ?v] =>
    destruct (hhook E u w v) as [[wh vh] [eh|]] eqn:Eh; rewrite (hook_same E _ _ _ _ _ _ (L u v (fun H => H)) Eh); clear Eh end.

Lemma elements_focus t te n w vs i v loc x t1 m w' v' e : elements t te -> nth_error vs i = Some v -> resting E t (VSeq vs) ->
  (forall w w' v' e, hvalidate E te (NElem None) w (set_at v loc x) = (w', v', e) -> exists y, v' = set_at v loc y /\ focus t1 x y e) ->
  n = m -> hvalidate E t m w (VSeq (set_nth i (set_at v loc x) vs)) = (w', v', e) ->
  exists y, v' = VSeq (set_nth i (set_at v loc y) vs) /\ focus t1 x y e.
Proof.
  intros He Hi Hr IH _ H. apply nth_error_split in Hi. destruct Hi as (pre & post & -> & <-). rewrite set_nth_len in H.
  assert (Hv : forall w2, (let '(w3, vs2, e3) := each (hvalidate E te (NElem None)) w2 (pre ++ set_at v loc x :: post) in (w3, VSeq vs2, e3)) = (w', v', e) ->
    exists y, v' = VSeq (set_nth (length pre) (set_at v loc y) (pre ++ v :: post)) /\ focus t1 x y e).
  { intros w2 H2. destruct (each (hvalidate E te (NElem None)) w2 (pre ++ set_at v loc x :: post)) as [[w3 l3] e3] eqn:El.
    injection H2 as <- <- <-. destruct (each_one (hvalidate E te (NElem None)) pre (set_at v loc x) post) with (2 := El) as (u' & -> & Hu).
    - intros z Hz w0 w0' z' e0. apply validate_resting. apply (resting_element E t te (pre ++ v :: post)); [exact He|exact Hr|].
      apply in_or_app. destruct Hz; [now left|right; now right].
    - destruct Hu as [[-> Hn]|(w0 & w0' & e0 & H0 & K)].
      + exists x. rewrite set_nth_len. split; [reflexivity|]. now apply focus_start.
      + destruct (IH _ _ _ _ H0) as (y & -> & F). exists y. rewrite set_nth_len. split; [reflexivity|]. exact (focus_weaken _ _ _ _ _ F K). }
  assert (Same : forall (e1 : hexn) w2, (w2, VSeq (pre ++ set_at v loc x :: post), Some e1) = (w', v', e) ->
    exists y, v' = VSeq (set_nth (length pre) (set_at v loc y) (pre ++ v :: post)) /\ focus t1 x y e).
  { intros e1 w2 [= <- <- <-]. exists x. rewrite set_nth_len. split; [reflexivity|]. apply focus_start. discriminate. }
  revert H. destruct He as [-> | [k ->]]; cbn [hvalidate]; open_hook; try apply Same; (destruct (hunique _ _); [apply Same|apply Hv]).
Qed.

Lemma validate_focus t n v segs tr t1 n1 v1 x : reaches t n v segs tr t1 n1 v1 -> typed t v -> resting E t v ->
  forall m w w' v' e, hvalidate E t m w (set_at v (map snd tr) x) = (w', v', e) ->
  exists y, v' = set_at v (map snd tr) y /\ focus t1 x y e.
Proof.
  induction 1 as [t n v|fs n vs i a t v segs tr t' n' v' Hf Hv Hb R IH|t n v s segs tr t' n' v' R IH
    |t n m0 s v segs tr t' n' v' Hin R IH|t te n vs s i v segs tr t' n' v' He Hk Hi Hv R IH
    |t te n vs s ck i v segs tr t' n' v' He Hk Hv R IH]; intros Ht Hr m w w' v0 e; cbn [map snd set_at].
  - intros H. exists v0. split; [reflexivity|]. right. exists m, w, w', e. auto.
  - rewrite Hv. cbn [hvalidate]. open_hook.
    { intros [= <- <- <-]. exists x. split; [reflexivity|]. apply focus_start. discriminate. }
    destruct (hunique m _).
    { intros [= <- <- <-]. exists x. split; [reflexivity|]. apply focus_start. discriminate. }
    match goal with |- context [each_field ?f ?w1 fs ?l] => destruct (each_field f w1 fs l) as [[w2 l2] e2] eqn:El end. intros [= <- <- <-].
    destruct (each_field_one (fun n' t' => hvalidate E t' n') fs i a t (set_nth i (set_at v (map snd tr) x) vs) (set_at v (map snd tr) x) Hf) with (3 := El) as (u' & -> & Hu).
    + exact (nth_set_same _ _ _ _ Hv).
    + intros j b t2 z Hj Hb2 Hz w0 w0' z' e0. apply validate_resting. rewrite nth_set_other in Hz by assumption.
      exact (resting_field E _ _ _ _ _ _ Hr Hb2 Hz).
    + rewrite set_nth_twice. destruct Hu as [[-> Hn]|(w0 & w0' & e0 & H0 & K)].
      * exists x. split; [reflexivity|]. now apply focus_start.
      * destruct (IH (typed_nth _ _ _ _ _ _ Ht Hf Hv) (resting_field E _ _ _ _ _ _ Hr Hf Hv) _ _ _ _ _ H0) as (y & -> & F).
        exists y. split; [reflexivity|]. exact (focus_weaken _ _ _ _ _ F K).
  - cbn [hvalidate]. open_hook.
    { intros [= <- <- <-]. exists x. split; [reflexivity|]. apply focus_start. discriminate. }
    destruct (hunique m _).
    { intros [= <- <- <-]. exists x. split; [reflexivity|]. apply focus_start. discriminate. }
    match goal with |- context [hvalidate E t ?n2 ?w1 ?l] => destruct (hvalidate E t n2 w1 l) as [[w2 l2] e2] eqn:El end. intros [= <- <- <-].
    destruct (IH Ht (resting_some E _ _ Hr) _ _ _ _ _ El) as (y & -> & F). exists y. auto.
  - destruct (typed_entry t m0 s v Ht Hin) as [Htv Hfind]. rewrite Hfind.
    destruct (map_find_split _ _ _ Hfind) as (pre & post & -> & Hn). rewrite map_assign_len by assumption.
    cbn [hvalidate]. open_hook.
    { intros [= <- <- <-]. exists x. rewrite map_assign_len by assumption. split; [reflexivity|]. apply focus_start. discriminate. }
    destruct (hunique m _).
    { intros [= <- <- <-]. exists x. rewrite map_assign_len by assumption. split; [reflexivity|]. apply focus_start. discriminate. }
    match goal with |- context [each ?f ?w1 ?l] => destruct (each f w1 l) as [[w2 l2] e2] eqn:El; destruct (each_one f pre (s, set_at v (map snd tr) x) post) with (2 := El) as (u' & -> & Hu) end.
    + intros [k z] Hz w0 w0' z' e0. cbn [fst snd]. destruct (hvalidate E t (NElem None) w0 z) as [[w4 x4] e4] eqn:E4. intros [= <- <- <-].
      f_equal. apply (validate_resting E t (NElem None) w0 z w4 x4 e4); [|exact E4]. apply (resting_entry E _ (pre ++ (s, v) :: post) k); [exact Hr|].
      apply in_or_app. destruct Hz; [now left|right; now right].
    + intros [= <- <- <-]. destruct Hu as [[-> Hne]|(w0 & w0' & e0 & H0 & K)].
      * exists x. rewrite map_assign_len by assumption. split; [reflexivity|]. now apply focus_start.
      * cbn [fst snd] in H0. destruct (hvalidate E t (NElem None) w0 (set_at v (map snd tr) x)) as [[w4 x4] e4] eqn:E4.
        injection H0 as <- <- <-. destruct (IH Htv (resting_entry E _ _ _ _ Hr Hin) _ _ _ _ _ E4) as (y & -> & F).
        exists y. rewrite map_assign_len by assumption. split; [reflexivity|]. exact (focus_weaken _ _ _ _ _ F K).
  - rewrite Hv. intros H. assert (Htv : typed te v) by (eapply typed_element; [exact He|exact Ht|exact (nth_error_In _ _ Hv)]).
    assert (Hrv : resting E te v) by (eapply resting_element; [exact He|exact Hr|exact (nth_error_In _ _ Hv)]).
    apply (elements_focus t te m w vs i v (map snd tr) x t' m w' v0 e He Hv Hr) in H; [exact H|exact (IH Htv Hrv (NElem None))|reflexivity].
  - rewrite Hv. intros H. assert (Htv : typed te v) by (eapply typed_element; [exact He|exact Ht|exact (nth_error_In _ _ Hv)]).
    assert (Hrv : resting E te v) by (eapply resting_element; [exact He|exact Hr|exact (nth_error_In _ _ Hv)]).
    apply (elements_focus t te m w vs i v (map snd tr) x t' m w' v0 e He Hv Hr) in H; [exact H|exact (IH Htv Hrv (NElem None))|reflexivity].
Qed.

End Validators.
