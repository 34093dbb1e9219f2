(** Validators that tidy up single values, and objects they would leave as they
    are. *)
From Coq Require Import List NArith ZArith Arith Bool Lia.
From Verif Require Import Base PathModel PathSpec PathProofs TrackerModel TrackerSpec EnumModel EnumProofs
  SerialModel SerialSpec SerialBaseProofs SerialTypeProofs SerialDumpProofs
  ResourceModel ResourceSpec ResourceBaseProofs ResourcePathProofs ResourceOpProofs ResourceCaseProofs
  ResourceAnswerSpec ResourceAnswerProofs HookModel HookSpec HookProofs HookShapeProofs HookReasonProofs.
Import ListNotations.

Local Notation str := (list N) (only parsing).

Lemma within_node t n v t' n' v' : within t n v t' n' v' -> forall m, exists n'', within t m v t' n'' v'.
Proof.
  intros H m. inversion H; subst; [exists m; constructor|..]; exists n'.
  - eapply within_field; eassumption.
  - now apply within_some.
  - eapply within_entry; eassumption.
  - eapply within_element; eassumption.
Qed.

Lemma nth_error_ext_len {A} (l : list A) : forall l', length l = length l' ->
  (forall i a b, nth_error l i = Some a -> nth_error l' i = Some b -> a = b) -> l = l'.
Proof.
  induction l as [|x l IH]; intros [|y l']; cbn; try discriminate; [reflexivity|]. intros [= H] K. f_equal.
  - exact (K 0 x y eq_refl eq_refl).
  - apply IH; [exact H|]. intros i a b Ha Hb. exact (K (S i) a b Ha Hb).
Qed.

Section Validators.
Context {W : Type}.
Context (E : henv W).

Definition resting (t : ty) (v : val) : Prop := forall n t' n' v', within t n v t' n' v' -> unmodified E t' v'.

Lemma at_rest_resting t v : at_rest E t v <-> resting t v.
Proof.
  unfold at_rest, resting. split; intros H.
  - intros n t' n' v' Hw. destruct (within_node _ _ _ _ _ _ Hw NRoot) as (n'' & Hw'). eauto.
  - eauto.
Qed.

Lemma resting_self t v : resting t v -> unmodified E t v.
Proof. intros H. apply (H NRoot t NRoot v). constructor. Qed.
Lemma resting_some t v : resting (TOpt t) (VSome v) -> resting t v.
Proof.
  intros H n t' n' v' Hw. destruct (within_node _ _ _ _ _ _ Hw (NElem None)) as (n'' & Hw').
  apply (H NRoot t' n'' v'). now apply within_some.
Qed.
Lemma resting_field fs vs i a t v : resting (TRec fs) (VRec vs) -> nth_error fs i = Some (a, t) -> nth_error vs i = Some v -> resting t v.
Proof.
  intros H Ha Hv n t' n' v' Hw. destruct (within_node _ _ _ _ _ _ Hw (NField a)) as (n'' & Hw').
  apply (H NRoot t' n'' v'). eapply within_field; eassumption.
Qed.
Lemma resting_entry t m k v : resting (TMap t) (VMap m) -> In (k, v) m -> resting t v.
Proof.
  intros H Hin n t' n' v' Hw. destruct (within_node _ _ _ _ _ _ Hw (NElem None)) as (n'' & Hw').
  apply (H NRoot t' n'' v'). eapply within_entry; eassumption.
Qed.
Lemma resting_element t te vs v : elements t te -> resting t (VSeq vs) -> In v vs -> resting te v.
Proof.
  intros He H Hin n t' n' v' Hw. destruct (within_node _ _ _ _ _ _ Hw (NElem None)) as (n'' & Hw').
  apply (H NRoot t' n'' v'). eapply within_element; eassumption.
Qed.

(** Building one up. *)
Lemma resting_opt t : unmodified E (TOpt t) VNone -> resting (TOpt t) VNone.
Proof. intros H n t' n' v' Hw. inversion Hw; subst. exact H. Qed.
Lemma resting_opt_some t v : unmodified E (TOpt t) (VSome v) -> resting t v -> resting (TOpt t) (VSome v).
Proof. intros H1 H2 n t' n' v' Hw. inversion Hw; subst; [exact H1|]. eapply H2. eassumption. Qed.
Lemma resting_leaf t v : scalar t -> unmodified E t v -> resting t v.
Proof. intros Hs H n t' n' v' Hw. pose proof (within_leaf _ _ _ _ _ _ Hs Hw) as Hx. injection Hx as -> _ ->. exact H. Qed.
Lemma resting_seq t te vs : elements t te -> unmodified E t (VSeq vs) -> (forall v, In v vs -> resting te v) -> resting t (VSeq vs).
Proof.
  intros He H1 H2 n t' n' v' Hw. inversion Hw as [| | | |? te' ? ? v0 ? ? ? He' Hin Hw']; subst; [exact H1|].
  rewrite (elements_fun _ _ _ He' He) in Hw'. exact (H2 _ Hin _ _ _ _ Hw').
Qed.
Lemma resting_map t m : unmodified E (TMap t) (VMap m) -> (forall k v, In (k, v) m -> resting t v) -> resting (TMap t) (VMap m).
Proof. intros H1 H2 n t' n' v' Hw. inversion Hw; subst; [exact H1|]. eapply H2; eassumption. Qed.
Lemma resting_rec fs vs : unmodified E (TRec fs) (VRec vs) ->
  (forall i a t v, nth_error fs i = Some (a, t) -> nth_error vs i = Some v -> resting t v) -> resting (TRec fs) (VRec vs).
Proof. intros H1 H2 n t' n' v' Hw. inversion Hw; subst; [exact H1|]. eapply H2; eassumption. Qed.

(* ------------------------------------------------------------------ *)
(** ** Objects at rest are left as they are *)

Lemma each_field_same (f : nkind -> ty -> W -> val -> W * val * option hexn) fs : forall vs,
  (forall i a t v, nth_error fs i = Some (a, t) -> nth_error vs i = Some v ->
     forall w w' v' e, f (NField a) t w v = (w', v', e) -> v' = v) ->
  forall w w' vs' e, each_field f w fs vs = (w', vs', e) -> vs' = vs.
Proof.
  induction fs as [|[a t] fs IH]; intros [|v vs] H w w' vs' e; cbn [each_field]; try (now intros [= <- <- <-]).
  destruct (f (NField a) t w v) as [[w1 v1] [e1|]] eqn:Ef; rewrite (H 0 a t v eq_refl eq_refl _ _ _ _ Ef).
  - now intros [= <- <- <-].
  - destruct (each_field f w1 fs vs) as [[w2 l2] e2] eqn:El. intros [= <- <- <-]. f_equal.
    apply (IH vs) with (2 := El). intros i a' t' v' Ha Hv. exact (H (S i) a' t' v' Ha Hv).
Qed.

Lemma hook_same t v w w' v' e : unmodified E t v -> hhook E t w v = (w', v', e) -> v' = v.
Proof. intros H. apply H. Qed.

Lemma validate_resting t : forall n w v w' v' e, resting t v -> hvalidate E t n w v = (w', v', e) -> v' = v.
Proof.
  induction t as [ |it| | | |t IH|t IH|k t IH|t IH|ts IH|e0|e0|fs IH] using ty_ind0; intros n w v w' v' e Hr;
    cbn [hvalidate]; (destruct (hhook E _ w v) as [[w1 v1] [e1|]] eqn:Eh; rewrite (hook_same _ _ _ _ _ _ (resting_self _ _ Hr) Eh);
      [now intros [= <- <- <-]|]); (destruct (hunique n v) as [e1|]; [now intros [= <- <- <-]|]); try (now intros [= <- <- <-]); clear Eh.
  - destruct v; try (now intros [= <- <- <-]). destruct (hvalidate E t (NElem None) w1 v) as [[w2 x2] e2] eqn:Er.
    intros [= <- <- <-]. now rewrite (IH _ _ _ _ _ _ (resting_some _ _ Hr) Er).
  - destruct v; try (now intros [= <- <- <-]). destruct (each _ w1 vs) as [[w2 x2] e2] eqn:Er.
    intros [= <- <- <-]. f_equal. refine (each_quiet _ _ _ _ _ _ _ Er). intros w0 x w3 x3 e3 Hx. apply IH.
    exact (resting_element (TSeq t) t vs x (or_introl eq_refl) Hr Hx).
  - destruct v; try (now intros [= <- <- <-]). destruct (each _ w1 vs) as [[w2 x2] e2] eqn:Er.
    intros [= <- <- <-]. f_equal. refine (each_quiet _ _ _ _ _ _ _ Er). intros w0 x w3 x3 e3 Hx. apply IH.
    exact (resting_element (TArr k t) t vs x (or_intror (ex_intro _ k eq_refl)) Hr Hx).
  - destruct v; try (now intros [= <- <- <-]). match goal with |- context [each ?f w1 ?m] => destruct (each f w1 m) as [[w2 x2] e2] eqn:Er end.
    intros [= <- <- <-]. f_equal. refine (each_quiet _ _ _ _ _ _ _ Er). intros w0 [k x] w3 x3 e3 Hx. cbn [fst snd].
    destruct (hvalidate E t (NElem None) w0 x) as [[w4 x4] e4] eqn:E4. intros [= <- <- <-].
    now rewrite (IH _ _ _ _ _ _ (resting_entry _ _ _ _ Hr Hx) E4).
  - destruct v; try (now intros [= <- <- <-]). destruct (each_field _ w1 fs vs) as [[w2 x2] e2] eqn:Er.
    intros [= <- <- <-]. f_equal. refine (each_field_same _ fs vs _ _ _ _ _ Er). rewrite Forall_forall in IH.
    intros i a t v Ha Hv w0 w3 v3 e3. apply (IH (a, t) (nth_error_In _ _ Ha)). exact (resting_field _ _ _ _ _ _ Hr Ha Hv).
Qed.

Lemma candidate_resting t : forall w v w' v' e, resting t v -> hcandidate E t w v = (w', v', e) -> v' = v.
Proof.
  induction t as [ |it| | | |t IH|t IH|k t IH|t IH|ts IH|e0|e0|fs IH] using ty_ind0; intros w v w' v' e Hr;
    cbn [hcandidate]; (destruct (hhook E _ w v) as [[w1 v1] [e1|]] eqn:Eh; rewrite (hook_same _ _ _ _ _ _ (resting_self _ _ Hr) Eh);
      [now intros [= <- <- <-]|]); try (now intros [= <- <- <-]); clear Eh.
  destruct v; try (now intros [= <- <- <-]). destruct (hcandidate E t w1 v) as [[w2 x2] e2] eqn:Er.
  intros [= <- <- <-]. now rewrite (IH _ _ _ _ _ (resting_some _ _ Hr) Er).
Qed.

(* ------------------------------------------------------------------ *)
(** ** What has passed is at rest *)

Context (L : leaf_only E) (Se : settles E) (Kt : keeps_types E).

Lemma each_passed {A} (f : W -> A -> W * A * option hexn) (R : A -> A -> Prop) l :
  (forall w x w' x', In x l -> f w x = (w', x', None) -> R x x') ->
  forall w w' l', each f w l = (w', l', None) -> Forall2 R l l'.
Proof.
  induction l as [|x l IH]; intros H w w' l'; cbn [each]; [intros [= <- <-]; constructor|].
  destruct (f w x) as [[w1 x1] [e1|]] eqn:Ef; [discriminate|]. destruct (each f w1 l) as [[w2 l2] e2] eqn:El. intros [= <- <- ->].
  constructor; [exact (H _ _ _ _ (or_introl eq_refl) Ef)|]. apply (IH (fun w x w' x' Hx => H w x w' x' (or_intror Hx)) _ _ _ El).
Qed.

Lemma each_field_passed (f : nkind -> ty -> W -> val -> W * val * option hexn) (R : ty -> val -> val -> Prop) fs : forall vs,
  (forall i a t v, nth_error fs i = Some (a, t) -> nth_error vs i = Some v ->
     forall w w' v', f (NField a) t w v = (w', v', None) -> R t v v') ->
  forall w w' vs', each_field f w fs vs = (w', vs', None) ->
  length vs = length fs /\ length vs' = length fs /\
  forall i a t x y, nth_error fs i = Some (a, t) -> nth_error vs i = Some x -> nth_error vs' i = Some y -> R t x y.
Proof.
  induction fs as [|[a t] fs IH]; intros [|v vs] H w w' vs'; cbn [each_field]; try discriminate.
  - intros [= <- <-]. split; [reflexivity|]. split; [reflexivity|]. intros [|i]; discriminate.
  - destruct (f (NField a) t w v) as [[w1 v1] [e1|]] eqn:Ef; [discriminate|].
    destruct (each_field f w1 fs vs) as [[w2 l2] e2] eqn:El. intros [= <- <- ->].
    destruct (IH vs (fun i a' t' v' Ha Hv => H (S i) a' t' v' Ha Hv) _ _ _ El) as (L1 & L2 & L3).
    split; [cbn; congruence|]. split; [cbn; congruence|]. intros [|i] a' t' x y; cbn [nth_error].
    + intros [= <- <-] [= <-] [= <-]. exact (H 0 a t v eq_refl eq_refl _ _ _ Ef).
    + apply L3.
Qed.

Definition passed (t : ty) (x y : val) : Prop := tidied E t x y /\ resting t y /\ typed t y.

Lemma forall2_in {A B} (R : A -> B -> Prop) l l' y : Forall2 R l l' -> In y l' -> exists x, In x l /\ R x y.
Proof. induction 1 as [|a b l l' H _ IH]; intros []; [subst; exists a; split; [now left|exact H]|]. destruct IH as (x & Hx & Hr); auto. exists x. split; [now right|exact Hr]. Qed.

Lemma forall2_left {A B} (R R' : A -> B -> Prop) l l' : (forall x y, R x y -> R' x y) -> Forall2 R l l' -> Forall2 R' l l'.
Proof. intros H. induction 1; constructor; auto. Qed.

Lemma forall2_length {A B} (R : A -> B -> Prop) l l' : Forall2 R l l' -> length l = length l'.
Proof. induction 1; cbn; congruence. Qed.

Lemma passed_all t l l' : Forall2 (passed t) l l' -> all1 (typed t) l'.
Proof. intros H. apply all1_Forall, Forall_forall. intros y Hy. destruct (forall2_in _ _ _ _ H Hy) as (x & _ & _ & _ & Ht). exact Ht. Qed.

Lemma passed_elements t te vs vs' : elements t te -> unmodified E t (VSeq vs') -> Forall2 (passed te) vs vs' -> typed t (VSeq vs) ->
  passed t (VSeq vs) (VSeq vs').
Proof.
  intros He Hu H Ht. split; [|split].
  - apply (tidied_elements E t te); [exact He|]. apply (forall2_left (passed te)); [now intros x y [Hx _]|exact H].
  - apply (resting_seq t te); [exact He|exact Hu|]. intros v Hv. destruct (forall2_in _ _ _ _ H Hv) as (x & _ & _ & Hr & _). exact Hr.
  - pose proof (passed_all _ _ _ H) as Ha. destruct He as [-> | [k ->]]; cbn [typed] in *; [exact Ha|].
    destruct Ht as [Hl _]. split; [|exact Ha]. now rewrite <- (forall2_length _ _ _ H).
Qed.

Lemma not_scalar_unmodified t v : ~ scalar t -> unmodified E t v.
Proof. apply L. Qed.

Lemma entries_passed t m m' : Forall2 (fun a b : str * val => fst b = fst a /\ passed t (snd a) (snd b)) m m' -> typed (TMap t) (VMap m) ->
  passed (TMap t) (VMap m) (VMap m').
Proof.
  intros H Ht. assert (Hk : map fst m' = map fst m) by (clear Ht; induction H as [|a b l l' [H1 _] _ IH]; cbn; congruence).
  split; [|split].
  - apply tidied_map. revert H. apply forall2_left. now intros x y [H1 [H2 _]].
  - apply resting_map; [apply L; intros []|]. intros k v Hin. destruct (forall2_in _ _ _ _ H Hin) as ([k0 x] & _ & _ & _ & Hr & _). exact Hr.
  - cbn [typed] in *. destruct Ht as [Hs _]. split.
    + clear - Hs Hk. revert m' Hk. induction m as [|[k v] m IH]; intros [|[k' v'] m']; cbn; try discriminate; [tauto|].
      intros [= -> Hk]. destruct Hs as [H1 H2]. rewrite Hk. split; [exact H1|]. now apply IH.
    + apply all1_Forall, Forall_forall. intros y Hy. destruct (forall2_in _ _ _ _ H Hy) as (x & _ & _ & _ & _ & Ht). exact Ht.
Qed.

Lemma passed_fields fs vs vs' : length vs = length fs -> length vs' = length fs ->
  (forall i a t x y, nth_error fs i = Some (a, t) -> nth_error vs i = Some x -> nth_error vs' i = Some y -> passed t x y) ->
  passed (TRec fs) (VRec vs) (VRec vs').
Proof.
  intros H1 H2 H. split; [|split].
  - apply tidied_struct; auto. intros i a t x y Ha Hx Hy. exact (proj1 (H i a t x y Ha Hx Hy)).
  - apply resting_rec; [apply L; intros []|]. intros i a t y Ha Hy.
    destruct (nth_error vs i) as [x|] eqn:Ex; [exact (proj1 (proj2 (H i a t x y Ha Ex Hy)))|].
    apply nth_error_None in Ex. assert (i < length vs') by (apply nth_error_Some; congruence). lia.
  - cbn [typed]. revert vs vs' H1 H2 H. induction fs as [|[a t] fs IH]; intros [|x vs] [|y vs']; cbn; try discriminate; [tauto|].
    intros [= H1] [= H2] H. split; [exact (proj2 (proj2 (H 0 a t x y eq_refl eq_refl eq_refl)))|].
    apply (IH vs vs'); auto. intros i a' t' x' y' Ha Hx Hy. exact (H (S i) a' t' x' y' Ha Hx Hy).
Qed.

Lemma validate_passed t : forall n w v w' v', typed t v -> hvalidate E t n w v = (w', v', None) -> passed t v v'.
Proof.
  assert (Leaf : forall t n w v w' v', scalar t -> typed t v ->
    (forall w1 v1, hhook E t w v = (w1, v1, None) -> (w1, v1, @None hexn) = (w', v', None) -> passed t v v') ->
    match hhook E t w v with
    | (w1, v1, Some e) => (w1, v1, Some e)
    | (w1, v1, None) => match hunique n v1 with Some e => (w1, v1, Some e) | None => (w1, v1, None) end
    end = (w', v', None) -> passed t v v').
  { clear t. intros t n w v w' v' Hs Ht H. destruct (hhook E t w v) as [[w1 v1] [e1|]] eqn:Eh; [discriminate|].
    destruct (hunique n v1); [discriminate|]. exact (H _ _ eq_refl). }
  assert (Leaf2 : forall t w v w' v' w1 v1, scalar t -> typed t v -> hhook E t w v = (w1, v1, None) ->
    (w1, v1, @None hexn) = (w', v', None) -> passed t v v').
  { clear t. intros t w v w' v' w1 v1 Hs Ht Eh [= <- <-]. split; [exact (tidied_leaf E t _ _ _ _ Hs Eh)|]. split.
    - apply resting_leaf; [exact Hs|]. exact (Se _ _ _ _ _ Eh).
    - exact (Kt _ _ _ _ _ _ Eh Ht). }
  induction t as [ |it| | | |t IH|t IH|k t IH|t IH|ts IH|e0|e0|fs IH] using ty_ind0; intros n w v w' v' Ht;
    cbn [hvalidate]; try (match goal with |- context [hhook E ?u w v] => refine (Leaf u n w v w' v' I Ht _); intros w1 v1; exact (Leaf2 u _ _ _ _ _ _ I Ht) end);
    (match goal with |- context [hhook E ?u w v] => destruct (hhook E u w v) as [[w1 v1] [e1|]] eqn:Eh; [discriminate|];
     rewrite (hook_same _ _ _ _ _ _ (L u v (fun H => H)) Eh) end; destruct (hunique n v) as [e1|]; [discriminate|]); clear Eh;
    destruct v as [b|z|b|b|s'| |v|vs|m|vs]; cbn [typed] in Ht; try contradiction.
  - intros [= <- <-]. split; [constructor|]. split; [apply resting_opt, L; intros []|exact I].
  - destruct (hvalidate E t (NElem None) w1 v) as [[w2 x2] e2] eqn:Er. intros [= <- <- ->].
    destruct (IH _ _ _ _ _ Ht Er) as (H1 & H2 & H3). split; [now constructor|]. split; [|exact H3].
    apply resting_opt_some; [apply L; intros []|exact H2].
  - destruct (each _ w1 vs) as [[w2 x2] e2] eqn:Er. intros [= <- <- ->].
    apply (passed_elements (TSeq t) t); [now left|apply L; intros []| |exact Ht].
    refine (each_passed _ _ _ _ _ _ _ Er). intros w0 x w3 x3 Hx. apply IH.
    exact (typed_element (TSeq t) t vs (or_introl eq_refl) Ht x Hx).
  - destruct (each _ w1 vs) as [[w2 x2] e2] eqn:Er. intros [= <- <- ->].
    apply (passed_elements (TArr k t) t); [right; eauto|apply L; intros []| |exact Ht].
    refine (each_passed _ _ _ _ _ _ _ Er). intros w0 x w3 x3 Hx. apply IH.
    exact (typed_element (TArr k t) t vs (or_intror (ex_intro _ k eq_refl)) Ht x Hx).
  - match goal with |- context [each ?f w1 ?m] => destruct (each f w1 m) as [[w2 x2] e2] eqn:Er end. intros [= <- <- ->].
    apply entries_passed; [|exact Ht]. refine (each_passed _ _ _ _ _ _ _ Er). intros w0 [k x] w3 x3 Hx. cbn [fst snd].
    destruct (hvalidate E t (NElem None) w0 x) as [[w4 x4] e4] eqn:E4. intros [= <- <- ->]. cbn [fst snd]. split; [reflexivity|].
    exact (IH _ _ _ _ _ (proj1 (typed_entry t m k x Ht Hx)) E4).
  - destruct (each_field _ w1 fs vs) as [[w2 x2] e2] eqn:Er. intros [= <- <- ->].
    destruct (each_field_passed (fun n' t' => hvalidate E t' n') passed fs vs) with (2 := Er) as (H1 & H2 & H3).
    + rewrite Forall_forall in IH. intros i a t v Ha Hv w0 w3 v3.
      exact (IH (a, t) (nth_error_In _ _ Ha) (NField a) w0 v w3 v3 (typed_nth _ _ _ _ _ _ Ht Ha Hv)).
    + now apply passed_fields.
Qed.

(** What is at rest is not tidied any further. *)
Lemma forall2_same {A} (R : A -> A -> Prop) l : forall l', Forall2 R l l' -> (forall x y, In x l -> R x y -> y = x) -> l' = l.
Proof. induction l as [|a l IH]; intros l' H K; inversion H; subst; [reflexivity|]. f_equal; [apply K; [now left|assumption]|]. apply IH; [assumption|]. intros x z Hx. apply K. now right. Qed.

Lemma tidied_resting t : forall x y, resting t x -> tidied E t x y -> y = x.
Proof.
  induction t as [ |it| | | |t IH|t IH|k t IH|t IH|ts IH|e0|e0|fs IH] using ty_ind0; intros x y Hr T;
    inversion T as [? w ? w' ? Hs Hh| |? x0 y0 T0|? te xs ys He F|? xs ys F|? xs ys L1 L2 F]; subst;
    try (exact (resting_self _ _ Hr _ _ _ _ Hh)); try (destruct He as [He|[k' He]]; discriminate); try contradiction.
  - reflexivity.
  - f_equal. apply IH; [|assumption]. now apply resting_some.
  - f_equal. apply (forall2_same (tidied E te)); [assumption|]. intros a b Ha. rewrite (elements_fun (TSeq t) te t He (or_introl eq_refl)).
    apply IH. exact (resting_element (TSeq t) t xs a (or_introl eq_refl) Hr Ha).
  - f_equal. apply (forall2_same (tidied E te)); [assumption|]. intros a b Ha. rewrite (elements_fun (TArr k t) te t He (or_intror (ex_intro _ k eq_refl))).
    apply IH. exact (resting_element (TArr k t) t xs a (or_intror (ex_intro _ k eq_refl)) Hr Ha).
  - f_equal. apply (forall2_same _ _ _ F). intros [k1 a] [k2 b] Ha [H1 H2]. cbn [fst snd] in *. subst. f_equal.
    apply IH; [|assumption]. exact (resting_entry _ _ _ _ Hr Ha).
  - f_equal. rewrite Forall_forall in IH. apply nth_error_ext_len; [congruence|]. intros i a b Ha Hb.
    destruct (nth_error fs i) as [[at_ t]|] eqn:Ef.
    + apply (IH (at_, t) (nth_error_In _ _ Ef)); [exact (resting_field _ _ _ _ _ _ Hr Ef Hb)|]. exact (F i at_ t b a Ef Hb Ha).
    + apply nth_error_None in Ef. assert (i < length ys) by (apply nth_error_Some; congruence). lia.
Qed.

End Validators.
