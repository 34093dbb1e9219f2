(** Conflicts are answered with the text of the exception of their reason. *)
From Coq Require Import String List NArith ZArith Arith Bool Lia.
From Verif Require Import Base PathModel PathSpec PathProofs TrackerModel TrackerSpec EnumModel EnumProofs
  SerialModel SerialSpec SerialBaseProofs SerialTypeProofs SerialDumpProofs
  ResourceModel ResourceSpec ResourceBaseProofs ResourcePathProofs ResourceOpProofs ResourceCaseProofs
  ResourceAnswerSpec ResourceAnswerProofs HookModel HookSpec HookProofs HookShapeProofs.
From Verif Require TextModel Base64Spec.
Import ListNotations.

Local Notation str := (list N) (only parsing).
Local Notation length := List.length (only parsing).

Lemma c_string_shown s : shown s (c_string s).
Proof.
  unfold shown. induction s as [|c s IH]; cbn [c_string]; [split; [intros []|now left]|].
  destruct (N.eqb_spec c 0) as [-> | Hc]; [split; [intros []|right; now exists s]|].
  destruct IH as [H1 H2]. split; [intros [H|H]; [congruence|auto]|].
  destruct H2 as [H2|(rest & H2)]; [left; congruence|right; exists rest; cbn; congruence].
Qed.

Lemma shown_c_string s m : shown s m -> m = c_string s.
Proof.
  intros [Hn H]. revert s H. induction m as [|c m IH]; intros s H.
  - destruct H as [-> | (rest & ->)]; reflexivity.
  - assert (Hc : (c =? 0)%N = false) by (apply N.eqb_neq; intros ->; apply Hn; now left).
    assert (Hn' : ~ In 0%N m) by (intros H'; apply Hn; now right).
    destruct H as [-> | (rest & ->)]; cbn [app c_string]; rewrite Hc; f_equal.
    + apply (IH Hn'). now left.
    + apply (IH Hn'). right. now exists rest.
Qed.

Lemma twice_text : same_key_twice = HDuplicate duplicate_text.
Proof. reflexivity. Qed.

Section Validators.
Context {W : Type}.
Context (E : henv W) (P : ty -> val -> option hexn).
Context (Hp : pure E P).

Fixpoint firsth {A} (f : A -> option hexn) (l : list A) : option hexn :=
  match l with [] => None | x :: l' => match f x with Some e => Some e | None => firsth f l' end end.

Lemma firsth_app {A} (f : A -> option hexn) l l' :
  firsth f (l ++ l') = match firsth f l with Some e => Some e | None => firsth f l' end.
Proof. induction l as [|x l IH]; cbn; [reflexivity|]. rewrite IH. now destruct (f x). Qed.

Lemma firsth_some {A} (f : A -> option hexn) l e : firsth f l = Some e <->
  exists pre x post, l = pre ++ x :: post /\ (forall y, In y pre -> f y = None) /\ f x = Some e.
Proof.
  induction l as [|x l IH]; cbn [firsth].
  - split; [discriminate|]. intros (pre & x & post & H & _). destruct pre; discriminate.
  - destruct (f x) as [e'|] eqn:Ef.
    + split; [intros [= ->]; exists [], x, l; split; [reflexivity|]; split; [intros y []|exact Ef]|].
      intros ([|z pre] & y & post & [= -> ->] & H1 & H2); [congruence|]. rewrite (H1 z (or_introl eq_refl)) in Ef. discriminate.
    + rewrite IH. split.
      * intros (pre & y & post & -> & H1 & H2). exists (x :: pre), y, post. split; [reflexivity|]. split; [|exact H2].
        intros z [<-|Hz]; auto.
      * intros ([|z pre] & y & post & [= -> ->] & H1 & H2); [congruence|].
        exists pre, y, post. split; [reflexivity|]. split; [|exact H2]. intros u Hu. apply H1. now right.
Qed.

Definition hcomplaint (x : node) : option hexn :=
  let '(t, n, v) := x in match P t v with Some e => Some e | None => hunique n v end.

Lemma each_first {A} (f : W -> A -> W * A * option hexn) (g : A -> option hexn) l :
  (forall w x w' x' e, In x l -> f w x = (w', x', e) -> g x = e) ->
  forall w w' l' e, each f w l = (w', l', e) -> firsth g l = e.
Proof.
  induction l as [|x l IH]; intros H w w' l' e; cbn [each firsth]; [now intros [= <- <- <-]|].
  destruct (f w x) as [[w1 x1] [e1|]] eqn:Ef; rewrite (H _ _ _ _ _ (or_introl eq_refl) Ef).
  - now intros [= <- <- <-].
  - destruct (each f w1 l) as [[w2 l2] e2] eqn:El. intros [= <- <- <-].
    apply (IH (fun w x w' x' e Hx => H w x w' x' e (or_intror Hx)) _ _ _ _ El).
Qed.

Lemma firsth_flat {A B} (f : B -> option hexn) (g : A -> list B) l :
  firsth f (flat_map g l) = firsth (fun x => firsth f (g x)) l.
Proof. induction l as [|x l IH]; cbn; [reflexivity|]. now rewrite firsth_app, IH. Qed.

Lemma field_first (f : nkind -> ty -> W -> val -> W * val * option hexn) (g : ty -> nkind -> val -> list node) fs :
  forall vs, length fs = length vs ->
  (forall i a t v w w' v' e, nth_error fs i = Some (a, t) -> nth_error vs i = Some v ->
     f (NField a) t w v = (w', v', e) -> firsth hcomplaint (g t (NField a) v) = e) ->
  forall w w' vs' e, each_field f w fs vs = (w', vs', e) -> firsth hcomplaint (field_nodes g fs vs) = e.
Proof.
  induction fs as [|[a t] fs IH]; intros [|v vs] Hl H w w' vs' e; cbn [each_field field_nodes]; try discriminate; [now intros [= <- <- <-]|].
  rewrite firsth_app. destruct (f (NField a) t w v) as [[w1 v1] [e1|]] eqn:Ef; rewrite (H 0 a t v _ _ _ _ eq_refl eq_refl Ef).
  - now intros [= <- <- <-].
  - destruct (each_field f w1 fs vs) as [[w2 l2] e2] eqn:El. intros [= <- <- <-].
    refine (IH vs _ _ _ _ _ _ El); [cbn in Hl; lia|]. intros i a' t' v' w0 w0' v0 e0 Ha Hv. exact (H (S i) a' t' v' w0 w0' v0 e0 Ha Hv).
Qed.

Lemma validate_first t : forall n w v w' v' e, typed t v -> hvalidate E t n w v = (w', v', e) -> firsth hcomplaint (nodes t n v) = e.
Proof.
  induction t as [ |it| | | |t IH|t IH|k t IH|t IH|ts IH|e0|e0|fs IH] using ty_ind0; intros n w v w' v' e Ht;
    cbn [hvalidate nodes firsth hcomplaint];
    match goal with |- context [hhook E ?t w v] => destruct (Hp t w v) as (w1 & ->); destruct (P t v) as [e1|] end;
    try (now intros [= <- <- <-]); (destruct (hunique n v) as [e1|]; [now intros [= <- <- <-]|]);
    destruct v as [b|z|b|b|s'| |v|vs|m|vs]; cbn [typed] in Ht; try contradiction; try (now intros [= <- <- <-]).
  - destruct (hvalidate E t (NElem None) w1 v) as [[w2 x2] e2] eqn:Er. intros [= <- <- <-]. exact (IH _ _ _ _ _ _ Ht Er).
  - destruct (each _ w1 vs) as [[w2 x2] e2] eqn:Er. intros [= <- <- <-]. rewrite firsth_flat.
    refine (each_first _ _ _ _ _ _ _ _ Er). intros w0 x w3 x3 e3 Hx. apply IH.
    exact (typed_element (TSeq t) t vs (or_introl eq_refl) Ht x Hx).
  - destruct (each _ w1 vs) as [[w2 x2] e2] eqn:Er. intros [= <- <- <-]. rewrite firsth_flat.
    refine (each_first _ _ _ _ _ _ _ _ Er). intros w0 x w3 x3 e3 Hx. apply IH.
    exact (typed_element (TArr k t) t vs (or_intror (ex_intro _ k eq_refl)) Ht x Hx).
  - match goal with |- context [each ?f w1 ?m] => destruct (each f w1 m) as [[w2 x2] e2] eqn:Er end.
    intros [= <- <- <-]. rewrite firsth_flat. refine (each_first _ _ _ _ _ _ _ _ Er). intros w0 [k x] w3 x3 e3 Hx. cbn [fst snd].
    destruct (hvalidate E t (NElem None) w0 x) as [[w4 x4] e4] eqn:E4. intros [= _ _ <-].
    exact (IH _ _ _ _ _ _ (proj1 (typed_entry t m k x Ht Hx)) E4).
  - destruct (each_field _ w1 fs vs) as [[w2 x2] e2] eqn:Er. intros [= <- <- <-].
    refine (field_first _ _ fs vs (typed_fields_length _ _ Ht) _ _ _ _ _ Er).
    rewrite Forall_forall in IH. intros i a t v w0 w3 v3 e3 Ha Hv.
    exact (IH (a, t) (nth_error_In _ _ Ha) (NField a) w0 v w3 v3 e3 (typed_nth _ _ _ _ _ _ Ht Ha Hv)).
Qed.

Lemma hcomplaint_some x e : node_fine x -> (hcomplaint x = Some e <-> complains_with P x e).
Proof.
  destruct x as [[t n] v]. intros [Ht Hn]. cbn [hcomplaint complains_with]. unfold hunique.
  destruct (P t v) as [e1|] eqn:Ep; [split; [auto|intros [H|[H _]]; congruence]|].
  pose proof (fun e => unique_keys_some n t v e Hn Ht) as U.
  destruct (validate_unique_child_keys n v) as [e1|] eqn:Eu.
  - destruct (proj1 (U e1) eq_refl) as [-> Hx]. cbn [of_rexn]. rewrite twice_text. split.
    + intros [= <-]. right. auto.
    + intros [H|(_ & -> & _)]; [discriminate|reflexivity].
  - split; [discriminate|]. intros [H|(_ & -> & Hx)]; [discriminate|].
    assert (None = Some XDuplicate) by (apply U; auto). discriminate.
Qed.

Lemma objects_true t v e : schema t -> typed t v -> (firsth hcomplaint (nodes t NRoot v) = Some e <-> objects P t v e).
Proof.
  intros [_ Hk] Ht. unfold objects. rewrite firsth_some.
  assert (F : forall x, In x (nodes t NRoot v) -> node_fine x) by exact (nodes_fine t NRoot v Ht Hk I).
  split; intros (pre & x & post & Hl & H1 & H2); exists pre, x, post; (split; [exact Hl|]).
  - split.
    + intros y e' Hy Hc. apply hcomplaint_some in Hc; [|apply F; rewrite Hl; apply in_or_app; now left].
      rewrite (H1 y Hy) in Hc. discriminate.
    + apply hcomplaint_some; [apply F; rewrite Hl; apply in_or_app; right; now left|exact H2].
  - split.
    + intros y Hy. destruct (hcomplaint y) as [e'|] eqn:Ec; [|reflexivity]. exfalso. apply (H1 y e' Hy).
      apply hcomplaint_some; [apply F; rewrite Hl; apply in_or_app; now left|exact Ec].
    + apply hcomplaint_some; [apply F; rewrite Hl; apply in_or_app; right; now left|exact H2].
Qed.

Fixpoint cand_exn (t : ty) (v : val) : option hexn :=
  match P t v with
  | Some e => Some e
  | None => match t, v with TOpt t', VSome x => cand_exn t' x | _, _ => None end
  end.

Lemma candidate_exn t : forall w v, exists w', hcandidate E t w v = (w', v, cand_exn t v).
Proof.
  induction t as [ |it| | | |t IH|t IH|k t IH|t IH|ts IH|e0|e0|fs IH] using ty_ind0; intros w v; cbn [hcandidate cand_exn];
    match goal with |- context [hhook E ?t w v] => destruct (Hp t w v) as (w1 & ->); destruct (P t v) as [e1|] end; eauto.
  destruct v; eauto. destruct (IH w1 v) as (w2 & ->). eauto.
Qed.

Lemma vetoed_exn t : forall v e, cand_exn t v = Some e <-> vetoed_with P t v e.
Proof.
  assert (Leaf : forall u v e, (forall t' v', u = TOpt t' -> v <> VSome v') ->
    (match P u v with Some e => Some e | None => None end = Some e <-> vetoed_with P u v e)).
  { clear t. intros u v e H. split.
    - intros H'. apply veto_with_here. now destruct (P u v).
    - intros V. inversion V; subst; [now destruct (P u v)|]. now elim (H t v0). }
  induction t as [ |it| | | |t IH|t IH|k t IH|t IH|ts IH|e0|e0|fs IH] using ty_ind0; intros v e; cbn [cand_exn];
    try (apply Leaf; discriminate).
  destruct v as [b|z|b|b|s'| |v|vs|m|vs]; try (apply Leaf; discriminate).
  destruct (P (TOpt t) (VSome v)) as [e1|] eqn:Ep.
  - split; [intros [= <-]; now constructor|]. intros V. inversion V; subst; congruence.
  - rewrite IH. split; [now apply veto_with_inside|]. intros V. inversion V; subst; [congruence|assumption].
Qed.

Lemma unvetoed_exn t v : cand_exn t v = None <-> unvetoed_by P t v.
Proof.
  unfold unvetoed_by. split.
  - intros H e V. apply vetoed_exn in V. congruence.
  - intros H. destruct (cand_exn t v) as [e|] eqn:Ec; [|reflexivity]. elim (H e). now apply vetoed_exn.
Qed.

(** A change with such validators. *)
Lemma hchange_first t w r loc x back h p l whole s old w' r' a : schema t -> typed t (set_at (value r) loc x) ->
  get_at (value r) loc = Some old -> back x = Some old -> denotes p l ->
  hchange E t w r loc x back h (Ok p) whole s = (w', r', a) ->
  (exists e, objects P t (set_at (value r) loc x) e /\ r' = r /\ a = h e) \/
  ((forall e, ~ objects P t (set_at (value r) loc x) e) /\ a = plain_answer s).
Proof.
  intros Hsch Ht Hg Hb D. unfold hchange, hvalidate_tree.
  destruct (hvalidate E t NRoot w (set_at (value r) loc x)) as [[w1 v1] e] eqn:Ev.
  pose proof (validate_first _ _ _ _ _ _ _ Ht Ev) as Hf. pose proof (validate_quiet E t (pure_quiet E P Hp) _ _ _ _ _ _ Ev) as ->.
  destruct e as [e|].
  - rewrite (get_set _ _ _ _ Hg), Hb, set_twice, (set_back _ _ _ Hg). intros [= <- <- <-]. left. exists e.
    split; [now apply objects_true|]. split; [now destruct r|reflexivity].
  - destruct (notify_total (modifications r) p l whole D) as (m & g & ->). intros [= <- <- <-]. right. split; [|reflexivity].
    intros e O. apply objects_true in O; auto. congruence.
Qed.

Lemma deser_x cv t1 j v1 x e : wf t1 -> typed t1 v1 -> deser cv t1 j v1 = (x, e) -> typed t1 x.
Proof. intros Hw Ht H. pose proof (proj1 (deser_typed cv t1 Hw j v1 Ht)) as Hx. now rewrite H in Hx. Qed.
Lemma patch_x cv t1 j v1 x e : wf t1 -> typed t1 v1 -> patch cv t1 j v1 = (x, e) -> typed t1 x.
Proof. intros Hw Ht H. pose proof (proj1 (patch_typed cv t1 Hw j v1 Ht)) as Hx. now rewrite H in Hx. Qed.

(** Conflict answers come from two kinds of exceptions. *)

Lemma handled_conflict h e b : handles h -> h e = HAnswer s_conflict b -> exists m, b = Text m /\ conflicts m e.
Proof.
  intros [-> | ->]; destruct e; cbn; try discriminate; intros [= <-]; eexists; (split; [reflexivity|]); eexists; (split; [auto|apply c_string_shown]).
Qed.

Lemma conflict_handled h e m : handles h -> conflicts m e -> h e = HAnswer s_conflict (Text m).
Proof. intros [-> | ->] (what & [-> | ->] & Hs); rewrite (shown_c_string _ _ Hs); reflexivity. Qed.

Lemma attempt_fits t v segs q w w1 pre tr t1 n1 v1 x : schema t -> typed t v ->
  attempt E t v segs q w w1 pre tr t1 n1 v1 x -> typed t (set_at v (map snd tr) x) /\ get_at v (map snd tr) = Some v1.
Proof.
  intros Hsch Ht A.
  assert (R : reaches t NRoot v pre tr t1 n1 v1) by (destruct A; subst; assumption).
  destruct (reaches_get _ _ _ _ _ _ _ _ R Ht) as [Hg Ht1]. destruct (root_fits _ _ _ _ _ _ _ Hsch R) as (Hw & _).
  split; [|exact Hg]. apply (reaches_set_typed _ _ _ _ _ _ _ _ x R Ht).
  destruct A as [p j w tr t1 n1 v1 x _ _ H _|p j w tr t1 n1 v1 x _ _ H _|p j w w1 tr te n1 vs c c1 _ _ H _ Hc
    |p w pre s tr t1 n1 v1 x _ _ _ H|p w w1 w2 tr te n1 v1 c _ _ _ _ Hc].
  - exact (deser_x _ _ _ _ _ _ Hw Ht1 H).
  - exact (patch_x _ _ _ _ _ _ Hw Ht1 H).
  - destruct (candidate_exn te w c) as (w2 & H2). rewrite H2 in Hc. injection Hc as <- <- _.
    pose proof (deser_x _ te _ _ _ _ Hw (default_typed te Hw) H) as Hc. cbn [typed] in *. apply all1_app. cbn. auto.
  - exact (child_removed_typed _ _ _ _ _ Ht1 (without_removed _ _ _ _ _ Ht1 H)).
  - destruct (candidate_exn (TOpt te) w1 VNone) as (w3 & H3). rewrite H3 in Hc. injection Hc as <- <- _. exact I.
Qed.

Lemma undoes_back q v1 x back : undoes q v1 x back -> back x = Some v1.
Proof. intros [H|(p & j & vs & c & _ & -> & -> & ->)]; [apply H|apply pop_app]. Qed.

Lemma user_exn_conflict e m : conflicts m (hexn_of E e) -> e = EUser.
Proof. intros (what & H & _). destruct e; cbn in H; destruct H; congruence. Qed.

Theorem conflict_reason t w r q segs w' r' b : schema t -> typed t (value r) -> at_path q segs ->
  hperform E t w r q = (w', r', HAnswer s_conflict b) ->
  exists m e, b = Text m /\ conflicts m e /\ reason P (hconv E) (huser_exn E) t (value r) segs q e.
Proof.
  intros Hsch Ht D H.
  destruct (hperform_cases E t w r q segs w' r' _ Ht D H) as
    [(w1 & pre & tr & t1 & n1 & v1 & x & back & h & p & whole & s & A & Hc & D' & Hu & Hh & Hs)
    |[[-> (e & h & Hh & Hr & Ha)]|[-> [_ [Ha|(skip & p & -> & Ha)]]]]].
  - destruct (attempt_fits _ _ _ _ _ _ _ _ _ _ _ _ Hsch Ht A) as [Ht' Hg].
    destruct (hchange_first _ _ _ _ _ _ _ _ _ _ _ _ _ _ _ Hsch Ht' Hg (undoes_back _ _ _ _ Hu) D' Hc) as [(e & O & _ & Ha)|[_ Ha]].
    2: { destruct Hs as [-> |[-> | ->]]; discriminate. }
    destruct (handled_conflict _ _ _ Hh (eq_sym Ha)) as (m & -> & Cm). exists m, e. split; [reflexivity|]. split; [exact Cm|].
    pose proof (set_updated _ _ x _ Hg) as U.
    destruct A as [p0 j w tr t1 n1 v1 x R L Hd Hi|p0 j w tr t1 n1 v1 x R L Hd Hi|p0 j w w1 tr te n1 vs c c1 R L Hd Hn Hv
      |p0 w pre s0 tr t1 n1 v1 x Es R L Hwo|p0 w w1 w2 tr te n1 v1 c Hcp R L Hv1 Hv2].
    + apply locked_false in L. apply identity_true in Hi. eapply reason_put; eassumption.
    + apply locked_false in L. apply identity_true in Hi. eapply reason_patch; eassumption.
    + apply children_locked_false in L. destruct (candidate_exn te w c) as (w2 & H2). rewrite H2 in Hv. injection Hv as <- <- Hv.
      apply unvetoed_exn in Hv. eapply reason_post; eassumption.
    + apply children_locked_false in L. eapply reason_delete_child; eassumption.
    + apply locked_false in L. destruct (candidate_exn (TOpt te) w1 VNone) as (w3 & H3). rewrite H3 in Hv2. injection Hv2 as <- <- Hv2.
      cbn [cand_exn] in Hv2. eapply reason_reset; try eassumption.
      * intros y Ey. destruct (Hv1 y Ey) as (y' & Hy). destruct (candidate_exn te w y) as (w4 & H4). rewrite H4 in Hy.
        apply unvetoed_exn. congruence.
      * now destruct (P (TOpt te) VNone).
  - destruct (handled_conflict _ _ _ Hh (eq_sym Ha)) as (m & -> & Cm). exists m, e. split; [reflexivity|]. split; [exact Cm|].
    destruct Hr as [q w e He|p j w tr t1 n1 v1 x e R L Hd|p j w tr t1 n1 v1 x e R L Hd|p j w tr te n1 vs x e R L Hd
      |p j w tr te n1 vs c R L Hd Hk|p j w w1 tr te n1 vs c c1 e R L Hd Hk Hv|p w w1 tr te n1 x x1 e Hcp R L Hv
      |p w w1 w2 tr te n1 v1 c e Hcp R L Hv1 Hv2].
    + destruct Cm as (what & [-> | ->] & _); destruct He; discriminate.
    + rewrite (user_exn_conflict _ _ Cm) in *. apply locked_false in L. eapply reason_put_document; eassumption.
    + rewrite (user_exn_conflict _ _ Cm) in *. apply locked_false in L. eapply reason_patch_document; eassumption.
    + rewrite (user_exn_conflict _ _ Cm) in *. apply children_locked_false in L. eapply reason_post_document; eassumption.
    + apply children_locked_false in L. rewrite <- twice_text. eapply reason_post_taken; eassumption.
    + apply children_locked_false in L. destruct (candidate_exn te w c) as (w2 & H2). rewrite H2 in Hv. injection Hv as <- <- Hv.
      apply vetoed_exn in Hv. eapply reason_post_vetoed; eassumption.
    + apply locked_false in L. destruct (candidate_exn te w x) as (w2 & H2). rewrite H2 in Hv. injection Hv as <- <- Hv.
      apply vetoed_exn in Hv. eapply reason_reset_content; eassumption.
    + apply locked_false in L. destruct (candidate_exn (TOpt te) w1 VNone) as (w3 & H3). rewrite H3 in Hv2. injection Hv2 as <- <- Hv2.
      cbn [cand_exn] in Hv2. eapply reason_reset_none; try eassumption.
      * intros y Ey. destruct (Hv1 y Ey) as (y' & Hy). destruct (candidate_exn te w y) as (w4 & H4). rewrite H4 in Hy.
        apply unvetoed_exn. congruence.
      * now destruct (P (TOpt te) VNone).
  - discriminate.
  - exfalso. revert Ha. unfold hget, of_answer, get. destruct (visit_at_path t (value r) p 0) as [pl|e].
    + destruct (dump _ _ _ _) as [es [u| |]]; discriminate.
    + destruct e; discriminate.
Qed.

(* ------------------------------------------------------------------ *)
(** ** The other way round *)

Lemma hchange_objects t w r loc x back h p l whole s old e : schema t -> typed t (set_at (value r) loc x) ->
  get_at (value r) loc = Some old -> back x = Some old -> denotes p l -> objects P t (set_at (value r) loc x) e ->
  exists w', hchange E t w r loc x back h (Ok p) whole s = (w', r, h e).
Proof.
  intros Hsch Ht Hg Hb D O. apply objects_true in O; auto. unfold hchange, hvalidate_tree.
  destruct (hvalidate E t NRoot w (set_at (value r) loc x)) as [[w1 v1] e1] eqn:Ev.
  pose proof (validate_first _ _ _ _ _ _ _ Ht Ev) as Hf. pose proof (validate_quiet E t (pure_quiet E P Hp) _ _ _ _ _ _ Ev) as ->.
  rewrite O in Hf. subst e1. rewrite (get_set _ _ _ _ Hg), Hb, set_twice, (set_back _ _ _ Hg). exists w1. now destruct r.
Qed.

Lemma hdel_parent t w r p pre s tr t1 n1 v1 : typed t (value r) -> denotes p (pre ++ [s]) ->
  reaches t NRoot (value r) pre tr t1 n1 v1 ->
  exists rest, view_front rest = Ok s /\
    hdel E t w r p = match hdelete_direct_child E t w r p (mkplace (map snd tr) t1 n1 v1 rest (ctx_along access0 tr)) with
                     | Some res => res | None => hreset_optional E t w r p end.
Proof.
  intros Ht D R. destruct (visit_parent_reached t (value r) p pre s tr t1 n1 v1 Ht D R) as (rest & Hf & Hv).
  exists rest. split; [exact Hf|]. unfold hdel, view_empty. rewrite (denotes_size _ _ D), app_length, Nat.add_comm. cbn [List.length Nat.add Nat.eqb].
  now rewrite Hv.
Qed.

Lemma hdel_child t w r p pre s tr t1 n1 v1 x : typed t (value r) -> denotes p (pre ++ [s]) ->
  reaches t NRoot (value r) pre tr t1 n1 v1 -> ~ children_locked tr n1 -> without t1 n1 v1 s x ->
  hdel E t w r p = herase E t w r p (map snd tr) v1 x.
Proof.
  intros Ht D R L Hw. apply children_locked_false in L. destruct (hdel_parent t w r p pre s tr t1 n1 v1 Ht D R) as (rest & Hf & ->).
  unfold hdelete_direct_child. cbn [pl_ctx pl_node pl_ty pl_val pl_loc pl_rest]. rewrite Hf. cbv zeta.
  destruct Hw as [te n pre0 s x post H1 H2|te n pre0 x post s ck K|te n pre0 x post s K H].
  - now rewrite (map_find_len _ _ _ _ H1), L, erase_len.
  - destruct (node_child_keys n) as [|ck0 cks] eqn:Ek; [elim (key_name_nil _ _ _ _ K)|].
    now rewrite (key_name_found _ _ _ _ _ K), L, remove_len.
  - rewrite K. apply index_name_parse in H. now rewrite H, L, Nat2N.id, nth_error_len, remove_len.
Qed.

Lemma hdel_other t w r p segs tr te n1 v1 : typed t (value r) -> denotes p segs -> ~ child_path t (value r) segs ->
  reaches t NRoot (value r) segs tr (TOpt te) n1 v1 -> hdel E t w r p = hreset_optional E t w r p.
Proof.
  intros Ht D Hc R. destruct segs as [|s0 segs0].
  { unfold hdel, view_empty. now rewrite (denotes_size _ _ D). }
  assert (Hne : s0 :: segs0 <> []) by discriminate. destruct (exists_last Hne) as (pre & s & Es).
  rewrite Es in *. destruct (reaches_split _ _ _ _ _ _ _ _ _ R) as (tr1 & tr2 & t2 & n2 & v2 & -> & R1 & R2).
  destruct (hdel_parent t w r p pre s tr1 t2 n2 v2 Ht D R1) as (rest & Hf & ->).
  assert (Hcol : ~ collection t2) by (intros Hcol; apply Hc; exists pre, s, tr1, t2, n2, v2; auto).
  unfold hdelete_direct_child. cbn [pl_ctx pl_node pl_ty pl_val pl_loc pl_rest]. rewrite Hf. cbv zeta.
  destruct t2; try reflexivity.
  - elim Hcol. right. eexists. left. reflexivity.
  - elim Hcol. right. eexists. right. eauto.
  - elim Hcol. left. eauto.
Qed.

Theorem reason_conflict t w r q segs e m : schema t -> typed t (value r) -> at_path q segs ->
  reason P (hconv E) (huser_exn E) t (value r) segs q e -> conflicts m e ->
  exists w', hperform E t w r q = (w', r, HAnswer s_conflict (Text m)).
Proof.
  intros Hsch Ht D Hr Cm. unfold at_path in D.
  destruct Hr as [p j tr t1 n1 v1 x R L Hd|p j tr t1 n1 v1 x v' e R L Hd Hi U O|p j tr t1 n1 v1 x R L Hd|p j tr t1 n1 v1 x v' e R L Hd Hi U O
    |p j tr te n1 vs c R L Hd|p j tr te n1 vs c R L Hd Hk|p j tr te n1 vs c e R L Hd Hk V|p j tr te n1 vs c v' e R L Hd Hk V U O
    |p pre s tr t1 n1 v1 x v' e Es R L Hwo U O|p tr te n1 x e Hcp R L V|p tr te n1 v1 e Hcp R L V1 V2|p tr te n1 v1 v' e Hcp R L V1 V2 U O];
    cbn [path_of hperform] in *;
    (try destruct (reaches_get _ _ _ _ _ _ _ _ R Ht) as [Hg Ht1]); (try destruct (root_fits _ _ _ _ _ _ _ Hsch R) as (Hw & _));
    try (apply locked_false in L); try (apply children_locked_false in L); try (apply updated_set in U; subst v').
  - unfold hput, hput_or_patch. destruct (visit_reached _ _ _ _ _ _ _ _ Ht D R) as [rest ->]. cbn [pl_ctx pl_node pl_ty pl_val pl_loc].
    rewrite L, Hd. cbn [hexn_of]. rewrite (conflict_handled _ _ _ h_put Cm). eauto.
  - unfold hput, hput_or_patch. destruct (visit_reached _ _ _ _ _ _ _ _ Ht D R) as [rest ->]. cbn [pl_ctx pl_node pl_ty pl_val pl_loc].
    apply identity_true in Hi. rewrite L, Hd, Hi. cbn [negb]. rewrite <- (conflict_handled _ _ _ h_put Cm).
    apply (hchange_objects _ _ _ _ _ _ _ _ segs _ _ v1 _ Hsch); auto.
    exact (reaches_set_typed _ _ _ _ _ _ _ _ x R Ht (deser_x _ _ _ _ _ _ Hw Ht1 Hd)).
  - unfold hpatch, hput_or_patch. destruct (visit_reached _ _ _ _ _ _ _ _ Ht D R) as [rest ->]. cbn [pl_ctx pl_node pl_ty pl_val pl_loc].
    rewrite L, Hd. cbn [hexn_of]. rewrite (conflict_handled _ _ _ h_put Cm). eauto.
  - unfold hpatch, hput_or_patch. destruct (visit_reached _ _ _ _ _ _ _ _ Ht D R) as [rest ->]. cbn [pl_ctx pl_node pl_ty pl_val pl_loc].
    apply identity_true in Hi. rewrite L, Hd, Hi. cbn [negb]. rewrite <- (conflict_handled _ _ _ h_put Cm).
    apply (hchange_objects _ _ _ _ _ _ _ _ segs _ _ v1 _ Hsch); auto.
    exact (reaches_set_typed _ _ _ _ _ _ _ _ x R Ht (patch_x _ _ _ _ _ _ Hw Ht1 Hd)).
  - unfold hpost. destruct (visit_reached _ _ _ _ _ _ _ _ Ht D R) as [rest ->]. cbn [pl_ctx pl_node pl_ty pl_val pl_loc].
    rewrite L, Hd. cbn [hexn_of]. rewrite (conflict_handled _ _ _ h_put Cm). eauto.
  - unfold hpost. destruct (visit_reached _ _ _ _ _ _ _ _ Ht D R) as [rest ->]. cbn [pl_ctx pl_node pl_ty pl_val pl_loc].
    rewrite L, Hd, (check_taken _ _ _ Hk). cbn [of_rexn]. rewrite <- twice_text, (conflict_handled _ _ _ h_put Cm). eauto.
  - unfold hpost. destruct (visit_reached _ _ _ _ _ _ _ _ Ht D R) as [rest ->]. cbn [pl_ctx pl_node pl_ty pl_val pl_loc].
    rewrite L, Hd, (check_untaken _ _ _ Hk). destruct (candidate_exn te w c) as (w2 & ->). apply vetoed_exn in V. rewrite V.
    rewrite (conflict_handled _ _ _ h_put Cm). eauto.
  - unfold hpost. destruct (visit_reached _ _ _ _ _ _ _ _ Ht D R) as [rest ->]. cbn [pl_ctx pl_node pl_ty pl_val pl_loc].
    rewrite L, Hd, (check_untaken _ _ _ Hk). destruct (candidate_exn te w c) as (w2 & ->). apply unvetoed_exn in V. rewrite V.
    rewrite <- (conflict_handled _ _ _ h_put Cm).
    apply (hchange_objects _ _ _ _ _ _ _ _ segs _ _ (VSeq vs) _ Hsch); auto; [|apply pop_app].
    refine (reaches_set_typed _ _ _ _ _ _ _ _ _ R Ht _). cbn [typed] in *. apply all1_app. cbn. split; [exact Ht1|]. split; [|exact I].
    exact (deser_x _ te _ _ _ _ Hw (default_typed te Hw) Hd).
  - subst segs. apply children_locked_false in L. rewrite (hdel_child t w r p pre s tr t1 n1 v1 x Ht D R L Hwo). unfold herase.
    destruct (denotes_drop_back _ _ _ D) as (p' & -> & D'). rewrite <- (conflict_handled _ _ _ h_del Cm).
    apply (hchange_objects _ _ _ _ _ _ _ _ pre _ _ v1 _ Hsch); auto.
    refine (reaches_set_typed _ _ _ _ _ _ _ _ _ R Ht _). exact (child_removed_typed _ _ _ _ _ Ht1 (without_removed _ _ _ _ _ Ht1 Hwo)).
  - rewrite (hdel_other t w r p segs tr te n1 _ Ht D Hcp R). unfold hreset_optional.
    destruct (visit_reached _ _ _ _ _ _ _ _ Ht D R) as [rest ->]. cbn [pl_ctx pl_node pl_ty pl_val pl_loc]. rewrite L.
    destruct (candidate_exn te w x) as (w2 & ->). apply vetoed_exn in V. rewrite V, (conflict_handled _ _ _ h_del Cm). eauto.
  - rewrite (hdel_other t w r p segs tr te n1 _ Ht D Hcp R). unfold hreset_optional.
    destruct (visit_reached _ _ _ _ _ _ _ _ Ht D R) as [rest ->]. cbn [pl_ctx pl_node pl_ty pl_val pl_loc]. rewrite L.
    assert (exists w1, match v1 with VSome v => let '(w1, _, e1) := hcandidate E te w v in (w1, e1) | _ => (w, None) end = (w1, None)) as (w1 & ->).
    { destruct v1; eauto. destruct (candidate_exn te w v1) as (w2 & ->). specialize (V1 v1 eq_refl). apply unvetoed_exn in V1. rewrite V1. eauto. }
    destruct (candidate_exn (TOpt te) w1 VNone) as (w2 & ->). cbn [cand_exn]. rewrite V2, (conflict_handled _ _ _ h_del Cm). eauto.
  - rewrite (hdel_other t w r p segs tr te n1 _ Ht D Hcp R). unfold hreset_optional.
    destruct (visit_reached _ _ _ _ _ _ _ _ Ht D R) as [rest ->]. cbn [pl_ctx pl_node pl_ty pl_val pl_loc]. rewrite L.
    assert (exists w1, match v1 with VSome v => let '(w1, _, e1) := hcandidate E te w v in (w1, e1) | _ => (w, None) end = (w1, None)) as (w1 & ->).
    { destruct v1; eauto. destruct (candidate_exn te w v1) as (w2 & ->). specialize (V1 v1 eq_refl). apply unvetoed_exn in V1. rewrite V1. eauto. }
    destruct (candidate_exn (TOpt te) w1 VNone) as (w2 & ->). cbn [cand_exn]. rewrite V2, <- (conflict_handled _ _ _ h_del Cm).
    apply (hchange_objects _ _ _ _ _ _ _ _ segs _ _ v1 _ Hsch); auto.
    exact (reaches_set_typed _ _ _ _ _ _ _ _ VNone R Ht I).
Qed.

End Validators.
