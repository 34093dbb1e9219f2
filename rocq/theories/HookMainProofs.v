(** Requests with validators that tidy up single values, or do anything. *)
From Coq Require Import List NArith ZArith Arith Bool Lia.
From Verif Require Import Base PathModel PathSpec PathProofs TrackerModel TrackerSpec EnumModel EnumProofs
  SerialModel SerialSpec SerialBaseProofs SerialTypeProofs SerialDumpProofs
  ResourceModel ResourceSpec ResourceBaseProofs ResourcePathProofs ResourceOpProofs ResourceCaseProofs
  ResourceMainProofs ResourceAnswerSpec ResourceAnswerProofs HookModel HookSpec HookProofs HookShapeProofs HookReasonProofs
  ResourceLawProofs HookRestProofs HookFrameProofs.
Import ListNotations.

Local Notation str := (list N) (only parsing).

Lemma handled_fails h e : handles h -> hsuccess (h e) = false.
Proof. intros [-> | ->]; destruct e; reflexivity. Qed.

Lemma done_succeeds s : done s -> hsuccess (plain_answer s) = true.
Proof. intros [-> |[-> | ->]]; reflexivity. Qed.

Lemma get_status {W} (E : henv W) skip t r p : (exists es, hget E skip t r p = HAnswer s_ok (Dumped es)) \/ hsuccess (hget E skip t r p) = false.
Proof.
  unfold hget, of_answer, get. destruct (visit_at_path t (value r) p 0) as [pl|e].
  - destruct (dump _ _ _ _) as [es [u| |]]; eauto.
  - destruct e; auto.
Qed.

Section Any.
Context {W : Type}.
Context (E : henv W).

(** What an attempt does, with any validators. *)
Lemma hchange_any t w r loc x back h p l whole s w' r' a : denotes p l -> handles h -> done s ->
  hchange E t w r loc x back h (Ok p) whole s = (w', r', a) ->
  exists v1 e, hvalidate_tree E t w (set_at (value r) loc x) = (w', v1, e) /\
    ((e = None /\ a = plain_answer s /\ value r' = v1 /\ exists g, notify_changed (modifications r) p whole = Ok (modifications r', g)) \/
     (exists e0 y z, e = Some e0 /\ get_at v1 loc = Some y /\ back y = Some z /\ r' = mkresource (set_at v1 loc z) (modifications r) /\ a = h e0) \/
     (exists e0, e = Some e0 /\ r' = mkresource v1 (modifications r) /\ a = HEscapes HUB /\
        (get_at v1 loc = None \/ exists y, get_at v1 loc = Some y /\ back y = None))).
Proof.
  intros D Hh Hs. unfold hchange. destruct (hvalidate_tree E t w (set_at (value r) loc x)) as [[w1 v1] [e|]] eqn:Ev.
  - destruct (get_at v1 loc) as [y|] eqn:Eg; [destruct (back y) as [z|] eqn:Eb|]; intros [= <- <- <-]; exists v1, (Some e); (split; [reflexivity|]); right.
    + left. exists e, y, z. auto.
    + right. exists e. eauto 8.
    + right. exists e. auto 8.
  - destruct (notify_total (modifications r) p l whole D) as (m & g & Hm). rewrite Hm. intros [= <- <- <-].
    exists v1, None. split; [reflexivity|]. left. cbn [value modifications]. eauto 8.
Qed.

Lemma refused_silent t w r q w' r' a : typed t (value r) -> well_formed q -> hperform E t w r q = (w', r', a) ->
  hsuccess a = false -> modifications r' = modifications r.
Proof.
  intros Ht (segs & D) H Hf.
  destruct (hperform_cases E t w r q segs w' r' a Ht D H) as
    [(w1 & pre & tr & t1 & n1 & v1 & x & back & h & p & whole & s & A & Hc & D' & Hu & Hh & Hs)|[[-> _]|[-> _]]]; try reflexivity.
  destruct (hchange_any _ _ _ _ _ _ _ _ _ _ _ _ _ _ D' Hh Hs Hc) as (v2 & e & _ & [(-> & -> & _)|[(e0 & y & z & _ & _ & _ & -> & _)|(e0 & _ & -> & _)]]);
    try reflexivity. rewrite (done_succeeds _ Hs) in Hf. discriminate.
Qed.

Lemma method_not_allowed_nothing t w r q w' r' b : typed t (value r) -> well_formed q ->
  hperform E t w r q = (w', r', HAnswer s_method_not_allowed b) -> r' = r /\ w' = w.
Proof.
  intros Ht (segs & D) H.
  destruct (hperform_cases E t w r q segs w' r' _ Ht D H) as
    [(w1 & pre & tr & t1 & n1 & v1 & x & back & h & p & whole & s & A & Hc & D' & Hu & Hh & Hs)|[[-> (e & h & Hh & _ & Ha)]|[-> [-> _]]]]; auto.
  - exfalso. destruct (hchange_any _ _ _ _ _ _ _ _ _ _ _ _ _ _ D' Hh Hs Hc) as (v2 & e & _ & [(_ & Ha & _)|[(e0 & y & z & _ & _ & _ & _ & Ha)|(e0 & _ & _ & Ha & _)]]);
      [destruct Hs as [-> |[-> | ->]]; discriminate|destruct Hh as [-> | ->]; destruct e0; discriminate|discriminate].
  - exfalso. destruct Hh as [-> | ->]; destruct e; discriminate.
Qed.

Lemma attempt_reaches t v segs q w w1 pre tr t1 n1 v1 x : attempt E t v segs q w w1 pre tr t1 n1 v1 x -> reaches t NRoot v pre tr t1 n1 v1.
Proof. now destruct 1; subst. Qed.

(** The part a refused put, patch or delete was about is what it was. *)
Lemma refused_restored t w r q segs w' r' a : typed t (value r) -> at_path q segs -> (forall p j, q <> Post p j) ->
  hperform E t w r q = (w', r', a) -> hsuccess a = false ->
  r' = r \/ (exists pre tr t1 n1 v1, (pre = segs \/ exists s, segs = pre ++ [s]) /\ reaches t NRoot (value r) pre tr t1 n1 v1 /\
     (get_at (value r') (map snd tr) = Some v1 \/ a = HEscapes HUB)).
Proof.
  intros Ht D Hq H Hf.
  destruct (hperform_cases E t w r q segs w' r' a Ht D H) as
    [(w1 & pre & tr & t1 & n1 & v1 & x & back & h & p & whole & s & A & Hc & D' & Hu & Hh & Hs)|[[-> _]|[-> _]]]; auto.
  right. exists pre, tr, t1, n1, v1. split; [destruct A; eauto|]. split; [exact (attempt_reaches _ _ _ _ _ _ _ _ _ _ _ _ A)|].
  destruct (hchange_any _ _ _ _ _ _ _ _ _ _ _ _ _ _ D' Hh Hs Hc) as (v2 & e & _ & [(-> & -> & _)|[(e0 & y & z & _ & Hg & Hb & -> & _)|(e0 & _ & -> & -> & _)]]); auto.
  - rewrite (done_succeeds _ Hs) in Hf. discriminate.
  - left. cbn [value]. destruct Hu as [Hu|(p0 & j & vs & c & -> & _)]; [|now elim (Hq p0 j)].
    rewrite Hu in Hb. injection Hb as <-. exact (get_set _ _ _ _ Hg).
Qed.

Lemma written_restored t w r q segs w' r' a tr t1 n1 v1 : typed t (value r) -> at_path q segs ->
  (exists p j, q = Put p j \/ q = Patch p j) -> reaches t NRoot (value r) segs tr t1 n1 v1 ->
  hperform E t w r q = (w', r', a) -> hsuccess a = false -> a <> HEscapes HUB -> get_at (value r') (map snd tr) = Some v1.
Proof.
  intros Ht D Hq R H Hf Hu0.
  destruct (hperform_cases E t w r q segs w' r' a Ht D H) as
    [(w1 & pre & tr0 & t0 & n0 & v0 & x & back & h & p & whole & s & A & Hc & D' & Hu & Hh & Hs)|[[-> _]|[-> _]]];
    try exact (proj1 (reaches_get _ _ _ _ _ _ _ _ R Ht)).
  assert (reaches t NRoot (value r) segs tr0 t0 n0 v0) as R0.
  { destruct Hq as (p0 & j & [-> | ->]); inversion A; subst; auto. }
  destruct (reaches_fun _ _ _ _ _ _ _ _ R Ht _ _ _ _ R0) as (? & ? & ? & ?). subst.
  destruct (hchange_any _ _ _ _ _ _ _ _ _ _ _ _ _ _ D' Hh Hs Hc) as (v2 & e & _ & [(-> & -> & _)|[(e0 & y & z & _ & Hg & Hb & -> & _)|(e0 & _ & -> & -> & _)]]);
    [rewrite (done_succeeds _ Hs) in Hf; discriminate| |now elim Hu0].
  cbn [value]. destruct Hu as [Hu|(p0 & j & vs & c & -> & _)]; [|destruct Hq as (? & ? & [Hq|Hq]); discriminate Hq].
  rewrite Hu in Hb. injection Hb as <-. exact (get_set _ _ _ _ Hg).
Qed.

(** Validators that modify nothing, and change nothing else either or do. *)
Lemma quiet_failed t w r q w' r' a : quiet E -> schema t -> typed t (value r) -> well_formed q -> hperform E t w r q = (w', r', a) ->
  hsuccess a = false -> r' = r.
Proof.
  intros Q Hsch Ht Hq H Hf. destruct (perform_quiet E t w r q w' r' a Q Ht Hq H) as (E' & _ & _ & H').
  apply (failed_unchanged E' t r q r' _ Hsch Ht Hq H'). now destruct a as [[] [es|m]|e].
Qed.

Lemma quiet_history t qs : quiet E -> schema t -> Forall well_formed qs -> forall w r w' r' as_, typed t (value r) ->
  hperform_all E t w r qs = (w', r', as_) -> typed t (value r').
Proof.
  intros Q Hsch. induction 1 as [|q qs Hq _ IH]; intros w r w' r' as_ Ht; cbn [hperform_all]; [now intros [= <- <- <-]|].
  destruct (hperform E t w r q) as [[w1 r1] a] eqn:Ep. destruct (hperform_all E t w1 r1 qs) as [[w2 r2] as2] eqn:Ea. intros [= <- <- <-].
  destruct (perform_quiet E t w r q w1 r1 a Q Ht Hq Ep) as (E' & _ & _ & H').
  eapply IH; [|exact Ea]. exact (perform_typed E' t r q r1 _ Hsch Ht Hq H').
Qed.

End Any.

(* ------------------------------------------------------------------ *)
(** ** Validators of single values *)

Section Tidy.
Context {W : Type}.
Context (E : henv W).
Context (L : leaf_only E) (Se : settles E) (Kt : keeps_types E).

Lemma candidate_typed t : forall w v w' v' e, typed t v -> hcandidate E t w v = (w', v', e) -> typed t v'.
Proof.
  induction t as [ |it| | | |t IH|t IH|k t IH|t IH|ts IH|e0|e0|fs IH] using ty_ind0; intros w v w' v' e Ht; cbn [hcandidate];
    match goal with |- context [hhook E ?u w v] => destruct (hhook E u w v) as [[w1 v1] [e1|]] eqn:Eh end;
    pose proof (Kt _ _ _ _ _ _ Eh Ht) as Ht1; try (now intros [= <- <- <-]).
  destruct v1; try (now intros [= <- <- <-]). destruct (hcandidate E t w1 v1) as [[w2 x2] e2] eqn:Er. intros [= <- <- <-].
  exact (IH _ _ _ _ _ Ht1 Er).
Qed.

Lemma reset_none te w w' c e : hcandidate E (TOpt te) w VNone = (w', c, e) -> c = VNone.
Proof. apply candidate_resting. apply resting_opt. apply L. intros []. Qed.

Lemma tidy_fits t v segs q w w1 pre tr t1 n1 v1 x : schema t -> typed t v ->
  attempt E t v segs q w w1 pre tr t1 n1 v1 x -> typed t1 x /\ typed t (set_at v (map snd tr) x) /\ get_at v (map snd tr) = Some v1.
Proof.
  intros Hsch Ht A. pose proof (attempt_reaches E _ _ _ _ _ _ _ _ _ _ _ _ A) as R.
  destruct (reaches_get _ _ _ _ _ _ _ _ R Ht) as [Hg Ht1]. destruct (root_fits _ _ _ _ _ _ _ Hsch R) as (Hw & _).
  assert (Hx : typed t1 x); [|split; [exact Hx|]; split; [exact (reaches_set_typed _ _ _ _ _ _ _ _ x R Ht Hx)|exact Hg]].
  destruct A as [p j w tr t1 n1 v1 x _ _ H _|p j w tr t1 n1 v1 x _ _ H _|p j w w1 tr te n1 vs c c1 _ _ H _ Hc
    |p w pre s tr t1 n1 v1 x _ _ _ H|p w w1 w2 tr te n1 v1 c _ _ _ _ Hc].
  - exact (deser_x _ _ _ _ _ _ Hw Ht1 H).
  - exact (patch_x _ _ _ _ _ _ Hw Ht1 H).
  - pose proof (deser_x _ te _ _ _ _ Hw (default_typed te Hw) H) as Hd. cbn [typed] in *. apply all1_app. cbn.
    split; [exact Ht1|]. split; [exact (candidate_typed _ _ _ _ _ _ Hd Hc)|exact I].
  - exact (child_removed_typed _ _ _ _ _ Ht1 (without_removed _ _ _ _ _ Ht1 H)).
  - rewrite (reset_none _ _ _ _ _ Hc). exact I.
Qed.

Lemma reaches_resting t n v segs tr t1 n1 v1 : reaches t n v segs tr t1 n1 v1 -> resting E t v -> resting E t1 v1.
Proof.
  induction 1 as [t n v|fs n vs i a t v segs tr t' n' v' Hf Hv Hb R IH|t n v s segs tr t' n' v' R IH
    |t n m0 s v segs tr t' n' v' Hin R IH|t te n vs s i v segs tr t' n' v' He Hk Hi Hv R IH
    |t te n vs s ck i v segs tr t' n' v' He Hk Hv R IH]; intros Hr; auto; apply IH.
  - exact (resting_field E _ _ _ _ _ _ Hr Hf Hv).
  - now apply resting_some.
  - exact (resting_entry E _ _ _ _ Hr Hin).
  - exact (resting_element E _ _ _ _ He Hr (nth_error_In _ _ Hv)).
  - exact (resting_element E _ _ _ _ He Hr (nth_error_In _ _ Hv)).
Qed.

(** An element was appended: the others are left as they are. *)
Lemma append_focus te vs c y e : resting E (TSeq te) (VSeq vs) -> focus E (TSeq te) (VSeq (vs ++ [c])) y e -> exists c', y = VSeq (vs ++ [c']).
Proof.
  intros Hr [[-> _]|(n0 & w0 & w0' & e0 & H & _)]; [eauto|]. revert H. cbn [hvalidate].
  match goal with |- context [hhook E ?u ?w ?v] =>
    destruct (hhook E u w v) as [[wh vh] [eh|]] eqn:Eh; rewrite (hook_same E _ _ _ _ _ _ (L u v (fun H => H)) Eh); clear Eh end.
  { intros [= <- <- <-]. eauto. }
  destruct (hunique n0 _); [intros [= <- <- <-]; eauto|].
  destruct (each _ wh (vs ++ [c])) as [[w2 l2] e2] eqn:El. intros [= <- <- <-].
  destruct (each_one (hvalidate E te (NElem None)) vs c []) with (2 := El) as (c' & -> & _); [|eauto].
  intros z [Hz|[]] w3 w3' z' e3. apply validate_resting. exact (resting_element E (TSeq te) te vs z (or_introl eq_refl) Hr Hz).
Qed.

Lemma without_resting t1 n1 v1 s x : without t1 n1 v1 s x -> resting E t1 v1 -> resting E t1 x.
Proof.
  intros [te n pre k y post H1 H2|te n pre y post k ck K|te n pre y post k K H] Hr.
  - apply resting_map; [apply L; intros []|]. intros k0 v Hin. apply (resting_entry E te (pre ++ (k, y) :: post) k0 v Hr).
    apply in_app_or in Hin. apply in_or_app. destruct Hin; [now left|right; now right].
  - apply (resting_seq E (TSeq te) te); [now left|apply L; intros []|]. intros v Hin.
    apply (resting_element E (TSeq te) te (pre ++ y :: post) v (or_introl eq_refl) Hr).
    apply in_app_or in Hin. apply in_or_app. destruct Hin; [now left|right; now right].
  - apply (resting_seq E (TSeq te) te); [now left|apply L; intros []|]. intros v Hin.
    apply (resting_element E (TSeq te) te (pre ++ y :: post) v (or_introl eq_refl) Hr).
    apply in_app_or in Hin. apply in_or_app. destruct Hin; [now left|right; now right].
Qed.

Lemma candidate_tidied t : forall w c w1 c1 c', hcandidate E t w c = (w1, c1, None) -> tidied E t c1 c' -> tidied E t c c'.
Proof.
  assert (Leaf : forall u w c w1 c1 c', scalar u -> hhook E u w c = (w1, c1, None) -> tidied E u c1 c' -> tidied E u c c').
  { clear t. intros u w c w1 c1 c' Hs Hh T. assert (c' = c1) as ->; [|exact (tidied_leaf E u _ _ _ _ Hs Hh)].
    apply (tidied_resting E u c1); [|exact T]. apply resting_leaf; [exact Hs|]. exact (Se _ _ _ _ _ Hh). }
  induction t as [ |it| | | |t IH|t IH|k t IH|t IH|ts IH|e0|e0|fs IH] using ty_ind0; intros w c w1 c1 c'; cbn [hcandidate];
    match goal with |- context [hhook E ?u w c] => destruct (hhook E u w c) as [[wh vh] [eh|]] eqn:Eh; [discriminate|];
      try (intros [= <- <-]; exact (Leaf u _ _ _ _ _ I Eh)); rewrite (hook_same E _ _ _ _ _ _ (L u c (fun H => H)) Eh); clear Eh end;
    try (intros [= <- <-]; exact (fun T => T)).
  destruct c; try (intros [= <- <-]; exact (fun T => T)).
  destruct (hcandidate E t wh c) as [[w2 x2] [e2|]] eqn:Er; [discriminate|]. intros [= <- <-] T.
  inversion T; subst; try contradiction. constructor; eapply IH; eassumption.
Qed.

Lemma appended_tidied te vs c c' : tidied E (TSeq te) (VSeq (vs ++ [c])) (VSeq (vs ++ [c'])) -> tidied E te c c'.
Proof.
  intros T. inversion T as [| | |? te' xs ys He F| |]; subst; [contradiction|].
  rewrite (elements_fun (TSeq te) te' te He (or_introl eq_refl)) in F. apply Forall2_app_inv_l in F.
  destruct F as (l1 & l2 & F1 & F2 & Heq). inversion F2 as [|? y ? l3 Hy F3]; subst. inversion F3; subst.
  apply app_inj_tail in Heq. now destruct Heq as [_ ->].
Qed.

Lemma tidy_request t w r q segs w' r' a : schema t -> typed t (value r) -> at_rest E t (value r) -> at_path q segs ->
  hperform E t w r q = (w', r', a) ->
  (hsuccess a = false /\ r' = r) \/
  (hsuccess a = true /\ ~ modifying q /\ r' = r) \/
  (hsuccess a = true /\ modifying q /\ typed t (value r') /\ at_rest E t (value r') /\
   exists loc y, lands E t (value r) segs q loc y /\ updated (value r) loc y (value r')).
Proof.
  intros Hsch Ht Hr D H. apply at_rest_resting in Hr.
  destruct (hperform_cases E t w r q segs w' r' a Ht D H) as
    [(w1 & pre & tr & t1 & n1 & v1 & x & back & h & p & whole & s & A & Hc & D' & Hu & Hh & Hs)
    |[[-> (e & h & Hh & _ & ->)]|[-> [_ [-> |(skip & p & -> & ->)]]]]].
  2: { left. split; [now apply handled_fails|reflexivity]. }
  2: { left. auto. }
  2: { destruct (get_status E skip t r p) as [[es ->]|Hg]; [right; left|left]; auto. }
  pose proof (attempt_reaches E _ _ _ _ _ _ _ _ _ _ _ _ A) as R.
  destruct (tidy_fits _ _ _ _ _ _ _ _ _ _ _ _ Hsch Ht A) as (Htx & Ht' & Hg).
  pose proof (reaches_resting _ _ _ _ _ _ _ _ R Hr) as Hr1.
  destruct (hchange_any E _ _ _ _ _ _ _ _ _ _ _ _ _ _ D' Hh Hs Hc) as (v2 & e & Hv & Hcase).
  destruct (validate_focus E L t NRoot (value r) pre tr t1 n1 v1 x R Ht Hr _ _ _ _ _ Hv) as (y & -> & F).
  destruct Hcase as [(-> & -> & Hval & _)|[(e0 & y0 & z & -> & Hgy & Hb & -> & ->)|(e0 & -> & -> & -> & Hbad)]].
  - right; right. split; [now apply done_succeeds|]. split; [destruct A; exact I|].
    destruct (validate_passed E L Se Kt t _ _ _ _ _ Ht' Hv) as (_ & Hr' & Ht2). rewrite Hval.
    split; [exact Ht2|]. split; [now apply at_rest_resting|].
    assert (Py : passed E t1 x y).
    { destruct F as [[_ F]|(n0 & w0 & w0' & e0 & F & He)]; [now elim F|]. rewrite (He eq_refl) in F.
      exact (validate_passed E L Se Kt t1 _ _ _ _ _ Htx F). }
    exists (map snd tr), y. split; [|exact (set_updated _ _ y _ Hg)]. destruct Py as (Ty & _).
    destruct A as [p0 j w tr t1 n1 v1 x _ _ Hd _|p0 j w tr t1 n1 v1 x _ _ Hd _|p0 j w w1 tr te n1 vs c c1 _ _ Hd _ Hv1
      |p0 w pre s0 tr t1 n1 v1 x Es _ _ Hwo|p0 w w1 w2 tr te n1 v1 c _ _ _ _ Hv2].
    + eapply lands_put; eassumption.
    + eapply lands_patch; eassumption.
    + destruct (append_focus te vs c1 y _ Hr1 F) as (c' & ->). eapply lands_post; [eassumption|eassumption|].
      exact (candidate_tidied _ _ _ _ _ _ Hv1 (appended_tidied _ _ _ _ Ty)).
    + rewrite (tidied_resting E t1 x y (without_resting _ _ _ _ _ Hwo Hr1) Ty). eapply lands_child; eassumption.
    + rewrite (reset_none _ _ _ _ _ Hv2) in *. assert (y = VNone) as ->.
      { apply (tidied_resting E (TOpt te) VNone y); [|exact Ty]. apply resting_opt, L. intros []. }
      eapply lands_none; eassumption.
  - left. split; [now apply handled_fails|]. rewrite (get_set _ _ _ _ Hg) in Hgy. injection Hgy as <-.
    assert (z = v1) as ->.
    { destruct Hu as [Hu|(p0 & j & vs & c & -> & -> & -> & ->)]; [rewrite Hu in Hb; congruence|].
      assert (exists te, t1 = TSeq te) as [te ->].
      { inversion A; subst; eauto. }
      destruct (append_focus te vs c y _ Hr1 F) as (c' & ->). rewrite pop_app in Hb. congruence. }
    rewrite set_twice, (set_back _ _ _ Hg). now destruct r.
  - exfalso. rewrite (get_set _ _ _ _ Hg) in Hbad. destruct Hbad as [Hbad|(y0 & [= <-] & Hbad)]; [discriminate|].
    destruct Hu as [Hu|(p0 & j & vs & c & -> & -> & -> & ->)]; [rewrite Hu in Hbad; discriminate|].
    assert (exists te, t1 = TSeq te) as [te ->].
    { inversion A; subst; eauto. }
    destruct (append_focus te vs c y _ Hr1 F) as (c' & ->). rewrite pop_app in Hbad. discriminate.
Qed.

(** The key an element was found by is kept. *)
Lemma tidy_key t w r q segs w' r' a tr t1 k v1 : schema t -> typed t (value r) -> at_rest E t (value r) -> at_path q segs ->
  (exists p j, q = Put p j \/ q = Patch p j) -> reaches t NRoot (value r) segs tr t1 (NElem (Some k)) v1 ->
  hperform E t w r q = (w', r', a) -> hsuccess a = true ->
  exists y key, get_at (value r') (map snd tr) = Some y /\ key_of k y = Some key /\ key_of k v1 = Some key.
Proof.
  intros Hsch Ht Hr D Hq R H Hs.
  assert (Fin : forall x y, typed t1 x -> preserves_identity (NElem (Some k)) v1 x = true -> tidied E t1 x y -> exists key, key_of k y = Some key /\ key_of k v1 = Some key).
  { intros x y Htx Hp Ty. apply at_rest_resting in Hr. pose proof (reaches_resting _ _ _ _ _ _ _ _ R Hr) as Hr1.
    destruct (root_fits _ _ _ _ _ _ _ Hsch R) as (_ & _ & (fs & -> & Hk)). cbn [preserves_identity] in Hp. apply same_key_true in Hp.
    destruct Hp as (key & K1 & K2). exists key. split; [|exact K1].
    destruct v1 as [b|z|b|b|s'| |v|vs|m|vs]; try discriminate K1. destruct x as [b|z|b|b|s'| |v|xs|m|xs]; try discriminate K2.
    cbn [key_of] in K1, K2. inversion Ty as [? w0 ? w0' ? Hsc Hh| | | | |? xs0 ys L1 L2 F]; subst; [contradiction|]. cbn [key_of].
    destruct (nth_error ys k) as [y|] eqn:Ey; [|apply nth_error_None in Ey; lia].
    destruct (nth_error fs k) as [[at_ tk]|] eqn:Ef; [|apply nth_error_None in Ef; lia].
    f_equal. apply (tidied_resting E tk key y); [|exact (F k at_ tk key y Ef K2 Ey)]. exact (resting_field E _ _ _ _ _ _ Hr1 Ef K1). }
  destruct (hperform_cases E t w r q segs w' r' a Ht D H) as
    [(w1 & pre & tr0 & t0 & n0 & v0 & x & back & h & p & whole & s & A & Hc & D' & Hu & Hh & Hsd)
    |[[-> (e & h & Hh & _ & ->)]|[-> [_ [-> |(skip & p & -> & ->)]]]]].
  2: { rewrite (handled_fails _ _ Hh) in Hs. discriminate. }
  2: { discriminate. }
  2: { destruct Hq as (p0 & j & [Hq|Hq]); discriminate. }
  destruct (tidy_fits _ _ _ _ _ _ _ _ _ _ _ _ Hsch Ht A) as (Htx & Ht' & Hg). pose proof Hr as Hr0. apply at_rest_resting in Hr0.
  destruct (hchange_any E _ _ _ _ _ _ _ _ _ _ _ _ _ _ D' Hh Hsd Hc) as (v2 & e & Hv & Hcase).
  destruct (validate_focus E L t NRoot (value r) pre tr0 t0 n0 v0 x (attempt_reaches E _ _ _ _ _ _ _ _ _ _ _ _ A) Ht Hr0 _ _ _ _ _ Hv) as (y & -> & F).
  destruct Hcase as [(-> & -> & Hval & _)|[(e0 & y0 & z & -> & Hgy & Hb & -> & ->)|(e0 & -> & -> & -> & Hbad)]];
    [|rewrite (handled_fails _ _ Hh) in Hs; discriminate|discriminate].
  assert (Py : passed E t0 x y).
  { destruct F as [[_ F]|(m0 & w0 & w0' & e0 & F & He)]; [now elim F|]. rewrite (He eq_refl) in F.
    exact (validate_passed E L Se Kt t0 _ _ _ _ _ Htx F). }
  destruct Py as (Ty & _).
  assert (Same : reaches t NRoot (value r) segs tr0 t0 n0 v0 /\ preserves_identity n0 v0 x = true).
  { destruct Hq as (p0 & j & [-> | ->]); inversion A; subst; auto. }
  destruct Same as [R0 Hp]. destruct (reaches_fun _ _ _ _ _ _ _ _ R Ht _ _ _ _ R0) as (? & ? & ? & ?). subst.
  destruct (Fin x y Htx Hp Ty) as (key & K1 & K2). exists y, key. split; [|auto]. rewrite Hval. exact (get_set _ _ _ _ Hg).
Qed.

Lemma tidy_history t qs : schema t -> Forall well_formed qs -> forall w r w' r' as_, typed t (value r) -> at_rest E t (value r) ->
  hperform_all E t w r qs = (w', r', as_) -> typed t (value r') /\ at_rest E t (value r').
Proof.
  intros Hsch. induction 1 as [|q qs (segs & D) Hq IH]; intros w r w' r' as_ Ht Hr; cbn [hperform_all]; [now intros [= <- <- <-]|].
  destruct (hperform E t w r q) as [[w1 r1] a] eqn:Ep. destruct (hperform_all E t w1 r1 qs) as [[w2 r2] as2] eqn:Ea. intros [= <- <- <-].
  destruct (tidy_request t w r q segs w1 r1 a Hsch Ht Hr D Ep) as [[_ ->]|[(_ & _ & ->)|(_ & _ & Ht1 & Hr1 & _)]];
    (eapply IH; [| |exact Ea]; assumption).
Qed.

End Tidy.

Lemma quiet_frame {W} (E : henv W) t w r q segs w' r' a loc t1 v1 loc' : quiet E ->
  schema t -> typed t (value r) -> at_path q segs -> hperform E t w r q = (w', r', a) ->
  refers t (value r) segs loc t1 v1 -> ~ inside loc' loc -> ~ inside loc loc' ->
  (forall p, q = Delete p -> ~ later_element loc loc') -> get_at (value r') loc' = get_at (value r) loc'.
Proof.
  intros Q Hsch Ht D H R H1 H2 H3. destruct (perform_quiet E t w r q w' r' a Q Ht (ex_intro _ segs D) H) as (E' & _ & _ & H').
  exact (frame E' t r q segs r' _ loc t1 v1 loc' Hsch Ht D H' R H1 H2 H3).
Qed.

Lemma quiet_protected {W} (E : henv W) t w r q segs w' r' a : quiet E -> schema t -> typed t (value r) -> at_path q segs -> modifying q ->
  protected t (value r) segs -> hperform E t w r q = (w', r', a) -> r' = r /\ hsuccess a = false.
Proof.
  intros Q Hsch Ht D Hm Hp H. destruct (perform_quiet E t w r q w' r' a Q Ht (ex_intro _ segs D) H) as (E' & _ & _ & H').
  rewrite (protected_refused E' t r q segs Hsch Ht D Hm Hp) in H'. injection H' as <- Ha. split; [reflexivity|].
  destruct a as [[] [es|m]|e]; try reflexivity; discriminate Ha.
Qed.

Lemma quiet_key {W} (E : henv W) t w r q pre s rest tr tc n vs ck i w' r' a : quiet E ->
  schema t -> typed t (value r) -> at_path q (pre ++ s :: rest) ->
  (rest = [] -> forall p, q <> Delete p) -> reaches t NRoot (value r) pre tr tc n (VSeq vs) ->
  key_name (node_child_keys n) vs s ck i -> hperform E t w r q = (w', r', a) ->
  exists vs' e e', get_at (value r') (map snd tr) = Some (VSeq vs') /\ List.length vs' = List.length vs /\
    (forall j, j <> i -> nth_error vs' j = nth_error vs j) /\
    nth_error vs i = Some e /\ nth_error vs' i = Some e' /\ key_of (ck_member ck) e' = key_of (ck_member ck) e.
Proof.
  intros Q Hsch Ht D Hd R K H. destruct (perform_quiet E t w r q w' r' a Q Ht (ex_intro _ _ D) H) as (E' & _ & _ & H').
  exact (key_immutable E' t r q pre s rest tr tc n vs ck i r' _ Hsch Ht D Hd R K H').
Qed.
