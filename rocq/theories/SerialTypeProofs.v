(** Reading never leaves the type: also after a failure the object has the
    declared type, and the stuck outcomes of the model do not occur. *)
From Coq Require Import List NArith ZArith Arith Bool Lia.
From Verif Require Import Base PathModel EnumModel EnumSpec EnumProofs SerialModel SerialSpec SerialLeafProofs SerialBaseProofs.
Import ListNotations.
Local Open Scope outcome_scope.

Local Notation str := (list N) (only parsing).

Lemma all1_app {A} (P : A -> Prop) a b : all1 P (a ++ b) <-> all1 P a /\ all1 P b.
Proof. rewrite !all1_Forall. apply Forall_app. Qed.

Lemma all1_in {A} (P : A -> Prop) l : all1 P l <-> forall x, In x l -> P x.
Proof. rewrite all1_Forall. apply Forall_forall. Qed.

Lemma default_typed t : wf t -> typed t (default_of t).
Proof.
  induction t as [ |it| | | |t IH|t IH|n t IH|t IH|ts IH|e|e|fs IH] using ty_ind0; cbn; intros H; auto.
  - apply zero_of_type, bits_pos, H.
  - split; [apply repeat_length|]. apply all1_in. intros x Hx. apply repeat_spec in Hx. subst. auto.
  - induction ts as [|t ts IHts]; cbn; [exact I|]. inversion IH; subst. cbn in H. split; [apply H2, H|].
    apply IHts; [assumption|apply H].
  - apply zero_of_type, bits_pos, H.
  - apply zero_of_type, bits_pos, H.
  - destruct H as (_ & H & _). clear IH. induction fs as [|f fs IHfs]; cbn; [exact I|]. destruct H as [H H0].
    split; [exact (proj1 H)|exact (IHfs H0)].
Qed.

Definition good (f : json -> val -> dres) (t : ty) : Prop :=
  forall j v, typed t v -> typed t (fst (f j v)) /\ snd (f j v) <> Some EStuck.

Lemma seq_loop_typed f t d js : good f t -> typed t d -> forall out, all1 (typed t) out ->
  all1 (typed t) (fst (seq_loop f d js out)) /\ snd (seq_loop f d js out) <> Some EStuck.
Proof.
  intros Hf Hd. induction js as [|j js IH]; intros out Ho; cbn [seq_loop].
  - split; [exact Ho|discriminate].
  - destruct (Hf j d Hd) as [H1 H2]. destruct (f j d) as [v [e|]]; cbn [fst snd] in *.
    + split; [exact Ho|congruence].
    + apply IH. rewrite all1_app. split; [exact Ho|]. cbn. auto.
Qed.

Lemma arr_loop_typed f t js : good f t -> forall vs i, all1 (typed t) vs ->
  length (fst (arr_loop f js i vs)) = length vs /\
  all1 (typed t) (fst (arr_loop f js i vs)) /\ snd (arr_loop f js i vs) <> Some EStuck.
Proof.
  intros Hf. induction vs as [|v vs IH]; intros i Hv; cbn [arr_loop].
  - repeat split. discriminate.
  - destruct Hv as [Hv Hvs]. destruct (Hf (at_index js i) v Hv) as [H1 H2].
    destruct (f (at_index js i) v) as [v' [e|]]; cbn [fst snd] in *.
    + repeat split; auto; congruence.
    + specialize (IH (S i) Hvs). destruct (arr_loop f js (S i) vs) as [r e]. cbn [fst snd] in *.
      destruct IH as (I1 & I2 & I3). repeat split; auto. cbn. congruence.
Qed.

Definition map_typed (t : ty) (m : list (str * val)) : Prop :=
  sorted_keys m /\ all1 (fun kv => typed t (snd kv)) m.

Lemma emplace_typed t k v m : typed t v -> map_typed t m -> map_typed t (map_emplace k v m).
Proof.
  intros Hv [Hs Ht]. split; [now apply map_emplace_sorted|]. apply all1_in. intros x Hx.
  apply map_emplace_in in Hx. destruct Hx as [->|Hx]; [exact Hv|]. now apply (proj1 (all1_in _ _) Ht).
Qed.

Lemma assign_typed t k v m : typed t v -> map_typed t m -> map_typed t (map_assign k v m).
Proof.
  intros Hv [Hs Ht]. split.
  - eapply sorted_keys_ext; [|exact Hs]. now rewrite map_assign_keys.
  - apply all1_in. intros x Hx. apply map_assign_in in Hx. destruct Hx as [->|Hx]; [exact Hv|].
    now apply (proj1 (all1_in _ _) Ht).
Qed.

Lemma map_loop_typed f t d ms : good f t -> typed t d -> forall out, map_typed t out ->
  map_typed t (fst (map_loop f d ms out)) /\ snd (map_loop f d ms out) <> Some EStuck.
Proof.
  intros Hf Hd. induction ms as [|[k j] ms IH]; intros out Ho; cbn [map_loop].
  - split; [exact Ho|discriminate].
  - destruct (Hf j d Hd) as [H1 H2]. destruct (f j d) as [v [e|]]; cbn [fst snd] in *.
    + split; [exact Ho|congruence].
    + apply IH. now apply emplace_typed.
Qed.

Lemma extra_loop_typed f t d names ms : good f t -> typed t d -> forall out, map_typed t out ->
  map_typed t (fst (extra_loop f d names ms out)) /\ snd (extra_loop f d names ms out) <> Some EStuck.
Proof.
  intros Hf Hd. induction ms as [|[k j] ms IH]; intros out Ho; cbn [extra_loop].
  - split; [exact Ho|discriminate].
  - destruct (in_set k names); [now apply IH|].
    destruct (Hf j d Hd) as [H1 H2]. destruct (f j d) as [v [e|]]; cbn [fst snd] in *.
    + split; [exact Ho|congruence].
    + apply IH. now apply emplace_typed.
Qed.

Lemma patch_extra_loop_typed f t d names ms : good f t -> typed t d -> forall out, map_typed t out ->
  map_typed t (fst (patch_extra_loop f d names ms out)) /\ snd (patch_extra_loop f d names ms out) <> Some EStuck.
Proof.
  intros Hf Hd. induction ms as [|[k j] ms IH]; intros out Ho; cbn [patch_extra_loop].
  - split; [exact Ho|discriminate].
  - destruct (in_set k names); [now apply IH|]. destruct (map_find k out) as [w|] eqn:E.
    + assert (Hw : typed t w). { apply map_find_in in E. exact (proj1 (all1_in _ _) (proj2 Ho) _ E). }
      destruct (Hf j w Hw) as [H1 H2]. destruct (f j w) as [v [e|]]; cbn [fst snd] in *.
      * split; [now apply assign_typed|congruence].
      * apply IH. now apply assign_typed.
    + destruct (Hf j d Hd) as [H1 H2]. destruct (f j d) as [v [e|]]; cbn [fst snd] in *.
      * split; [exact Ho|congruence].
      * apply IH. now apply emplace_typed.
Qed.

Lemma validate_not_stuck vals v : validate vals v <> Some EStuck.
Proof. induction vals as [|f vals IH]; cbn; [discriminate|]. destruct (f v); congruence. Qed.

Lemma then_validate_typed a t r : typed t (fst r) /\ snd r <> Some EStuck ->
  typed t (fst (then_validate a r)) /\ snd (then_validate a r) <> Some EStuck.
Proof. destruct r as [v [e|]]; cbn; intros [H1 H2]; split; auto. apply validate_not_stuck. Qed.

Lemma read_field_typed a f t ms v : good f t -> (forall d, a_default a = Some d -> typed t d) -> typed t v ->
  typed t (fst (read_field a f ms v)) /\ snd (read_field a f ms v) <> Some EStuck.
Proof.
  intros Hf Hd Hv. unfold read_field. destruct (resolve_field_name ms a) as [n|].
  - destruct (is_null (at_field ms n)), (a_default a) as [d|] eqn:E; cbn [fst snd];
      try (apply then_validate_typed; now apply Hf). split; [now apply Hd|discriminate].
  - destruct (a_default a) as [d|]; [split; [now apply Hd|discriminate]|].
    destruct (a_allow_missing a); [split; [exact Hv|discriminate]|]. apply then_validate_typed. now apply Hf.
Qed.

Lemma patch_field_typed a f t ms v : good f t -> (forall d, a_default a = Some d -> typed t d) -> typed t v ->
  typed t (fst (patch_field a f ms v)) /\ snd (patch_field a f ms v) <> Some EStuck.
Proof.
  intros Hf Hd Hv. unfold patch_field. destruct (resolve_field_name ms a) as [n|].
  - destruct (is_null (at_field ms n)), (a_default a) as [d|] eqn:E; cbn [fst snd];
      try (apply then_validate_typed; now apply Hf). split; [now apply Hd|discriminate].
  - split; [exact Hv|discriminate].
Qed.

Section WithBackend.
Context (be : backend).

Lemma take_typed {A} (mk : A -> val) (r : option A) t v : typed t v -> (forall x, r = Some x -> typed t (mk x)) ->
  typed t (fst (take mk r v)) /\ snd (take mk r v) <> Some EStuck.
Proof. intros Hv Hr. destruct r as [x|]; cbn; split; auto; discriminate. Qed.

Lemma from_string_typed e s z : enum_ok e -> from_string (e_tab e) s = Some z -> of_type (e_ity e) z.
Proof.
  intros (_ & H & _) E. apply from_string_some_in in E. rewrite Forall_forall in H. apply H.
  now apply (in_map fst) in E.
Qed.

Lemma set_loop_typed e js : enum_ok e -> forall acc, of_type (e_ity e) acc ->
  of_type (e_ity e) (fst (set_loop e js acc)) /\ snd (set_loop e js acc) <> Some EStuck.
Proof.
  intros He. induction js as [|j js IH]; intros acc Ha; cbn [set_loop]; [split; [exact Ha|discriminate]|].
  destruct j; try (split; [exact Ha|discriminate]).
  destruct (from_string (e_tab e) s); [|split; [exact Ha|discriminate]].
  apply IH. unfold es_or. apply wrap_range, bits_pos, He.
Qed.

Lemma deser_tuple_typed (f : ty -> json -> val -> dres) js ts :
  Forall (fun t => wf t -> good (f t) t) ts -> all1 wf ts -> forall i vs, all2 typed ts vs ->
  all2 typed ts (fst (deser_tuple f js ts i vs)) /\ snd (deser_tuple f js ts i vs) <> Some EStuck.
Proof.
  induction ts as [|t ts IH]; intros Hg Hw i [|v vs] Hv; cbn in Hv; try tauto.
  - split; [exact I|discriminate].
  - inversion Hg as [|? ? Hg1 Hg2]; subst. destruct Hw as [Hw1 Hw2]. destruct Hv as [Hv1 Hv2].
    cbn [deser_tuple]. destruct (Hg1 Hw1 (at_index js i) v Hv1) as [H1 H2].
    destruct (f t (at_index js i) v) as [v' [e|]]; cbn [fst snd] in *.
    + split; [cbn; auto|congruence].
    + specialize (IH Hg2 Hw2 (S i) vs Hv2). destruct (deser_tuple f js ts (S i) vs) as [r e]. cbn [fst snd] in *.
      split; [cbn; tauto|tauto].
Qed.

Lemma deser_members_typed (f : ty -> json -> val -> dres) names ms fs :
  Forall (fun g : attrs * ty => (wf (snd g) -> good (f (snd g)) (snd g)) /\
            forall te, snd g = TMap te -> wf te -> good (f te) te) fs ->
  all1 (fun g => wf (snd g)) fs -> all1 field_ok fs -> forall vs, all2 (fun g => typed (snd g)) fs vs ->
  all2 (fun g => typed (snd g)) fs (fst (deser_members f names ms fs vs)) /\
  snd (deser_members f names ms fs vs) <> Some EStuck.
Proof.
  induction fs as [|[a t] fs IH]; intros Hg Hw Ho [|v vs] Hv; cbn in Hv; try tauto.
  - split; [exact I|discriminate].
  - inversion Hg as [|? ? Hg1 Hg2]; subst. destruct Hw as [Hw1 Hw2]. destruct Hv as [Hv1 Hv2].
    destruct Ho as [Ho1 Ho2]. cbn [snd fst] in *. specialize (IH Hg2 Hw2 Ho2 vs Hv2).
    cbn [deser_members].
    set (one := if a_skip_deser a then _ else _).
    assert (H1 : typed t (fst one) /\ snd one <> Some EStuck).
    { subst one. destruct (a_skip_deser a); [split; [exact Hv1|discriminate]|].
      destruct (a_extra a) eqn:Ee.
      - destruct Ho1 as (_ & _ & _ & Hm). cbn in Hm. specialize (Hm Ee). destruct t as [ |it| | | |t|t|n t|te|ts|e|e|gs]; try contradiction.
        cbn in Hw1. destruct Hg1 as [_ Hg1]. specialize (Hg1 te eq_refl Hw1).
        pose proof (extra_loop_typed (f te) te (default_of te) names ms Hg1 (default_typed te Hw1) []) as Hx.
        destruct (extra_loop (f te) (default_of te) names ms []) as [m e]. cbn [fst snd] in *.
        apply Hx. split; exact I.
      - destruct (a_flatten a); [exact (proj1 Hg1 Hw1 _ _ Hv1)|].
        apply read_field_typed; [exact (proj1 Hg1 Hw1)|apply Ho1|exact Hv1]. }
    destruct one as [v' [e|]]; cbn [fst snd] in *.
    + split; [cbn; tauto|tauto].
    + destruct (deser_members f names ms fs vs) as [r e]. cbn [fst snd] in *. split; [cbn; tauto|tauto].
Qed.

Lemma deser_elements_typed (f : ty -> json -> val -> dres) js fs :
  Forall (fun g : attrs * ty => wf (snd g) -> good (f (snd g)) (snd g)) fs ->
  all1 (fun g => wf (snd g)) fs -> forall i vs, all2 (fun g => typed (snd g)) fs vs ->
  all2 (fun g => typed (snd g)) fs (fst (deser_elements f js fs i vs)) /\
  snd (deser_elements f js fs i vs) <> Some EStuck.
Proof.
  induction fs as [|[a t] fs IH]; intros Hg Hw i [|v vs] Hv; cbn in Hv; try tauto.
  - split; [exact I|discriminate].
  - inversion Hg as [|? ? Hg1 Hg2]; subst. destruct Hw as [Hw1 Hw2]. destruct Hv as [Hv1 Hv2].
    cbn [snd fst] in *. cbn [deser_elements]. destruct (a_skip_deser a).
    { specialize (IH Hg2 Hw2 i vs Hv2). destruct (deser_elements f js fs i vs). cbn [fst snd] in *.
      split; [cbn; tauto|tauto]. }
    destruct (a_extra a || a_flatten a); [split; [cbn; tauto|discriminate]|].
    pose proof (then_validate_typed a t _ (Hg1 Hw1 (at_index js i) v Hv1)) as H1.
    destruct (then_validate a (f t (at_index js i) v)) as [v' [e|]]; cbn [fst snd] in *.
    + split; [cbn; tauto|tauto].
    + specialize (IH Hg2 Hw2 (S i) vs Hv2). destruct (deser_elements f js fs (S i) vs). cbn [fst snd] in *.
      split; [cbn; tauto|tauto].
Qed.

Lemma patch_members_typed (f : ty -> json -> val -> dres) names ms fs :
  Forall (fun g : attrs * ty => (wf (snd g) -> good (f (snd g)) (snd g)) /\
            forall te, snd g = TMap te -> wf te -> good (f te) te) fs ->
  all1 (fun g => wf (snd g)) fs -> all1 field_ok fs -> forall vs, all2 (fun g => typed (snd g)) fs vs ->
  all2 (fun g => typed (snd g)) fs (fst (patch_members f names ms fs vs)) /\
  snd (patch_members f names ms fs vs) <> Some EStuck.
Proof.
  induction fs as [|[a t] fs IH]; intros Hg Hw Ho [|v vs] Hv; cbn in Hv; try tauto.
  - split; [exact I|discriminate].
  - inversion Hg as [|? ? Hg1 Hg2]; subst. destruct Hw as [Hw1 Hw2]. destruct Hv as [Hv1 Hv2].
    destruct Ho as [Ho1 Ho2]. cbn [snd fst] in *. specialize (IH Hg2 Hw2 Ho2 vs Hv2).
    cbn [patch_members].
    set (one := if a_skip_deser a then _ else _).
    assert (H1 : typed t (fst one) /\ snd one <> Some EStuck).
    { subst one. destruct (a_skip_deser a); [split; [exact Hv1|discriminate]|].
      destruct (a_extra a) eqn:Ee.
      - destruct Ho1 as (_ & _ & _ & Hm). cbn in Hm. specialize (Hm Ee). destruct t as [ |it| | | |t|t|n t|te|ts|e|e|gs]; try contradiction.
        cbn in Hw1. destruct Hg1 as [_ Hg1]. specialize (Hg1 te eq_refl Hw1).
        destruct v as [b|z|b|b|s| |v|us|m|us]; cbn in Hv1; try contradiction.
        pose proof (patch_extra_loop_typed (f te) te (default_of te) names ms Hg1 (default_typed te Hw1) m Hv1) as Hx.
        destruct (patch_extra_loop (f te) (default_of te) names ms m) as [m' e]. cbn [fst snd] in *.
        exact Hx.
      - destruct (a_flatten a); [exact (proj1 Hg1 Hw1 _ _ Hv1)|].
        apply patch_field_typed; [exact (proj1 Hg1 Hw1)|apply Ho1|exact Hv1]. }
    destruct one as [v' [e|]]; cbn [fst snd] in *.
    + split; [cbn; tauto|tauto].
    + destruct (patch_members f names ms fs vs) as [r e]. cbn [fst snd] in *. split; [cbn; tauto|tauto].
Qed.

Lemma deser_typed t : wf t -> good (deser be t) t.
Proof.
  induction t as [ |it| | | |t IH|t IH|n t IH|t IH|ts IH|e|e|fs IH] using ty_ind1; intros Hw j v Hv; cbn [deser].
  - now apply take_typed.
  - apply take_typed; [exact Hv|]. intros z Hz. exact (dec_int_typed be it j z Hw Hz).
  - now apply take_typed.
  - now apply take_typed.
  - destruct j; split; cbn; auto; discriminate.
  - destruct (is_null j); [split; [exact I|discriminate]|].
    destruct (IH Hw j (default_of t) (default_typed t Hw)) as [H1 H2].
    destruct (deser be t j (default_of t)) as [x [e|]]; cbn [fst snd] in *; split; auto; congruence.
  - destruct j; try (split; [exact Hv|discriminate]).
    destruct (seq_loop_typed _ t (default_of t) js (IH Hw) (default_typed t Hw) [] I) as [H1 H2].
    destruct (seq_loop (deser be t) (default_of t) js []). now split.
  - destruct v as [b|z|b|b|s| |v|vs|m|vs]; cbn in Hv; try contradiction.
    destruct Hv as [Hl Hv]. destruct j; try (split; [now split|discriminate]).
    destruct (length vs <? length js); [split; [now split|discriminate]|].
    destruct (arr_loop_typed _ t js (IH Hw) vs 0 Hv) as (H1 & H2 & H3).
    destruct (arr_loop (deser be t) js 0 vs). cbn [fst snd] in *. split; [|exact H3]. split; [congruence|exact H2].
  - destruct j; try (split; [exact Hv|discriminate]).
    destruct (map_loop_typed _ t (default_of t) ms (IH Hw) (default_typed t Hw) []) as [H1 H2]; [now split|].
    destruct (map_loop (deser be t) (default_of t) ms []). now split.
  - destruct v as [b|z|b|b|s| |v|vs|m|vs]; cbn in Hv; try contradiction.
    destruct j; try (split; [exact Hv|discriminate]).
    destruct (length ts <? length js); [split; [exact Hv|discriminate]|].
    destruct (deser_tuple_typed (deser be) js ts IH Hw 0 vs Hv) as [H1 H2].
    destruct (deser_tuple (deser be) js ts 0 vs). now split.
  - destruct j; try (split; [exact Hv|discriminate]).
    destruct (from_string (e_tab e) s) eqn:E; [|split; [exact Hv|discriminate]].
    split; [eapply from_string_typed; eassumption|discriminate].
  - destruct j; try (split; [exact Hv|discriminate]).
    destruct (set_loop_typed e js Hw es_empty) as [H1 H2]; [apply zero_of_type, bits_pos, Hw|].
    destruct (set_loop e js es_empty). now split.
  - destruct Hw as (Hw & Ho & _). destruct v as [b|z|b|b|s| |v|vs|m|vs]; cbn in Hv; try contradiction.
    assert (Hg : Forall (fun g : attrs * ty => (wf (snd g) -> good (deser be (snd g)) (snd g)) /\
              forall te, snd g = TMap te -> wf te -> good (deser be te) te) fs) by exact IH.
    destruct j; try (split; [exact Hv|discriminate]).
    + destruct (sequence_field_count fs <? length js); [split; [exact Hv|discriminate]|].
      assert (Hg' : Forall (fun g : attrs * ty => wf (snd g) -> good (deser be (snd g)) (snd g)) fs)
        by (eapply Forall_impl; [|exact Hg]; cbn; tauto).
      destruct (deser_elements_typed (deser be) js fs Hg' Hw 0 vs Hv) as [H1 H2].
      destruct (deser_elements (deser be) js fs 0 vs). now split.
    + pose proof (reserved_defined fs) as Hr.
      destruct (reserved_field_names fs) as [names| |]; [|split; [exact Hv|discriminate]|congruence].
      destruct (deser_members_typed (deser be) names ms fs Hg Hw Ho vs Hv) as [H1 H2].
      destruct (deser_members (deser be) names ms fs vs). now split.
Qed.

Lemma patch_typed t : wf t -> good (patch be t) t.
Proof.
  induction t as [ |it| | | |t IH|t IH|n t IH|t IH|ts IH|e|e|fs IH] using ty_ind1; intros Hw j v Hv;
    try (now apply deser_typed).
  - cbn [patch]. destruct (is_null j); [split; [exact I|discriminate]|].
    destruct v as [b|z|b|b|s| |v|vs|m|vs]; cbn in Hv; try contradiction.
    + destruct (IH Hw j (default_of t) (default_typed t Hw)) as [H1 H2].
      destruct (patch be t j (default_of t)) as [x [e|]]; cbn [fst snd] in *; split; auto; congruence.
    + destruct (IH Hw j v Hv) as [H1 H2]. destruct (patch be t j v). now split.
  - destruct j; try (now apply deser_typed). cbn [patch].
    destruct v as [b|z|b|b|s| |v|vs|m|vs]; cbn in Hv; try contradiction.
    destruct Hw as (Hw & Ho & _).
    pose proof (reserved_defined fs) as Hr.
    destruct (reserved_field_names fs) as [names| |]; [|split; [exact Hv|discriminate]|congruence].
    destruct (patch_members_typed (patch be) names ms fs IH Hw Ho vs Hv) as [H1 H2].
    destruct (patch_members (patch be) names ms fs vs). now split.
Qed.

(* ------------------------------------------------------------------ *)
(** ** serialize is defined on every value of the type *)

Lemma mapm_defined {A B} (f : A -> outcome B) l : (forall x, In x l -> f x <> UB) -> mapm f l <> UB.
Proof.
  induction l as [|x l IH]; cbn; intros H; [discriminate|].
  pose proof (H x (or_introl eq_refl)) as Hx. destruct (f x); cbn [obind]; try congruence.
  assert (Hl : mapm f l <> UB) by auto. destruct (mapm f l); cbn [obind]; congruence.
Qed.

Lemma omap_defined {A B} (f : A -> B) m : m <> UB -> omap f m <> UB.
Proof. destruct m; cbn; congruence. Qed.

Lemma to_string_defined e z : enum_ok e -> of_type (e_ity e) z -> exists s,
  to_string (e_ity e) (e_tab e) z (e_unknown e) = Ok s.
Proof.
  intros (H1 & H2 & H3) Hz. rewrite (to_string_search (e_ity e) (e_tab e) z (e_unknown e) H1 H2 H3 Hz). eauto.
Qed.

Lemma map_members_defined skip f kvs : (forall kv, In kv kvs -> f (snd kv) <> UB) -> map_members skip f kvs <> UB.
Proof.
  induction kvs as [|[k v] kvs IH]; cbn [map_members]; intros H; [discriminate|].
  pose proof (H _ (or_introl eq_refl)) as Hx. cbn [snd] in Hx.
  assert (Hl : map_members skip f kvs <> UB) by (apply IH; intros; apply H; now right).
  destruct (skip_null_value skip v); [exact Hl|].
  destruct (f v); cbn [obind]; try congruence. destruct (map_members skip f kvs); cbn [obind]; congruence.
Qed.

Lemma extra_members_defined skip names f kvs : (forall kv, In kv kvs -> f (snd kv) <> UB) ->
  extra_members skip names f kvs <> UB.
Proof.
  induction kvs as [|[k v] kvs IH]; cbn [extra_members]; intros H; [discriminate|].
  pose proof (H _ (or_introl eq_refl)) as Hx. cbn [snd] in Hx.
  assert (Hl : extra_members skip names f kvs <> UB) by (apply IH; intros; apply H; now right).
  destruct (in_set k names); [discriminate|].
  destruct (skip_null_value skip v); [exact Hl|].
  destruct (f v); cbn [obind]; try congruence. destruct (extra_members skip names f kvs); cbn [obind]; congruence.
Qed.

Lemma ser_defined skip t : wf t -> forall flat v, typed t v -> ser be skip t flat v <> UB /\
  (is_rec t -> forall j, ser be skip t flat v = Ok j -> exists ms, j = JObj ms).
Proof.
  induction t as [ |it| | | |t IH|t IH|n t IH|t IH|ts IH|e|e|fs IH] using ty_ind1; intros Hw flat v Hv;
    destruct v as [b|z|b|b|s| |v|vs|m|vs]; cbn [typed] in Hv; try contradiction;
    (split; [|cbn [is_rec]; try tauto]); cbn [ser]; try discriminate.
  - apply IH; assumption.
  - apply omap_defined, mapm_defined. intros x Hx. apply IH; [assumption|].
    exact (proj1 (all1_in _ _) Hv x Hx).
  - apply omap_defined, mapm_defined. intros x Hx. apply IH; [assumption|].
    exact (proj1 (all1_in _ _) (proj2 Hv) x Hx).
  - apply omap_defined, map_members_defined. intros x Hx. apply IH; [assumption|].
    exact (proj1 (all1_in _ _) (proj2 Hv) x Hx).
  - apply omap_defined. cbn [wf] in Hw. revert vs Hv. induction ts as [|t ts IHts]; intros [|v vs] Hv; cbn in Hv; try tauto; [discriminate|].
    inversion IH as [|? ? IH1 IH2]; subst. destruct Hw as [Hw1 Hw2]. destruct Hv as [Hv1 Hv2].
    cbn [ser_tuple]. destruct (IH1 Hw1 None v Hv1) as [H1 _]. destruct (ser be skip t None v); cbn [obind]; try congruence.
    specialize (IHts IH2 Hw2 vs Hv2). destruct (ser_tuple _ ts vs); cbn [obind]; congruence.
  - destruct (to_string_defined e z Hw Hv) as [s ->]. discriminate.
  - apply omap_defined, mapm_defined. intros x Hx. apply filter_In in Hx. destruct Hx as [Hx _].
    destruct (to_string_defined e x Hw) as [s ->]; [|discriminate].
    destruct Hw as (_ & Hw & _). rewrite Forall_forall in Hw. now apply Hw.
  - destruct Hw as (Hw & Ho & _).
    assert (Hn : (match flat with Some names => Ok names | None => reserved_field_names fs end) <> UB)
      by (destruct flat; [discriminate|apply reserved_defined]).
    destruct (match flat with Some names => Ok names | None => reserved_field_names fs end) as [names| |];
      cbn [obind]; try congruence.
    apply omap_defined. clear Hn. revert vs Hv. induction fs as [|[a t] fs IHfs]; intros [|v vs] Hv; cbn in Hv; try tauto; [discriminate|].
    inversion IH as [|? ? IH1 IH2]; subst. destruct Hw as [Hw1 Hw2]. destruct Hv as [Hv1 Hv2]. destruct Ho as [Ho1 Ho2].
    cbn [snd] in *. specialize (IHfs IH2 Hw2 Ho2 vs Hv2). cbn [ser_fields].
    destruct (a_skip_ser a || skip_serialized_field skip a v); [exact IHfs|].
    set (one := if a_extra a then _ else _).
    assert (H1 : one <> UB).
    { subst one. destruct (a_extra a) eqn:Ee.
      - destruct Ho1 as (_ & _ & _ & Hm). cbn in Hm. specialize (Hm Ee). destruct t as [ |it| | | |t|t|n t|te|ts|e|e|gs]; try contradiction.
        destruct v as [b|z|b|b|s| |v|us|m|us]; cbn in Hv1; try contradiction.
        apply extra_members_defined. intros kv Hkv. apply (proj2 IH1); [reflexivity|exact Hw1|].
        exact (proj1 (all1_in _ _) (proj2 Hv1) _ Hkv).
      - destruct (a_flatten a) eqn:Ef.
        + destruct Ho1 as (_ & _ & Hm & _). cbn in Hm. specialize (Hm Ef). destruct t as [ |it| | | |t|t|n t|te|ts|e|e|gs]; try contradiction.
          destruct (proj1 IH1 Hw1 (Some names) v Hv1) as [H1 H2].
          destruct (ser be skip (TRec gs) (Some names) v) as [j| |]; cbn [obind]; try congruence.
          destruct (H2 I j eq_refl) as [ms ->]. discriminate.
        + destruct (proj1 IH1 Hw1 None v Hv1) as [H1 _]. destruct (ser be skip t None v); cbn [obind]; congruence. }
    destruct one; cbn [obind]; try congruence. destruct (ser_fields skip (ser be skip) names fs vs); cbn [obind]; congruence.
  - intros _ j. destruct (match flat with Some names => Ok names | None => reserved_field_names fs end); cbn [obind]; try discriminate.
    destruct (ser_fields skip (ser be skip) a fs vs); cbn; try discriminate. intros [= <-]. eauto.
Qed.

End WithBackend.
