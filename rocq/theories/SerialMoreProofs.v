(** Lookup order, and reading that does not depend on the object read into. *)
From Coq Require Import List NArith ZArith Arith Bool Lia.
From Verif Require Import Base PathModel EnumModel EnumSpec EnumProofs SerialModel SerialSpec SerialBaseProofs
  SerialTypeProofs SerialKeyProofs SerialRoundProofs SerialFieldProofs.
Import ListNotations.

Section WithBackend.
Context (be : backend).

(** The first name present decides, whatever else the document contains. *)
Lemma lookup_lemma fs ms vs vs' : wf (TRec fs) -> typed (TRec fs) (VRec vs) ->
  forall i a t v v', nth_error fs i = Some (a, t) -> nth_error vs i = Some v -> nth_error vs' i = Some v' -> ordinary a ->
  (deser be (TRec fs) (JObj ms) (VRec vs) = (VRec vs', None) ->
   forall j, first_named ms (lookup_names a) j -> present_policy a (deser be t) j v (v', None)) /\
  (patch be (TRec fs) (JObj ms) (VRec vs) = (VRec vs', None) ->
   forall j, first_named ms (lookup_names a) j -> present_policy a (patch be t) j v (v', None)).
Proof.
  intros Hw Hv i a t v v' Ha Hvi Hvi' (O1 & O2 & O3).
  assert (Hd : forall f, f (JObj ms) (VRec vs) = (VRec vs', @None exn) ->
    f (JObj ms) (VRec vs) = match reserved_field_names fs with Ok _ => f (JObj ms) (VRec vs) | _ => (VRec vs, Some ELogic) end ->
    any_extra_or_flatten fs = true -> distinct_names (TRec fs)).
  { intros f H1 H2 E. rewrite H1 in H2. destruct (reserved_field_names fs) as [ns| |] eqn:En; try discriminate.
    apply reserved_ok in En; [|exact E]. apply En. }
  split; intros H j Hj.
  - destruct (deser_object_lemma be fs ms vs Hw Hv) as (vs2 & e & E & Hord).
    { apply (Hd (deser be (TRec fs)) H). cbn [deser]. now destruct (reserved_field_names fs). }
    rewrite H in E. injection E as <- <-. pose proof (in_order_nth _ _ _ _ Hord i _ _ _ Ha Hvi Hvi') as P. cbn [field_reads] in P.
    rewrite O1, O2, O3 in P. now apply P.
  - destruct (patch_object_lemma be fs ms vs Hw Hv) as (vs2 & e & E & Hord).
    { apply (Hd (patch be (TRec fs)) H). cbn [patch]. now destruct (reserved_field_names fs). }
    rewrite H in E. injection E as <- <-. pose proof (in_order_nth _ _ _ _ Hord i _ _ _ Ha Hvi Hvi') as P. cbn [field_patches] in P.
    rewrite O1, O2, O3 in P. now apply P.
Qed.

(* ------------------------------------------------------------------ *)

Definition indep (f : json -> val -> dres) (t : ty) : Prop := forall j w w' v,
  typed t w -> typed t w' -> f j w = (v, None) -> f j w' = (v, None).

Lemma then_validate_indep a f t j w w' v : indep f t -> typed t w -> typed t w' ->
  then_validate a (f j w) = (v, None) -> then_validate a (f j w') = (v, None).
Proof.
  intros Hf Hw Hw' H. destruct (f j w) as [x [e|]] eqn:E; cbn in H; [discriminate|]. injection H as -> Hv.
  rewrite (Hf _ _ _ _ Hw Hw' E). cbn. now rewrite Hv.
Qed.

Lemma deser_indep t : wf t -> overwrites t -> indep (deser be t) t.
Proof.
  induction t as [ |it| | | |t IH|t IH|n t IH|t IH|ts IH|e|e|fs IH] using ty_ind1; intros Hwf Ho j w w' v Hw Hw' H; cbn [deser] in *.
  - destruct (dec_bool be j); [exact H|discriminate].
  - destruct (dec_int be it j); [exact H|discriminate].
  - destruct (dec_dbl be j); [exact H|discriminate].
  - destruct (dec_flt be j); [exact H|discriminate].
  - destruct j; try discriminate. exact H.
  - destruct (is_null j); [exact H|]. destruct (deser be t j (default_of t)) as [x [e|]]; [discriminate|exact H].
  - destruct j; try discriminate. exact H.
  - destruct j; try (destruct w; discriminate). destruct w as [b|z|b|b|s| |w|ws|m|ws]; try discriminate.
    destruct w' as [b|z|b|b|s| |w'|ws'|m|ws']; cbn [typed] in Hw'; try contradiction. cbn [typed] in Hw.
    destruct Hw as [Hl Hw]. destruct Hw' as [Hl' Hw']. rewrite Hl in H. rewrite Hl'.
    destruct (n <? length js); [discriminate|].
    destruct (arr_loop (deser be t) js 0 ws) as [r e] eqn:E. injection H as <- ->.
    assert (G : arr_loop (deser be t) js 0 ws' = (r, None)); [|now rewrite G].
    assert (L : length ws' = length ws) by congruence. clear Hl Hl'.
    revert ws' r E Hw Hw' L. generalize 0. induction ws as [|w ws IHws]; intros k [|w' ws'] r E Hw Hw' L; try discriminate; [exact E|].
    cbn [arr_loop] in E. destruct (deser be t (at_index js k) w) as [v' [e|]] eqn:Ev; [discriminate|].
    destruct (arr_loop (deser be t) js (S k) ws) as [r' e] eqn:Er. injection E as <- ->. cbn [arr_loop].
    rewrite (IH Hwf Ho _ w w' _ (proj1 Hw) (proj1 Hw') Ev), (IHws _ ws' _ Er (proj2 Hw) (proj2 Hw') (eq_add_S _ _ L)). reflexivity.
  - destruct j; try discriminate. exact H.
  - destruct j; try (destruct w; discriminate). destruct w as [b|z|b|b|s| |w|ws|m|ws]; try discriminate.
    destruct w' as [b|z|b|b|s| |w'|ws'|m|ws']; cbn [typed] in Hw'; try contradiction. cbn [typed] in Hw.
    destruct (length ts <? length js) eqn:El; [discriminate|].
    destruct (deser_tuple (deser be) js ts 0 ws) as [r e] eqn:E. injection H as <- ->.
    assert (G : deser_tuple (deser be) js ts 0 ws' = (r, None)); [|now rewrite G].
    clear El. revert ws ws' r E Hw Hw'. generalize 0.
    induction ts as [|t ts IHts]; intros k [|w ws] [|w' ws'] r E Hw Hw'; cbn [all2] in Hw, Hw'; try contradiction; [exact E|].
    inversion IH as [|? ? IH1 IH2]; subst. cbn [deser_tuple] in E.
    destruct (deser be t (at_index js k) w) as [v' [e|]] eqn:Ev; [discriminate|].
    destruct (deser_tuple (deser be) js ts (S k) ws) as [r' e] eqn:Er. injection E as <- ->. cbn [deser_tuple].
    rewrite (IH1 (proj1 Hwf) (proj1 Ho) _ _ _ _ (proj1 Hw) (proj1 Hw') Ev).
    rewrite (IHts IH2 (proj2 Hwf) (proj2 Ho) _ _ _ _ Er (proj2 Hw) (proj2 Hw')). reflexivity.
  - destruct j; try discriminate. destruct (from_string _ s); [exact H|discriminate].
  - destruct j; try discriminate. exact H.
  - destruct Hwf as (Hwf & Hok & _). cbn [overwrites] in Ho.
    destruct w as [b|z|b|b|s| |w|ws|m|ws]; cbn [typed] in Hw; try contradiction.
    destruct w' as [b|z|b|b|s| |w'|ws'|m|ws']; cbn [typed] in Hw'; try contradiction.
    destruct j; try discriminate.
    + destruct (sequence_field_count fs <? length js) eqn:El; [discriminate|].
      destruct (deser_elements (deser be) js fs 0 ws) as [r e] eqn:E. injection H as <- ->.
      assert (G : deser_elements (deser be) js fs 0 ws' = (r, None)); [|now rewrite G].
      clear El. revert ws ws' r E Hw Hw'. generalize 0.
      induction fs as [|[a t] fs IHfs]; intros k [|w ws] [|w' ws'] r E Hw Hw'; cbn [all2] in Hw, Hw'; try contradiction; [exact E|].
      inversion IH as [|? ? IH1 IH2]; subst. cbn [snd] in IH1. destruct Ho as [(Hs & Hm & Hx) Ho]. cbn [fst snd] in *.
      cbn [deser_elements] in E. rewrite Hs in E. destruct (a_extra a || a_flatten a) eqn:Eo; [discriminate|].
      destruct (then_validate a (deser be t (at_index js k) w)) as [v' [e|]] eqn:Ev; [discriminate|].
      destruct (deser_elements (deser be) js fs (S k) ws) as [r' e] eqn:Er. injection E as <- ->. cbn [deser_elements].
      rewrite Hs, Eo, (then_validate_indep a _ t _ _ w' _ (proj1 IH1 (proj1 Hwf) Hx) (proj1 Hw) (proj1 Hw') Ev).
      rewrite (IHfs IH2 (proj2 Hwf) (proj2 Hok) Ho _ _ _ _ Er (proj2 Hw) (proj2 Hw')). reflexivity.
    + destruct (reserved_field_names fs) as [names| |]; try discriminate.
      destruct (deser_members (deser be) names ms fs ws) as [r e] eqn:E. injection H as <- ->.
      assert (G : deser_members (deser be) names ms fs ws' = (r, None)); [|now rewrite G].
      revert ws ws' r E Hw Hw'.
      induction fs as [|[a t] fs IHfs]; intros [|w ws] [|w' ws'] r E Hw Hw'; cbn [all2] in Hw, Hw'; try contradiction; [exact E|].
      inversion IH as [|? ? IH1 IH2]; subst. cbn [snd] in IH1. destruct Ho as [(Hs & Hm & Hx) Ho]. cbn [fst snd] in *.
      cbn [deser_members] in E. rewrite Hs in E.
      set (one := if a_extra a then _ else _) in E. destruct one as [v' [e|]] eqn:E1; [discriminate|]. subst one.
      destruct (deser_members (deser be) names ms fs ws) as [r' e] eqn:Er. injection E as <- ->. cbn [deser_members]. rewrite Hs.
      assert (E2 : (if a_extra a then
                      match t with
                      | TMap te => let '(m, e) := extra_loop (deser be te) (default_of te) names ms [] in (VMap m, e)
                      | _ => (w', Some EStuck)
                      end
                    else if a_flatten a then deser be t (JObj ms) w'
                    else read_field a (deser be t) ms w') = (v', None)).
      { destruct (a_extra a).
        - destruct t; try discriminate. exact E1.
        - assert (Hi : indep (deser be t) t) by exact (proj1 IH1 (proj1 Hwf) Hx).
          destruct (a_flatten a); [exact (Hi _ _ _ _ (proj1 Hw) (proj1 Hw') E1)|].
          unfold read_field in *. destruct (resolve_field_name ms a) as [n|].
          + destruct (is_null (at_field ms n)), (a_default a); auto;
              eapply then_validate_indep; eauto; try exact (proj1 Hw); exact (proj1 Hw').
          + destruct (a_default a); auto. destruct Hm as [Hm|Hm]; [|congruence]. rewrite Hm in *.
            eapply then_validate_indep; eauto; [exact (proj1 Hw)|exact (proj1 Hw')]. }
      rewrite E2, (IHfs IH2 (proj2 Hwf) (proj2 Hok) Ho _ _ _ Er (proj2 Hw) (proj2 Hw')). reflexivity.
Qed.

End WithBackend.
