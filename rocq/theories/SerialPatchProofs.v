(** Patching, reading twice, and extra fields written back. *)
From Coq Require Import List NArith ZArith Arith Bool Lia.
From Verif Require Import Base PathModel EnumModel EnumSpec EnumProofs SerialModel SerialSpec SerialBaseProofs
  SerialTypeProofs SerialKeyProofs SerialRoundProofs SerialFieldProofs.
Import ListNotations.
Local Open Scope outcome_scope.

Local Notation str := (list N) (only parsing).

Section WithBackend.
Context (be : backend).

(* ------------------------------------------------------------------ *)
(** ** What a patch leaves alone *)

Lemma kept_refl ms t : wf t -> is_rec t -> forall v, typed t v -> kept ms t v v.
Proof.
  induction t as [ |it| | | |t IH|t IH|n t IH|t IH|ts IH|e|e|fs IH] using ty_ind0; intros Hw Hr v Hv; cbn in Hr; try contradiction.
  destruct v as [b|z|b|b|s| |v|vs|m|vs]; cbn [typed] in Hv; try contradiction. cbn [kept].
  destruct Hw as (Hw & Ho & _). generalize (all_names (TRec fs)) as names. intros names. revert vs Hv.
  induction fs as [|[a t] fs IHfs]; intros [|v vs] Hv; cbn [all2] in Hv; try contradiction; [exact I|].
  inversion IH as [|? ? IH1 IH2]; subst. destruct Hw as [Hw1 Hw2]. destruct Ho as [Ho1 Ho2]. destruct Hv as [Hv1 Hv2].
  cbn [all3]. split; [|now apply IHfs]. unfold field_kept. cbn [snd fst] in *. destruct (a_skip_deser a); [reflexivity|].
  destruct Ho1 as (_ & _ & Hfl & Hex). cbn [fst snd] in *. destruct (a_extra a).
  - specialize (Hex eq_refl). destruct t; cbn in Hex; try contradiction. destruct v; cbn in Hv1; try contradiction. auto.
  - destruct (a_flatten a); [|auto]. apply IH1; auto.
Qed.

Lemma patch_extra_kept f d names ms : forall acc k, absent ms k \/ In k names ->
  map_find k (fst (patch_extra_loop f d names ms acc)) = map_find k acc.
Proof.
  induction ms as [|[k0 j] ms IH]; intros acc k Hk; cbn [patch_extra_loop]; [reflexivity|].
  assert (Hk' : absent ms k \/ In k names) by (unfold absent in *; cbn in Hk; tauto).
  destruct (in_set k0 names) eqn:E; [now apply IH|]. apply in_set_false in E.
  assert (Hne : str_eqb k0 k = false).
  { apply str_eqb_false. intros ->. destruct Hk as [Hk|Hk]; [apply Hk; now left|contradiction]. }
  destruct (map_find k0 acc) as [w|] eqn:Ew.
  - destruct (f j w) as [v [e|]]; cbn [fst].
    + rewrite map_assign_find, Hne. now destruct (map_find k acc).
    + rewrite IH by exact Hk'. rewrite map_assign_find, Hne. now destruct (map_find k acc).
  - destruct (f j d) as [v [e|]]; cbn [fst]; [reflexivity|]. rewrite IH by exact Hk'.
    rewrite map_emplace_find, Hne. now destruct (map_find k acc).
Qed.

Lemma patch_kept ms t : wf t -> is_rec t -> forall v, typed t v -> kept ms t v (fst (patch be t (JObj ms) v)).
Proof.
  induction t as [ |it| | | |t IH|t IH|n t IH|t IH|ts IH|e|e|fs IH] using ty_ind0; intros Hw Hr v Hv; cbn in Hr; try contradiction.
  pose proof (kept_refl ms (TRec fs) Hw I v Hv) as Hrefl.
  destruct v as [b|z|b|b|s| |v|vs|m|vs]; cbn [typed] in Hv; try contradiction. cbn [patch].
  destruct (reserved_field_names fs) as [names| |] eqn:En; [|exact Hrefl|exact Hrefl].
  assert (Hn : any_extra_or_flatten fs = true -> names = all_names (TRec fs)).
  { intros E. apply reserved_ok in En; [|exact E]. apply En. }
  cbn [kept] in Hrefl. destruct Hw as (Hw & Ho & _).
  assert (G : all3 (field_kept (kept ms) (all_names (TRec fs)) ms) fs vs (fst (patch_members (patch be) names ms fs vs))).
  { assert (Hn' : forall a t, In (a, t) fs -> a_extra a = true -> names = all_names (TRec fs)).
    { intros a t Hin Ea. apply Hn. eapply any_in; [exact Hin|now left]. }
    clear En Hn. revert Hrefl Hn'. generalize (all_names (TRec fs)) as N. intros N. revert vs Hv.
    induction fs as [|[a t] fs IHfs]; intros [|v vs] Hv Hrefl Hn'; cbn [all2] in Hv; try contradiction; [exact I|].
    inversion IH as [|? ? IH1 IH2]; subst. destruct Hw as [Hw1 Hw2]. destruct Ho as [Ho1 Ho2]. destruct Hv as [Hv1 Hv2].
    cbn [all3] in Hrefl. destruct Hrefl as [Hr1 Hr2]. cbn [snd fst] in *.
    cbn [patch_members]. set (one := if a_skip_deser a then _ else _).
    assert (H1 : field_kept (kept ms) N ms (a, t) v (fst one)).
    { subst one. unfold field_kept. destruct (a_skip_deser a); [reflexivity|].
      destruct Ho1 as (_ & _ & Hfl & Hex). cbn [fst snd] in *. destruct (a_extra a) eqn:Ee.
      - specialize (Hex eq_refl). destruct t; cbn in Hex; try contradiction. destruct v; cbn in Hv1; try contradiction.
        pose proof (patch_extra_kept (patch be t) (default_of t) names ms kvs) as Hk.
        destruct (patch_extra_loop (patch be t) (default_of t) names ms kvs) as [m e]. cbn [fst] in *.
        rewrite (Hn' a (TMap t)) in Hk; [exact Hk|now left|exact Ee].
      - destruct (a_flatten a); [apply IH1; auto|]. intros Hab. rewrite (proj2 (patch_field_policy a _ ms v) Hab). reflexivity. }
    destruct one as [v' [e|]]; cbn [fst] in H1.
    - cbn. split; [exact H1|exact Hr2].
    - specialize (IHfs IH2 Hw2 Ho2 vs Hv2 Hr2 (fun a0 t0 Hin => Hn' a0 t0 (or_intror Hin))).
      destruct (patch_members (patch be) names ms fs vs) as [r e]. cbn in *. split; assumption. }
  destruct (patch_members (patch be) names ms fs vs) as [r e]. exact G.
Qed.

(* ------------------------------------------------------------------ *)
(** ** Documents that name nothing *)

Lemma flat_names fs a t : In (a, t) fs -> a_extra a = false -> a_flatten a = true ->
  incl (all_names t) (all_names_of all_names fs) /\ extras t <= extras_of extras fs /\
  (NoDup (all_names_of all_names fs) -> NoDup (all_names t)).
Proof.
  induction fs as [|[b u] fs IH]; intros Hin He Hf; [destruct Hin|]. cbn [all_names_of extras_of].
  destruct Hin as [[= -> ->]|Hin].
  - rewrite He, Hf. split; [intros x Hx; apply in_or_app; now left|]. split; [lia|]. intros H. now apply NoDup_app in H.
  - destruct (IH Hin He Hf) as (I1 & I2 & I3). split; [intros x Hx; apply in_or_app; right; now apply I1|]. split; [lia|].
    intros H. apply NoDup_app in H. apply I3, H.
Qed.

Lemma patch_absent t : is_rec t -> wf t -> forall M v, typed t v -> (forall n, In n (all_names t) -> find_member n M = None) ->
  extras t = 0 \/ M = [] -> (forall fs, t = TRec fs -> any_extra_or_flatten fs = true -> distinct_names t) ->
  patch be t (JObj M) v = (v, None).
Proof.
  induction t as [ |it| | | |t IH|t IH|n t IH|t IH|ts IH|e|e|fs IH] using ty_ind0; intros Hr Hw M v Hv HM Hex Hd; cbn in Hr; try contradiction.
  destruct v as [b|z|b|b|s| |v|vs|m|vs]; cbn [typed] in Hv; try contradiction. cbn [patch].
  assert (Hn : exists names, reserved_field_names fs = Ok names).
  { destruct (any_extra_or_flatten fs) eqn:E.
    - destruct (reserved_distinct fs (Hd fs eq_refl E)) as (ns & E1 & _). eauto.
    - exists []. now apply reserved_none. }
  destruct Hn as (names & ->).
  assert (Hflat : forall a t, In (a, t) fs -> a_extra a = false -> a_flatten a = true -> distinct_names t).
  { intros a t Hin He Hf. assert (E : any_extra_or_flatten fs = true) by (eapply any_in; [exact Hin|now right]).
    destruct (Hd fs eq_refl E) as [D1 D2]. destruct (flat_names fs a t Hin He Hf) as (_ & F2 & F3). split; [now apply F3|].
    cbn [extras] in D2. lia. }
  cbn [all_names extras] in HM, Hex. destruct Hw as (Hw & Ho & _). clear Hd.
  assert (G : patch_members (patch be) names M fs vs = (vs, None)).
  { revert vs Hv. induction fs as [|[a t] fs IHfs]; intros [|v vs] Hv; cbn [all2] in Hv; try contradiction; [reflexivity|].
    inversion IH as [|? ? IH1 IH2]; subst. destruct Hw as [Hw1 Hw2]. destruct Ho as [Ho1 Ho2]. destruct Hv as [Hv1 Hv2].
    cbn [snd fst] in *. cbn [all_names_of extras_of] in *. cbn [patch_members].
    rewrite IHfs; auto.
    2: { intros n Hn. apply HM, in_or_app. now right. }
    2: { destruct Hex; [left; lia|now right]. }
    2: { intros b u Hin. apply (Hflat b u). now right. }
    destruct Ho1 as (_ & _ & Hfl & Hexm). cbn [fst snd] in *.
    destruct (a_skip_deser a); [reflexivity|]. destruct (a_extra a) eqn:Ee.
    - destruct Hex as [Hex|Hex]; [lia|]. subst M. specialize (Hexm eq_refl). destruct t; cbn in Hexm; try contradiction.
      destruct v; cbn in Hv1; try contradiction. reflexivity.
    - destruct (a_flatten a) eqn:Ef.
      + rewrite (IH1 (Hfl eq_refl) Hw1 M v Hv1); [reflexivity| | |].
        * intros n Hn. apply HM, in_or_app. now left.
        * destruct Hex; [left; lia|now right].
        * intros gs _ _. apply (Hflat a t); [now left|exact Ee|exact Ef].
      + unfold patch_field. rewrite resolve_none; [reflexivity|]. intros n Hn. apply HM, in_or_app. now left. }
  now rewrite G.
Qed.

Lemma patch_empty_lemma fs v : wf (TRec fs) -> typed (TRec fs) v ->
  (any_extra_or_flatten fs = true -> distinct_names (TRec fs)) ->
  patch be (TRec fs) (JObj []) v = (v, None).
Proof.
  intros Hw Hv Hd. apply patch_absent; auto; [exact I|]. intros gs [= <-]. exact Hd.
Qed.

(* ------------------------------------------------------------------ *)
(** ** Patching with the value's own document *)

Lemma patch_extra_same f d names ms m :
  (forall k j, In (k, j) ms -> ~ In k names -> exists v, map_find k m = Some v /\ f j v = (v, None)) ->
  patch_extra_loop f d names ms m = (m, None).
Proof.
  induction ms as [|[k j] ms IH]; intros H; cbn [patch_extra_loop]; [reflexivity|].
  assert (IH' := IH (fun k' j' Hin => H k' j' (or_intror Hin))).
  destruct (in_set k names) eqn:E; [exact IH'|]. apply in_set_false in E.
  destruct (H k j (or_introl eq_refl) E) as (v & Hv & Hf). rewrite Hv, Hf, (map_assign_same k v m Hv). exact IH'.
Qed.

Section Own.
Context (skip : bool).

Definition prt_claim (t : ty) : Prop := forall flat v j, wf t -> typed t v -> prt be skip t v -> ser be skip t flat v = Ok j ->
  (v <> VNone -> is_null j = false) /\
  (flat = None -> patch be t j v = (v, None)) /\
  (is_rec t -> extras t = 0 -> forall ms M, j = JObj ms ->
     (forall n, In n (all_names t) -> find_member n M = find_member n ms) -> patch be t (JObj M) v = (v, None)).

Lemma leaf_prt a t v M : wf t -> typed t v -> prt_claim t ->
  field_prt skip (prt be skip) (a, t) v -> a_skip_deser a = false -> a_extra a = false -> a_flatten a = false ->
  (if omitted skip a v then forall n, In n (serialized_name a :: a_aliases a) -> find_member n M = None
   else exists j, ser be skip t None v = Ok j /\ find_member (serialized_name a) M = Some j) ->
  patch_field a (patch be t) M v = (v, None).
Proof.
  intros Hw Hv Hc Hr Hd He Hf HM. unfold field_prt in Hr. rewrite Hd, He, Hf in Hr. unfold patch_field.
  destruct (omitted skip a v).
  - now rewrite (resolve_none M a HM).
  - destruct HM as (j & Hj & HM). destruct (resolve_name M a j HM) as [-> ->].
    assert (Hcase : (v = VNone /\ exists d, a_default a = Some d /\ v = d) \/
                    (prt be skip t v /\ accepted a v /\ (v = VNone -> a_default a = None))).
    { destruct v; try (right; destruct Hr; repeat split; auto; discriminate).
      destruct (a_default a) as [d|]; [left; eauto|right; tauto]. }
    destruct Hcase as [(-> & d & -> & <-)|(Hrt & Ha & Hn)].
    + destruct t; cbn in Hv; try contradiction. cbn in Hj. injection Hj as <-. reflexivity.
    + destruct (Hc None v j Hw Hv Hrt Hj) as (Hnull & Hd' & _). rewrite (Hd' eq_refl), (then_validate_accept a v Ha).
      destruct (is_null j) eqn:En; [|reflexivity]. rewrite Hn; [reflexivity|].
      destruct v; auto; exfalso; assert (true = false) by (apply Hnull; discriminate); discriminate.
Qed.

Lemma fields_prt N ns nd fs :
  Forall (fun g : attrs * ty => prt_claim (snd g) /\ forall te, snd g = TMap te -> prt_claim te) fs ->
  all1 (fun g => wf (snd g)) fs -> all1 field_ok fs ->
  NoDup (all_names_of all_names fs) -> extras_of extras fs <= 1 -> incl (all_names_of all_names fs) N ->
  extras_of extras fs = 0 \/ (ns = N /\ nd = N) ->
  forall vs ms M, all2 (fun g => typed (snd g)) fs vs -> all2 (field_prt skip (prt be skip)) fs vs ->
  ser_fields skip (ser be skip) ns fs vs = Ok ms ->
  (forall n, In n (all_names_of all_names fs) -> find_member n M = find_member n ms) ->
  (extras_of extras fs <> 0 -> filter (unreserved N) M = filter (unreserved N) ms) ->
  patch_members (patch be) nd M fs vs = (vs, None).
Proof.
  induction fs as [|[a t] fs IH]; intros HC Hw Ho Hnd Hex HN Hnames vs ms M Hv Hr H HM HX.
  - destruct vs; cbn in Hr; try contradiction. reflexivity.
  - destruct vs as [|v vs]; [destruct Hv|].
    apply ser_fields_cons in H. destruct H as (ms1 & ms2 & H1 & H2 & ->).
    inversion HC as [|? ? HCt HCr]; subst. destruct Hw as [Hwt Hwr]. destruct Ho as [Hot Hor]. destruct Hv as [Hvt Hvr].
    destruct Hr as [Hrt Hrr]. cbn [snd] in *. cbn [all_names_of extras_of] in *.
    set (n1 := if a_extra a then [] else if a_flatten a then all_names t else serialized_name a :: a_aliases a) in *.
    set (e1 := if a_extra a then 1 else if a_flatten a then extras t else 0) in *.
    apply NoDup_app in Hnd. destruct Hnd as (Hn1 & Hn2 & Hdis).
    assert (HN1 : incl n1 N) by (intros x Hx; apply HN, in_or_app; now left).
    assert (HN2 : incl (all_names_of all_names fs) N) by (intros x Hx; apply HN, in_or_app; now right).
    destruct (fields_keys be skip ns fs) with (vs := vs) (ms := ms2) as [_ K2]; auto; try lia.
    { apply Forall_forall. intros g _. apply key_claim_all. }
    { destruct Hnames as [E|[-> _]]; [right; lia|left; exact HN2]. }
    assert (K1 : forall k, In k (map fst ms1) -> In k n1 \/ (e1 <> 0 /\ ~ In k ns)).
    { subst n1 e1. unfold field_members in H1. destruct (omitted skip a v); [injection H1 as <-; intros k []|].
      destruct (a_extra a).
      - destruct t as [ |it| | | |t|t|n t|te|ts|e|e|gs]; try discriminate.
        destruct v as [b|z|b|b|s| |v|us|m|us]; try discriminate.
        apply extra_members_map in H1. destruct H1 as [Hk H1]. apply map_members_keys in H1. destruct H1 as [H1 _].
        intros k Hk1. right. split; [discriminate|].
        apply in_map_iff in Hk1. destruct Hk1 as ([k' j] & <- & Hk1). destruct (H1 _ _ Hk1) as (x & Hx & _).
        exact (Hk _ Hx).
      - destruct (a_flatten a) eqn:Ef.
        + destruct t as [ |it| | | |t|t|n t|te|ts|e|e|gs]; try discriminate.
          apply obind_ok in H1. destruct H1 as (j & Hj & Hm). destruct j; try discriminate. injection Hm as <-.
          apply (key_claim_all be skip (TRec gs) ns v ms Hwt Hvt Hj I Hn1); [lia|].
          destruct Hnames as [E|[-> _]]; [right; lia|left; exact HN1].
        + apply obind_ok in H1. destruct H1 as (j & Hj & [= <-]). intros k [<- |[]]. left. now left. }
    assert (Hrest : patch_members (patch be) nd M fs vs = (vs, None)).
    { apply (IH HCr Hwr Hor Hn2) with (ms := ms2); auto; try lia.
      - destruct Hnames as [E|E]; [left; lia|right; exact E].
      - intros n Hn. rewrite (HM n) by (apply in_or_app; now right). rewrite find_member_app.
        rewrite (proj2 (find_member_none n ms1)); [reflexivity|]. intros Hk. destruct (K1 n Hk) as [A|[A B]].
        + exact (Hdis n A Hn).
        + destruct Hnames as [E|[-> _]]; [lia|]. apply B, HN2, Hn.
      - intros E. rewrite HX by lia. rewrite filter_app. rewrite (filter_none _ ms1); [reflexivity|].
        intros [k j] Hk. unfold unreserved. cbn [fst]. apply negb_false_iff, in_set_true.
        destruct (K1 k (in_map fst _ _ Hk)) as [A|[A _]]; [now apply HN1|lia]. }
    assert (Hthis : (if a_skip_deser a then (v, None)
                     else if a_extra a then
                       match t, v with
                       | TMap te, VMap m => let '(m', e) := patch_extra_loop (patch be te) (default_of te) nd M m in (VMap m', e)
                       | _, _ => (v, Some EStuck)
                       end
                     else if a_flatten a then patch be t (JObj M) v
                     else patch_field a (patch be t) M v) = (v, None)).
    2: { cbn [patch_members]. rewrite Hthis, Hrest. reflexivity. }
    destruct (a_skip_deser a) eqn:Ed; [reflexivity|].
    destruct (a_extra a) eqn:Ee.
    { unfold field_prt in Hrt. rewrite Ed, Ee in Hrt. subst n1 e1.
      destruct Hnames as [E|[-> ->]]; [lia|].
      destruct t as [ |it| | | |t|t|n t|te|ts|e|e|gs]; try contradiction.
      destruct v as [b|z|b|b|s| |v|us|m|us]; try contradiction.
      rewrite patch_extra_same; [reflexivity|]. intros k j Hkj Hk.
      assert (Hk1 : In (k, j) ms1).
      { assert (Hf : In (k, j) (filter (unreserved N) M)).
        { apply filter_In. split; [exact Hkj|]. unfold unreserved. cbn. now apply negb_true_iff, in_set_false. }
        rewrite HX in Hf by lia. apply filter_In in Hf. destruct Hf as [Hf _]. apply in_app_or in Hf.
        destruct Hf as [Hf|Hf]; [exact Hf|]. exfalso. destruct (K2 k (in_map fst _ _ Hf)) as [A|[A _]]; [|lia].
        apply Hk, HN2, A. }
      unfold field_members in H1. rewrite Ee in H1. destruct (omitted skip a (VMap m)) eqn:Eom; [injection H1 as <-; destruct Hk1|].
      destruct Hrt as [Hs|Hrt]; [unfold omitted in Eom; rewrite Hs in Eom; discriminate|].
      apply extra_members_map in H1. destruct H1 as [_ H1].
      assert (Hsel : exists x, In (k, x) m /\ skip_null_value skip x = false /\ ser be skip te None x = Ok j).
      { clear - H1 Hk1. revert ms1 H1 Hk1. induction m as [|[k0 v0] m IHm]; cbn [map_members]; intros ms1 H1 Hk1.
        - injection H1 as <-. destruct Hk1.
        - destruct (skip_null_value skip v0) eqn:En.
          + destruct (IHm _ H1 Hk1) as (x & Hx & E). exists x. split; [now right|exact E].
          + apply obind_ok in H1. destruct H1 as (j0 & Hj0 & H1). apply obind_ok in H1. destruct H1 as (ms' & Hms & [= <-]).
            destruct Hk1 as [[= -> ->]|Hk1]; [exists v0; split; [now left|auto]|].
            destruct (IHm _ Hms Hk1) as (x & Hx & E). exists x. split; [now right|exact E]. }
      destruct Hsel as (x & Hx & Hn & Hj). exists x. split; [apply map_find_nodup; [apply sorted_keys_nodup, Hvt|exact Hx]|].
      pose proof (proj1 (all1_in _ _) Hrt _ Hx) as [E|E]; [cbn in E; congruence|]. cbn [snd] in E.
      apply (proj2 HCt te eq_refl None x j Hwt); auto. exact (proj1 (all1_in _ _) (proj2 Hvt) _ Hx). }
    destruct (a_flatten a) eqn:Ef.
    { unfold field_prt in Hrt. rewrite Ed, Ee, Ef in Hrt. destruct Hrt as (Hex0 & Hrt). subst n1 e1.
      destruct Hot as (_ & _ & Hfl & _). cbn [fst snd] in Hfl. specialize (Hfl Ef).
      destruct (is_rec_typed t v Hfl Hvt) as (gs & us & -> & ->).
      assert (Hrest' : forall n, In n (all_names (TRec gs)) -> find_member n ms2 = None).
      { intros n Hn. apply find_member_none. intros Hk. destruct (K2 n Hk) as [A|[A B]].
        - exact (Hdis n Hn A).
        - destruct Hnames as [E|[-> _]]; [lia|]. apply B, HN1, Hn. }
      unfold field_members in H1. rewrite Ee, Ef in H1.
      destruct (a_skip_ser a) eqn:Es.
      - unfold omitted in H1. rewrite Es in H1. injection H1 as <-.
        apply patch_absent; auto.
        + intros n Hn. rewrite (HM n) by (apply in_or_app; now left). now apply Hrest'.
        + intros gs' [= <-] _. split; [exact Hn1|lia].
      - assert (Eom : omitted skip a (VRec us) = false).
        { unfold omitted, skip_serialized_field, skip_null_field, skip_null_value, skip_empty_field. rewrite Es. cbn.
          destruct (a_emit_null a), (a_skip_if_null a), (a_skip_if_empty a), skip; reflexivity. }
        rewrite Eom in H1. apply obind_ok in H1. destruct H1 as (j & Hj & Hm). destruct j; try discriminate. injection Hm as <-.
        apply (proj2 (proj2 (proj1 HCt (Some ns) (VRec us) (JObj ms) Hwt Hvt (Hrt eq_refl) Hj)) I Hex0 ms M eq_refl).
        intros n Hn. rewrite (HM n) by (apply in_or_app; now left). rewrite find_member_app.
        destruct (find_member n ms); [reflexivity|]. now apply Hrest'. }
    { apply leaf_prt; auto.
      - exact (proj1 HCt).
      - subst n1 e1. unfold field_members in H1. rewrite Ee, Ef in H1.
        assert (Hrest' : forall n, In n (serialized_name a :: a_aliases a) -> find_member n ms2 = None).
        { intros n Hn. apply find_member_none. intros Hk. destruct (K2 n Hk) as [A|[A B]].
          - exact (Hdis n Hn A).
          - destruct Hnames as [E|[-> _]]; [lia|]. apply B, HN1, Hn. }
        destruct (omitted skip a v).
        + injection H1 as <-. intros n Hn. rewrite (HM n) by (apply in_or_app; now left). now apply Hrest'.
        + apply obind_ok in H1. destruct H1 as (j & Hj & [= <-]). exists j. split; [exact Hj|].
          rewrite HM by (apply in_or_app; left; now left). cbn. now rewrite str_eqb_refl. }
Qed.

Lemma prt_claim_all t : prt_claim t.
Proof.
  induction t as [ |it| | | |t IH|t IH|n t IH|t IH|ts IH|e|e|fs IH] using ty_ind1; intros flat v j Hw Hv Hr H;
    try (pose proof (rt_claim_all be skip _ flat v v j Hw Hv Hr H) as (A & B & _); split; [exact A|]; split; [exact B|intros []; fail]).
  - split; [|split; [|intros []]]; destruct v as [b|z|b|b|s| |v|vs|m|vs]; cbn [typed] in Hv; try contradiction; cbn [ser] in H.
    + destruct Hr as [Hn Hr]. intros _. exact (proj1 (IH None v j Hw Hv Hr H) Hn).
    + injection H as <-. reflexivity.
    + destruct Hr as [Hn Hr]. destruct (IH None v j Hw Hv Hr H) as (A & B & _). intros _. cbn [patch].
      rewrite (A Hn), (B eq_refl). reflexivity.
  - destruct Hw as (Hw & Ho & _). destruct v as [b|z|b|b|s| |v|vs|m|vs]; cbn [typed] in Hv; try contradiction.
    destruct Hr as (Hnd & Hex & Hr).
    assert (Hnames : exists ns, match flat with Some x => ns = x | None => reserved_field_names fs = Ok ns end).
    { cbn [ser] in H. apply obind_ok in H. destruct H as (ns & Hns & _). exists ns. destruct flat; congruence. }
    destruct Hnames as (ns & Hns). destruct (ser_rec be skip ns fs vs flat j H Hns) as (ms & -> & Hms).
    destruct (reserved_distinct fs (conj Hnd Hex)) as (nd & Ed & Hnd').
    assert (Hzero : any_extra_or_flatten fs = false -> extras_of extras fs = 0).
    { clear. induction fs as [|[a t] fs IHfs]; intros E; [reflexivity|]. cbn in E. apply orb_false_iff in E.
      destruct E as [Ea E]. apply orb_false_iff in Ea. destruct Ea as [E1 E2]. cbn. rewrite E1, E2. auto. }
    split; [reflexivity|]. split.
    + intros ->. cbn [patch]. rewrite Ed. assert (nd = ns) by congruence. subst ns.
      rewrite (fields_prt (all_names_of all_names fs) nd nd fs IH Hw Ho Hnd Hex (incl_refl _)) with (vs := vs) (ms := ms); auto.
      destruct (any_extra_or_flatten fs) eqn:Eany; [right|left; auto]. split; now apply Hnd'.
    + intros _ Hex0 ms' M [= <-] HM. cbn [patch]. rewrite Ed. cbn [extras all_names] in *.
      rewrite (fields_prt (all_names_of all_names fs) ns nd fs IH Hw Ho Hnd Hex (incl_refl _)) with (vs := vs) (ms := ms); auto.
      lia.
Qed.

Lemma patch_own_lemma t v j : wf t -> typed t v -> prt be skip t v ->
  serialize be skip t v = Ok j -> patch be t j v = (v, None).
Proof. intros Hw Hv Hr H. exact (proj1 (proj2 (prt_claim_all t None v j Hw Hv Hr H)) eq_refl). Qed.

End Own.

(* ------------------------------------------------------------------ *)
(** ** Reading and patching twice *)

Lemma arr_loop_len f js : forall vs i, length (fst (arr_loop f js i vs)) = length vs.
Proof.
  induction vs as [|v vs IH]; intros i; cbn [arr_loop]; [reflexivity|].
  destruct (f (at_index js i) v) as [v' [e|]]; [reflexivity|]. specialize (IH (S i)).
  destruct (arr_loop f js (S i) vs). cbn in *. congruence.
Qed.

Definition idem (f : json -> val -> dres) (j : json) : Prop := forall w v, f j w = (v, None) -> f j v = (v, None).

Lemma then_validate_idem a f j v w : idem f j -> then_validate a (f j w) = (v, None) -> then_validate a (f j v) = (v, None).
Proof.
  intros Hf H. destruct (f j w) as [x [e|]] eqn:E; cbn in H; [discriminate|]. injection H as -> Hv.
  rewrite (Hf _ _ E). cbn. now rewrite Hv.
Qed.

Lemma read_field_idem a f ms v w : (forall j, idem f j) -> read_field a f ms w = (v, None) -> read_field a f ms v = (v, None).
Proof.
  intros Hf. unfold read_field. destruct (resolve_field_name ms a) as [n|].
  - destruct (is_null (at_field ms n)), (a_default a); auto; apply then_validate_idem; apply Hf.
  - destruct (a_default a); auto. destruct (a_allow_missing a); [now intros [= <-]|]. apply then_validate_idem; apply Hf.
Qed.

Lemma deser_idem t : forall j, idem (deser be t) j.
Proof.
  induction t as [ |it| | | |t IH|t IH|n t IH|t IH|ts IH|e|e|fs IH] using ty_ind1; intros j w v H; cbn [deser] in *.
  - destruct (dec_bool be j); [exact H|discriminate].
  - destruct (dec_int be it j); [exact H|discriminate].
  - destruct (dec_dbl be j); [exact H|discriminate].
  - destruct (dec_flt be j); [exact H|discriminate].
  - destruct j; try discriminate. exact H.
  - destruct (is_null j); [exact H|]. destruct (deser be t j (default_of t)) as [x [e|]]; [discriminate|exact H].
  - destruct j; try discriminate. exact H.
  - destruct j; try (destruct w; discriminate). destruct w as [b|z|b|b|s| |w|ws|m|ws]; try discriminate.
    destruct (length ws <? length js) eqn:El; [discriminate|].
    pose proof (arr_loop_len (deser be t) js ws 0) as Hlen.
    destruct (arr_loop (deser be t) js 0 ws) as [r e] eqn:E. injection H as <- ->. cbn in Hlen. rewrite Hlen, El.
    assert (G : arr_loop (deser be t) js 0 r = (r, None)); [|now rewrite G].
    clear Hlen El. revert r E. generalize 0. induction ws as [|w ws IHws]; intros k r E; cbn [arr_loop] in E.
    + injection E as <-. reflexivity.
    + destruct (deser be t (at_index js k) w) as [v' [e|]] eqn:Ev; [discriminate|].
      destruct (arr_loop (deser be t) js (S k) ws) as [r' e] eqn:Er. injection E as <- ->. cbn [arr_loop].
      rewrite (IH _ _ _ Ev), (IHws _ _ Er). reflexivity.
  - destruct j; try discriminate. exact H.
  - destruct j; try (destruct w; discriminate). destruct w as [b|z|b|b|s| |w|ws|m|ws]; try discriminate.
    destruct (length ts <? length js) eqn:El; [discriminate|].
    destruct (deser_tuple (deser be) js ts 0 ws) as [r e] eqn:E. injection H as <- ->.
    assert (G : deser_tuple (deser be) js ts 0 r = (r, None)); [|now rewrite G].
    clear El. revert ws r E. generalize 0. induction ts as [|t ts IHts]; intros k [|w ws] r E; cbn [deser_tuple] in E; try discriminate.
    + injection E as <-. reflexivity.
    + inversion IH as [|? ? IH1 IH2]; subst. destruct (deser be t (at_index js k) w) as [v' [e|]] eqn:Ev; [discriminate|].
      destruct (deser_tuple (deser be) js ts (S k) ws) as [r' e] eqn:Er. injection E as <- ->. cbn [deser_tuple].
      rewrite (IH1 _ _ _ Ev), (IHts IH2 _ _ _ Er). reflexivity.
  - destruct j; try discriminate. destruct (from_string _ s); [exact H|discriminate].
  - destruct j; try discriminate. exact H.
  - destruct j; try (destruct w; discriminate); destruct w as [b|z|b|b|s| |w|ws|m|ws]; try discriminate.
    + destruct (sequence_field_count fs <? length js) eqn:El; [discriminate|].
      destruct (deser_elements (deser be) js fs 0 ws) as [r e] eqn:E. injection H as <- ->.
      assert (G : deser_elements (deser be) js fs 0 r = (r, None)); [|now rewrite G].
      clear El. revert ws r E. generalize 0. induction fs as [|[a t] fs IHfs]; intros k [|w ws] r E; cbn [deser_elements] in E; try discriminate.
      * injection E as <-. reflexivity.
      * inversion IH as [|? ? IH1 IH2]; subst. cbn [snd] in IH1. destruct (a_skip_deser a) eqn:Es.
        { destruct (deser_elements (deser be) js fs k ws) as [r' e] eqn:Er. injection E as <- ->. cbn [deser_elements].
          rewrite Es, (IHfs IH2 _ _ _ Er). reflexivity. }
        destruct (a_extra a || a_flatten a) eqn:Eo; [discriminate|].
        destruct (then_validate a (deser be t (at_index js k) w)) as [v' [e|]] eqn:Ev; [discriminate|].
        destruct (deser_elements (deser be) js fs (S k) ws) as [r' e] eqn:Er. injection E as <- ->. cbn [deser_elements].
        rewrite Es, Eo, (then_validate_idem a _ _ _ _ (proj1 IH1 _) Ev), (IHfs IH2 _ _ _ Er). reflexivity.
    + destruct (reserved_field_names fs) as [names| |]; try discriminate.
      destruct (deser_members (deser be) names ms fs ws) as [r e] eqn:E. injection H as <- ->.
      assert (G : deser_members (deser be) names ms fs r = (r, None)); [|now rewrite G].
      revert ws r E. induction fs as [|[a t] fs IHfs]; intros [|w ws] r E; cbn [deser_members] in E; try discriminate.
      * injection E as <-. reflexivity.
      * inversion IH as [|? ? IH1 IH2]; subst. cbn [snd] in IH1.
        set (one := if a_skip_deser a then _ else _) in E. destruct one as [v' [e|]] eqn:E1; [discriminate|]. subst one.
        destruct (deser_members (deser be) names ms fs ws) as [r' e] eqn:Er. injection E as <- ->. cbn [deser_members].
        assert (E2 : (if a_skip_deser a then (v', None)
                      else if a_extra a then
                        match t with
                        | TMap te => let '(m, e) := extra_loop (deser be te) (default_of te) names ms [] in (VMap m, e)
                        | _ => (v', Some EStuck)
                        end
                      else if a_flatten a then deser be t (JObj ms) v'
                      else read_field a (deser be t) ms v') = (v', None)).
        { destruct (a_skip_deser a); [reflexivity|]. destruct (a_extra a).
          - destruct t; try discriminate. exact E1.
          - destruct (a_flatten a); [exact (proj1 IH1 _ _ _ E1)|]. eapply read_field_idem; [exact (proj1 IH1)|exact E1]. }
        rewrite E2, (IHfs IH2 _ _ Er). reflexivity.
Qed.

Lemma patch_extra_result f d names ms : NoDup (map fst ms) -> forall acc m, patch_extra_loop f d names ms acc = (m, None) ->
  forall k j, In (k, j) ms -> ~ In k names -> exists v, map_find k m = Some v /\
    f j (match map_find k acc with Some w => w | None => d end) = (v, None).
Proof.
  induction ms as [|[k0 j0] ms IH]; intros Hnd acc m H k j Hin Hk; cbn [patch_extra_loop] in H; [destruct Hin|].
  inversion Hnd as [|? ? Hn0 Hnd']; subst. destruct (in_set k0 names) eqn:E.
  - apply in_set_true in E. destruct Hin as [[= -> ->]|Hin]; [contradiction|]. eapply IH; eassumption.
  - apply in_set_false in E. pose proof (patch_extra_kept f d names ms) as Hkept.
    destruct (map_find k0 acc) as [w|] eqn:Ew.
    + destruct (f j0 w) as [v [e|]] eqn:Ef; [discriminate|]. destruct Hin as [[= -> ->]|Hin].
      * rewrite Ew. exists v. split; [|exact Ef].
        specialize (Hkept (map_assign k v acc) k (or_introl Hn0)). rewrite H in Hkept. cbn in Hkept.
        now rewrite Hkept, map_assign_find, Ew, str_eqb_refl.
      * destruct (IH Hnd' _ _ H k j Hin Hk) as (x & Hx & Hf). exists x. split; [exact Hx|].
        assert (Hne : str_eqb k0 k = false) by (apply str_eqb_false; intros ->; apply Hn0, (in_map fst _ _ Hin)).
        rewrite map_assign_find, Hne in Hf. now destruct (map_find k acc).
    + destruct (f j0 d) as [v [e|]] eqn:Ef; [discriminate|]. destruct Hin as [[= -> ->]|Hin].
      * rewrite Ew. exists v. split; [|exact Ef].
        specialize (Hkept (map_emplace k v acc) k (or_introl Hn0)). rewrite H in Hkept. cbn in Hkept.
        now rewrite Hkept, map_emplace_find, Ew, str_eqb_refl.
      * destruct (IH Hnd' _ _ H k j Hin Hk) as (x & Hx & Hf). exists x. split; [exact Hx|].
        assert (Hne : str_eqb k0 k = false) by (apply str_eqb_false; intros ->; apply Hn0, (in_map fst _ _ Hin)).
        rewrite map_emplace_find, Hne in Hf. now destruct (map_find k acc).
Qed.

Lemma at_field_unique ms n : all1 (fun m => keys_unique (snd m)) ms -> keys_unique (at_field ms n).
Proof.
  intros H. unfold at_field. destruct (find_member n ms) as [j|] eqn:E; [|exact I]. apply find_member_in in E.
  exact (proj1 (all1_in _ _) H _ E).
Qed.

Lemma patch_idem t : forall j, keys_unique j -> idem (patch be t) j.
Proof.
  induction t as [ |it| | | |t IH|t IH|n t IH|t IH|ts IH|e|e|fs IH] using ty_ind1; intros j Hj w v H;
    try (exact (deser_idem _ j w v H)).
  - cbn [patch] in *. destruct (is_null j); [exact H|]. destruct w as [b|z|b|b|s| |w|ws|m|ws]; try discriminate.
    + destruct (patch be t j (default_of t)) as [x [e|]] eqn:E; [discriminate|]. injection H as <-.
      now rewrite (IH j Hj _ _ E).
    + destruct (patch be t j w) as [x e] eqn:E. injection H as <- ->. now rewrite (IH j Hj _ _ E).
  - destruct j; try (exact (deser_idem (TRec fs) _ w v H)).
    destruct w as [b|z|b|b|s| |w|ws|m|ws]; try discriminate H. cbn [patch] in *.
    destruct (reserved_field_names fs) as [names| |] eqn:En; try discriminate.
    destruct (patch_members (patch be) names ms fs ws) as [r e] eqn:E. injection H as <- ->.
    destruct Hj as [Hnd Hu].
    assert (G : patch_members (patch be) names ms fs r = (r, None)); [|now rewrite G].
    clear En. revert ws r E. induction fs as [|[a t] fs IHfs]; intros [|w ws] r E; cbn [patch_members] in E; try discriminate.
    + injection E as <-. reflexivity.
    + inversion IH as [|? ? IH1 IH2]; subst. cbn [snd] in IH1.
      set (one := if a_skip_deser a then _ else _) in E. destruct one as [v' [e|]] eqn:E1; [discriminate|]. subst one.
      destruct (patch_members (patch be) names ms fs ws) as [r' e] eqn:Er. injection E as <- ->. cbn [patch_members].
      assert (E2 : (if a_skip_deser a then (v', None)
                    else if a_extra a then
                      match t, v' with
                      | TMap te, VMap m => let '(m', e) := patch_extra_loop (patch be te) (default_of te) names ms m in (VMap m', e)
                      | _, _ => (v', Some EStuck)
                      end
                    else if a_flatten a then patch be t (JObj ms) v'
                    else patch_field a (patch be t) ms v') = (v', None)).
      { destruct (a_skip_deser a); [reflexivity|]. destruct (a_extra a).
        - destruct t; try discriminate. destruct w; try discriminate.
          destruct (patch_extra_loop (patch be t) (default_of t) names ms kvs) as [m' e] eqn:El. injection E1 as <- ->.
          rewrite patch_extra_same; [reflexivity|]. intros k j Hin Hk.
          destruct (patch_extra_result _ _ _ _ Hnd _ _ El k j Hin Hk) as (x & Hx & Hf). exists x. split; [exact Hx|].
          eapply (proj2 IH1 t eq_refl j); [|exact Hf]. exact (proj1 (all1_in _ _) Hu _ Hin).
        - destruct (a_flatten a); [exact (proj1 IH1 (JObj ms) (conj Hnd Hu) _ _ E1)|].
          unfold patch_field in *. destruct (resolve_field_name ms a) as [n|]; [|reflexivity].
          assert (Hid : idem (patch be t) (at_field ms n)) by (apply (proj1 IH1); now apply at_field_unique).
          destruct (is_null (at_field ms n)), (a_default a); auto; eapply then_validate_idem; eassumption. }
      rewrite E2, (IHfs IH2 _ _ Er). reflexivity.
Qed.

(* ------------------------------------------------------------------ *)
(** ** Extra fields are collected and written back *)

Lemma map_members_has skip (s : val -> outcome json) m : forall ms k v, map_members skip s m = Ok ms -> In (k, v) m ->
  skip_null_value skip v = false -> exists j, s v = Ok j /\ In (k, j) ms.
Proof.
  induction m as [|[k0 v0] m IH]; intros ms k v H Hin Hn; [destruct Hin|]. cbn [map_members] in H.
  destruct Hin as [[= -> ->]|Hin].
  - rewrite Hn in H. apply obind_ok in H. destruct H as (j & Hj & H). apply obind_ok in H. destruct H as (ms' & _ & [= <-]).
    exists j. split; [exact Hj|now left].
  - destruct (skip_null_value skip v0); [eapply IH; eassumption|].
    apply obind_ok in H. destruct H as (j & Hj & H). apply obind_ok in H. destruct H as (ms' & Hms & [= <-]).
    destruct (IH _ _ _ Hms Hin Hn) as (x & Hx & Hxi). exists x. split; [exact Hx|now right].
Qed.

Lemma ser_fields_has skip names fs : forall vs ms, ser_fields skip (ser be skip) names fs vs = Ok ms ->
  forall i f v, nth_error fs i = Some f -> nth_error vs i = Some v ->
  exists ms1, field_members be skip names f v = Ok ms1 /\ incl ms1 ms.
Proof.
  induction fs as [|f fs IH]; intros vs ms H [|i] g v Hg Hv; try discriminate.
  - destruct vs as [|x vs]; [discriminate|]. apply ser_fields_cons in H. destruct H as (ms1 & ms2 & H1 & _ & ->).
    injection Hg as <-. injection Hv as <-. exists ms1. split; [exact H1|]. intros y Hy. apply in_or_app. now left.
  - destruct vs as [|x vs]; [discriminate|]. apply ser_fields_cons in H. destruct H as (ms1 & ms2 & _ & H2 & ->).
    destruct (IH vs ms2 H2 i g v Hg Hv) as (m & Hm & Hi). exists m. split; [exact Hm|]. intros y Hy. apply in_or_app. right. auto.
Qed.

Lemma first_member_nodup ms k j : NoDup (map fst ms) -> In (k, j) ms -> first_member ms k j.
Proof. intros Hn Hin. apply find_member_first. now apply find_member_nodup. Qed.

Lemma extras_lemma fs ms vs vs' : wf (TRec fs) -> typed (TRec fs) (VRec vs) ->
  deser be (TRec fs) (JObj ms) (VRec vs) = (VRec vs', None) ->
  forall i a te, nth_error fs i = Some (a, TMap te) -> a_extra a = true -> a_skip_deser a = false ->
  exists m, nth_error vs' i = Some (VMap m) /\ sorted_keys m /\
    (forall k v, map_find k m = Some v <->
       ~ In k (all_names (TRec fs)) /\ exists j, first_member ms k j /\ deser be te j (default_of te) = (v, None)) /\
    (forall skip ms', a_skip_ser a = false -> serialize be skip (TRec fs) (VRec vs') = Ok (JObj ms') ->
       forall k v, map_find k m = Some v -> skip_null_value skip v = false ->
       exists j', serialize be skip te v = Ok j' /\ first_member ms' k j').
Proof.
  intros Hw Hv H i a te Ha Ee Es.
  assert (Hd : any_extra_or_flatten fs = true -> distinct_names (TRec fs)).
  { intros E. cbn [deser] in H. destruct (reserved_field_names fs) as [ns| |] eqn:En; try discriminate.
    apply reserved_ok in En; [|exact E]. apply En. }
  destruct (deser_object_lemma be fs ms vs Hw Hv Hd) as (vs2 & e & E & Hord). rewrite H in E. injection E as <- <-.
  pose proof (proj1 (deser_typed be (TRec fs) Hw (JObj ms) (VRec vs) Hv)) as Hv'. rewrite H in Hv'. cbn [fst] in Hv'.
  assert (Hvi : exists v v', nth_error vs i = Some v /\ nth_error vs' i = Some v').
  { cbn [typed] in Hv, Hv'. apply all2_length in Hv. apply all2_length in Hv'.
    assert (Hi : i < length fs) by (apply nth_error_Some; congruence).
    destruct (nth_error vs i) eqn:E1; [|apply nth_error_None in E1; lia].
    destruct (nth_error vs' i) eqn:E2; [|apply nth_error_None in E2; lia]. eauto. }
  destruct Hvi as (v & v' & Hvi & Hvi').
  pose proof (in_order_nth _ _ _ _ Hord i _ _ _ Ha Hvi Hvi') as P. cbn [field_reads] in P. rewrite Es, Ee in P.
  destruct P as (m & Hm & P). cbn [fst snd] in *. subst v'. specialize (P eq_refl). destruct P as [P1 P2].
  exists m. split; [exact Hvi'|]. split; [exact P1|]. split; [exact P2|].
  intros skip ms' Hs Hser k x Hk Hn.
  pose proof (ser_unique be skip (TRec fs) Hw None (VRec vs') (JObj ms') Hv' Hser) as [Hu _].
  unfold serialize in Hser.
  assert (Hnames : exists ns, reserved_field_names fs = Ok ns).
  { cbn [ser] in Hser. apply obind_ok in Hser. destruct Hser as (ns & Hns & _). eauto. }
  destruct Hnames as (ns & Hns). destruct (ser_rec be skip ns fs vs' None (JObj ms') Hser Hns) as (ms2 & [= <-] & Hms).
  destruct (ser_fields_has skip ns fs vs' ms' Hms i _ _ Ha Hvi') as (ms1 & H1 & Hi).
  unfold field_members in H1. rewrite Ee in H1. apply map_find_in in Hk.
  assert (Eom : omitted skip a (VMap m) = false).
  { unfold omitted, skip_serialized_field, skip_null_field, skip_null_value, skip_empty_field. rewrite Hs. cbn.
    destruct m; [destruct Hk|]. destruct (a_emit_null a), (a_skip_if_null a), (a_skip_if_empty a), skip; reflexivity. }
  rewrite Eom in H1. apply extra_members_map in H1. destruct H1 as [_ H1].
  destruct (map_members_has skip _ m ms1 k x H1 Hk Hn) as (j & Hj & Hin). exists j. split; [exact Hj|].
  apply first_member_nodup; [exact Hu|]. now apply Hi.
Qed.

(** Patching the extra fields: what the document names is patched or added, the
    rest stays. *)
Lemma patch_extras_lemma fs ms vs vs' : wf (TRec fs) -> typed (TRec fs) (VRec vs) -> NoDup (map fst ms) ->
  patch be (TRec fs) (JObj ms) (VRec vs) = (VRec vs', None) ->
  forall i a te m, nth_error fs i = Some (a, TMap te) -> a_extra a = true -> a_skip_deser a = false ->
  nth_error vs i = Some (VMap m) ->
  exists m', nth_error vs' i = Some (VMap m') /\
    (forall k, absent ms k \/ In k (all_names (TRec fs)) -> map_find k m' = map_find k m) /\
    (forall k j, In (k, j) ms -> ~ In k (all_names (TRec fs)) -> exists v, map_find k m' = Some v /\
       patch be te j (match map_find k m with Some w => w | None => default_of te end) = (v, None)).
Proof.
  intros Hw Hv Hnd H i a te m Ha Ee Es Hm. cbn [patch] in H.
  destruct (reserved_field_names fs) as [names| |] eqn:En; try discriminate.
  assert (Hn : names = all_names (TRec fs)).
  { apply reserved_ok in En; [apply En|]. eapply any_in; [eapply nth_error_In, Ha|now left]. }
  rewrite <- Hn. clear Hn En Hw Hv.
  destruct (patch_members (patch be) names ms fs vs) as [r e] eqn:E. injection H as -> ->.
  revert vs vs' i E Ha Hm. induction fs as [|[b t] fs IH]; intros [|v vs] vs' i E Ha Hm; cbn [patch_members] in E; try discriminate;
    try (destruct i; discriminate).
  set (one := if a_skip_deser b then _ else _) in E. destruct one as [v' [e|]] eqn:E1; [discriminate|]. subst one.
  destruct (patch_members (patch be) names ms fs vs) as [r' e] eqn:Er. injection E as <- ->.
  destruct i as [|i]; [|exact (IH vs r' i Er Ha Hm)]. cbn in Ha, Hm. injection Ha as -> ->. injection Hm as ->.
  rewrite Es, Ee in E1. pose proof (patch_extra_kept (patch be te) (default_of te) names ms m) as Hk.
  pose proof (patch_extra_result (patch be te) (default_of te) names ms Hnd m) as Hr.
  destruct (patch_extra_loop (patch be te) (default_of te) names ms m) as [m' e]. injection E1 as <- ->.
  exists m'. split; [reflexivity|]. split; [exact Hk|]. exact (Hr m' eq_refl).
Qed.

(** A declared name among the extra keys is refused. *)
Lemma collision_lemma skip fs vs i a te m k : wf (TRec fs) -> typed (TRec fs) (VRec vs) ->
  nth_error fs i = Some (a, TMap te) -> nth_error vs i = Some (VMap m) -> a_extra a = true -> a_skip_ser a = false ->
  In k (map fst m) -> In k (all_names (TRec fs)) -> serialize be skip (TRec fs) (VRec vs) = Throws.
Proof.
  intros Hw Hv Ha Hm Ee Es Hk Hkn. apply (serialize_succeeds be skip (TRec fs) (VRec vs) Hw Hv).
  cbn [writable]. intros [_ H].
  assert (Hf : forall (P : attrs * ty -> val -> Prop) fs vs i f v, all2 P fs vs -> nth_error fs i = Some f -> nth_error vs i = Some v -> P f v).
  { clear. intros P. induction fs as [|f fs IH]; intros [|v vs] [|i] g x H Hg Hx; cbn in *; try discriminate; try contradiction.
    - injection Hg as <-. injection Hx as <-. apply H.
    - eapply IH; [apply H|exact Hg|exact Hx]. }
  pose proof (Hf _ _ _ _ _ _ H Ha Hm) as P. cbn [field_writable] in P. rewrite Ee in P.
  apply in_map_iff in Hk. destruct Hk as ([k' x] & <- & Hk).
  destruct P as [P|P].
  - unfold omitted, skip_serialized_field, skip_null_field, skip_null_value, skip_empty_field in P. rewrite Es in P. cbn in P.
    destruct m; [destruct Hk|]. destruct (a_emit_null a), (a_skip_if_null a), (a_skip_if_empty a), skip; discriminate.
  - pose proof (proj1 (all1_in _ _) P _ Hk) as [Pn _]. now apply Pn.
Qed.

End WithBackend.
