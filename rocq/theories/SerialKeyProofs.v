(** Names in the documents that serialize makes, and when it succeeds. *)
From Coq Require Import List NArith ZArith Arith Bool Lia.
From Verif Require Import Base PathModel EnumModel EnumSpec EnumProofs SerialModel SerialSpec SerialBaseProofs SerialTypeProofs.
Import ListNotations.
Local Open Scope outcome_scope.

Local Notation str := (list N) (only parsing).

Lemma obind_ok {A B} (m : outcome A) (f : A -> outcome B) b : obind m f = Ok b -> exists a, m = Ok a /\ f a = Ok b.
Proof. destruct m; cbn; try discriminate. eauto. Qed.

Lemma omap_ok {A B} (m : outcome A) (f : A -> B) b : omap f m = Ok b -> exists a, m = Ok a /\ b = f a.
Proof. unfold omap. intros H. apply obind_ok in H. destruct H as (a & H & [= <-]). eauto. Qed.

Lemma mapm_ok {A B} (f : A -> outcome B) l : forall r, mapm f l = Ok r <-> Forall2 (fun x y => f x = Ok y) l r.
Proof.
  induction l as [|x l IH]; intros r; cbn [mapm].
  - split; [intros [= <-]; constructor|]. inversion 1; subst. reflexivity.
  - split.
    + intros H. apply obind_ok in H. destruct H as (y & Hy & H). apply obind_ok in H.
      destruct H as (ys & Hys & [= <-]). constructor; [exact Hy|]. now apply IH.
    + inversion 1; subst. rewrite H2. cbn [obind]. now rewrite (proj2 (IH _) H4).
Qed.

Lemma map_members_keys skip f kvs : forall ms, map_members skip f kvs = Ok ms ->
  (forall k j, In (k, j) ms -> exists v, In (k, v) kvs /\ f v = Ok j) /\
  (NoDup (map fst kvs) -> NoDup (map fst ms)).
Proof.
  induction kvs as [|[k v] kvs IH]; cbn [map_members]; intros ms H.
  - injection H as <-. split; [intros ? ? []|auto].
  - destruct (skip_null_value skip v).
    + destruct (IH _ H) as [H1 H2]. split.
      * intros k' j Hin. destruct (H1 k' j Hin) as (w & Hw & E). exists w. split; [now right|exact E].
      * cbn. intros Hn. inversion Hn; subst. auto.
    + apply obind_ok in H. destruct H as (j & Hj & H). apply obind_ok in H. destruct H as (ms' & Hms & [= <-]).
      destruct (IH _ Hms) as [H1 H2]. split.
      * intros k' j' [[= -> ->]|Hin]; [exists v; split; [now left|exact Hj]|].
        destruct (H1 k' j' Hin) as (w & Hw & E). exists w. split; [now right|exact E].
      * cbn. intros Hn. inversion Hn; subst. constructor; [|auto]. intros Hin.
        apply in_map_iff in Hin. destruct Hin as ([k' j'] & <- & Hin). destruct (H1 _ _ Hin) as (w & Hw & _).
        apply (in_map fst) in Hw. contradiction.
Qed.

(** The extra members are the members of a map none of whose keys is reserved. *)
Lemma extra_members_map skip names f kvs : forall ms, extra_members skip names f kvs = Ok ms <->
  (forall kv, In kv kvs -> ~ In (fst kv) names) /\ map_members skip f kvs = Ok ms.
Proof.
  induction kvs as [|[k v] kvs IH]; cbn [extra_members map_members]; intros ms.
  - split; [intros H; split; [intros ? []|exact H]|tauto].
  - destruct (in_set k names) eqn:E.
    + apply in_set_true in E. split; [discriminate|]. intros [H _]. destruct (H (k, v) (or_introl eq_refl) E).
    + apply in_set_false in E.
      assert (Hk : (forall kv, In kv ((k, v) :: kvs) -> ~ In (fst kv) names) <->
                   (forall kv, In kv kvs -> ~ In (fst kv) names)).
      { split; [intros H kv Hkv; apply H; now right|]. intros H kv [<- |Hkv]; [exact E|auto]. }
      rewrite Hk. destruct (skip_null_value skip v); [apply IH|]. split.
      * intros H. apply obind_ok in H. destruct H as (j & Hj & H). apply obind_ok in H. destruct H as (ms' & Hms & [= <-]).
        apply IH in Hms. destruct Hms as [H1 H2]. split; [exact H1|]. rewrite Hj. cbn [obind]. now rewrite H2.
      * intros [H1 H]. apply obind_ok in H. destruct H as (j & Hj & H). apply obind_ok in H. destruct H as (ms' & Hms & [= <-]).
        rewrite Hj. cbn [obind]. now rewrite (proj2 (IH _) (conj H1 Hms)).
Qed.

Section WithBackend.
Context (be : backend) (skip : bool).

(** One field: what it contributes. *)
Definition field_members (names : list str) (f : attrs * ty) (v : val) : outcome (list (str * json)) :=
  let '(a, t) := f in
  if omitted skip a v then Ok []
  else if a_extra a then
    match t, v with
    | TMap te, VMap kvs => extra_members skip names (ser be skip te None) kvs
    | _, _ => UB
    end
  else if a_flatten a then
    match t with
    | TRec _ => j <- ser be skip t (Some names) v ;; members_of j
    | _ => UB
    end
  else j <- ser be skip t None v ;; Ok [(serialized_name a, j)].

Lemma ser_fields_cons names f fs v vs ms : ser_fields skip (ser be skip) names (f :: fs) (v :: vs) = Ok ms <->
  exists ms1 ms2, field_members names f v = Ok ms1 /\ ser_fields skip (ser be skip) names fs vs = Ok ms2 /\ ms = ms1 ++ ms2.
Proof.
  destruct f as [a t]. cbn [ser_fields]. unfold field_members, omitted.
  destruct (a_skip_ser a || skip_serialized_field skip a v).
  - split; [intros H; exists [], ms; auto|]. intros (ms1 & ms2 & [= <-] & H & ->). exact H.
  - split.
    + intros H. apply obind_ok in H. destruct H as (ms1 & H1 & H). apply obind_ok in H.
      destruct H as (ms2 & H2 & [= <-]). eauto.
    + intros (ms1 & ms2 & H1 & H2 & ->). rewrite H1. cbn [obind]. rewrite H2. reflexivity.
Qed.

Lemma ser_fields_nil names vs ms : ser_fields skip (ser be skip) names [] vs = Ok ms <-> vs = [] /\ ms = [].
Proof.
  destruct vs; cbn; (split; [intros [= <-]|]); auto; try discriminate.
  - intros [_ ->]. reflexivity.
  - intros [H _]. discriminate.
Qed.

Lemma ser_rec names fs vs flat j : ser be skip (TRec fs) flat (VRec vs) = Ok j ->
  match flat with Some ns => names = ns | None => reserved_field_names fs = Ok names end ->
  exists ms, j = JObj ms /\ ser_fields skip (ser be skip) names fs vs = Ok ms.
Proof.
  cbn [ser]. intros H E. apply obind_ok in H. destruct H as (ns & H1 & H). apply omap_ok in H.
  destruct H as (ms & H & ->). exists ms. split; [reflexivity|].
  assert (ns = names) by (destruct flat; congruence). now subst.
Qed.

Lemma is_rec_typed t v : is_rec t -> typed t v -> exists fs vs, t = TRec fs /\ v = VRec vs.
Proof. destruct t; cbn; try tauto. destruct v; try tauto. eauto. Qed.

Definition key_claim (t : ty) : Prop :=
  forall names v ms, wf t -> typed t v -> ser be skip t (Some names) v = Ok (JObj ms) -> is_rec t ->
    NoDup (all_names t) -> extras t <= 1 -> incl (all_names t) names \/ extras t = 0 ->
    NoDup (map fst ms) /\
    (forall k, In k (map fst ms) -> In k (all_names t) \/ (extras t <> 0 /\ ~ In k names)).

Lemma fields_keys names fs : Forall (fun g => key_claim (snd g)) fs -> all1 (fun g => wf (snd g)) fs -> all1 field_ok fs ->
  NoDup (all_names_of all_names fs) -> extras_of extras fs <= 1 ->
  incl (all_names_of all_names fs) names \/ extras_of extras fs = 0 ->
  forall vs ms, all2 (fun g => typed (snd g)) fs vs -> ser_fields skip (ser be skip) names fs vs = Ok ms ->
    NoDup (map fst ms) /\
    (forall k, In k (map fst ms) -> In k (all_names_of all_names fs) \/ (extras_of extras fs <> 0 /\ ~ In k names)).
Proof.
  induction fs as [|[a t] fs IH]; intros HC Hw Ho Hnd Hex Hin vs ms Hv H.
  - apply ser_fields_nil in H. destruct H as [-> ->]. split; [constructor|intros k []].
  - destruct vs as [|v vs]; [destruct Hv|]. apply ser_fields_cons in H. destruct H as (ms1 & ms2 & H1 & H2 & ->).
    inversion HC as [|? ? HCt HCr]; subst. destruct Hw as [Hwt Hwr]. destruct Ho as [Hot Hor]. destruct Hv as [Hvt Hvr].
    cbn [snd] in *. cbn [all_names_of extras_of] in *.
    set (n1 := if a_extra a then [] else if a_flatten a then all_names t else serialized_name a :: a_aliases a) in *.
    set (e1 := if a_extra a then 1 else if a_flatten a then extras t else 0) in *.
    apply NoDup_app in Hnd. destruct Hnd as (Hn1 & Hn2 & Hdis).
    destruct (IH HCr Hwr Hor Hn2) with (vs := vs) (ms := ms2) as [I1 I2]; [lia| |exact Hvr|exact H2|].
    { destruct Hin as [Hin|Hin]; [left|right; lia]. intros x Hx. apply Hin, in_or_app. now right. }
    assert (F : NoDup (map fst ms1) /\ (forall k, In k (map fst ms1) -> In k n1 \/ (e1 <> 0 /\ ~ In k names))).
    { subst n1 e1. unfold field_members in H1. destruct (omitted skip a v).
      { injection H1 as <-. split; [constructor|intros k []]. }
      destruct (a_extra a).
      - destruct t as [ |it| | | |t|t|n t|te|ts|e|e|gs]; try discriminate.
        destruct v as [b|z|b|b|s| |v|us|m|us]; try discriminate.
        apply extra_members_map in H1. destruct H1 as [Hk H1]. apply map_members_keys in H1. destruct H1 as [H1 H1'].
        split; [apply H1', sorted_keys_nodup, Hvt|]. intros k Hk1. right. split; [discriminate|].
        apply in_map_iff in Hk1. destruct Hk1 as ([k' j] & <- & Hk1). destruct (H1 _ _ Hk1) as (w & Hw & _).
        exact (Hk _ Hw).
      - destruct (a_flatten a) eqn:Ef.
        + destruct t as [ |it| | | |t|t|n t|te|ts|e|e|gs]; try discriminate.
          apply obind_ok in H1. destruct H1 as (j & Hj & Hm). destruct j; try discriminate. injection Hm as <-.
          apply (HCt names v ms); auto; [exact I|lia|].
          destruct Hin as [Hin|Hin]; [left|right; lia]. intros x Hx. apply Hin, in_or_app. now left.
        + apply obind_ok in H1. destruct H1 as (j & Hj & [= <-]). split; [repeat constructor; intros []|].
          intros k [<- |[]]. left. now left. }
    destruct F as [F1 F2]. rewrite map_app. split.
    + apply NoDup_app. split; [exact F1|]. split; [exact I1|]. intros x Hx1 Hx2.
      destruct (F2 x Hx1) as [A|[A A']]; destruct (I2 x Hx2) as [B|[B B']].
      * exact (Hdis x A B).
      * destruct Hin as [Hin|Hin]; [|lia]. apply B', Hin, in_or_app. now left.
      * destruct Hin as [Hin|Hin]; [|lia]. apply A', Hin, in_or_app. now right.
      * lia.
    + intros k Hk. apply in_app_or in Hk. destruct Hk as [Hk|Hk].
      * destruct (F2 k Hk) as [A|[A A']]; [left; apply in_or_app; now left|right; split; [lia|exact A']].
      * destruct (I2 k Hk) as [A|[A A']]; [left; apply in_or_app; now right|right; split; [lia|exact A']].
Qed.

Lemma key_claim_all t : key_claim t.
Proof.
  induction t as [ |it| | | |t IH|t IH|n t IH|t IH|ts IH|e|e|fs IH] using ty_ind0;
    intros names v ms Hw Hv H Hr Hnd Hex Hin; cbn in Hr; try contradiction.
  destruct v as [b|z|b|b|s| |v|vs|m|vs]; cbn in Hv; try contradiction.
  destruct Hw as (Hw & Ho & _).
  destruct (ser_rec names fs vs (Some names) _ H eq_refl) as (ms' & [= <-] & H').
  exact (fields_keys names fs IH Hw Ho Hnd Hex Hin vs ms Hv H').
Qed.

Lemma plain_keys names fs : any_extra_or_flatten fs = false -> NoDup (ser_names_of ser_names fs) ->
  forall vs ms, ser_fields skip (ser be skip) names fs vs = Ok ms ->
  NoDup (map fst ms) /\ incl (map fst ms) (ser_names_of ser_names fs).
Proof.
  induction fs as [|[a t] fs IH]; intros Hany Hnd vs ms H.
  - apply ser_fields_nil in H. destruct H as [-> ->]. split; [constructor|intros k []].
  - destruct vs as [|v vs]; [discriminate H|]. apply ser_fields_cons in H. destruct H as (ms1 & ms2 & H1 & H2 & ->).
    cbn in Hany. apply orb_false_iff in Hany. destruct Hany as [Ha Hany]. apply orb_false_iff in Ha. destruct Ha as [He Hf].
    cbn [ser_names_of] in *. rewrite He, Hf, orb_false_r in *.
    apply NoDup_app in Hnd. destruct Hnd as (Hn1 & Hn2 & Hdis). destruct (IH Hany Hn2 vs ms2 H2) as [I1 I2].
    unfold field_members in H1. rewrite He, Hf in H1. unfold omitted in H1. destruct (a_skip_ser a).
    { injection H1 as <-. split; assumption. }
    cbn [orb] in H1. destruct (skip_serialized_field skip a v).
    { injection H1 as <-. split; [exact I1|]. intros k Hk. apply in_or_app. right. now apply I2. }
    apply obind_ok in H1. destruct H1 as (j & Hj & [= <-]). cbn. split.
    + constructor; [|exact I1]. intros Hk. apply I2 in Hk. eapply Hdis; [now left|exact Hk].
    + intros k [<- |Hk]; [now left|right]. now apply I2.
Qed.

Lemma ser_tuple_ok (f : ty -> val -> outcome json) ts : forall vs js, ser_tuple f ts vs = Ok js ->
  length vs = length ts /\ length js = length ts /\
  (forall i t v j, nth_error ts i = Some t -> nth_error vs i = Some v -> nth_error js i = Some j -> f t v = Ok j).
Proof.
  induction ts as [|t ts IH]; intros [|v vs] js; cbn [ser_tuple]; try discriminate.
  - intros [= <-]. repeat split; auto. intros [|i] t v j; discriminate.
  - intros H. apply obind_ok in H. destruct H as (j & Hj & H). apply obind_ok in H. destruct H as (js' & Hjs & [= <-]).
    destruct (IH _ _ Hjs) as (H1 & H2 & H3). cbn. repeat split; try congruence.
    intros [|i] t0 v0 j0; cbn; [|apply H3]. now intros [= <-] [= <-] [= <-].
Qed.

Lemma ser_tuple_cons (f : ty -> val -> outcome json) t ts v vs js : ser_tuple f (t :: ts) (v :: vs) = Ok js ->
  exists j js', f t v = Ok j /\ ser_tuple f ts vs = Ok js' /\ js = j :: js'.
Proof.
  cbn [ser_tuple]. intros H. apply obind_ok in H. destruct H as (j & Hj & H). apply obind_ok in H.
  destruct H as (js' & Hjs & [= <-]). eauto.
Qed.

(** No object anywhere in the document has two members of the same name. *)
Lemma ser_unique t : wf t -> forall flat v j, typed t v -> ser be skip t flat v = Ok j ->
  match flat, j with
  | Some _, JObj ms => all1 (fun m => keys_unique (snd m)) ms
  | _, _ => keys_unique j
  end.
Proof.
  assert (Hflat : forall t flat v j, ~ is_rec t -> ser be skip t flat v = Ok j -> keys_unique j ->
    match flat, j with Some _, JObj ms => all1 (fun m => keys_unique (snd m)) ms | _, _ => keys_unique j end).
  { intros t0 flat v j _ _ H. destruct flat, j; auto. apply H. }
  induction t as [ |it| | | |t IH|t IH|n t IH|t IH|ts IH|e|e|fs IH] using ty_ind1; intros Hw flat v j Hv H;
    try (eapply Hflat; [|exact H|]; [cbn; tauto|]);
    destruct v as [b|z|b|b|s| |v|vs|m|vs]; cbn [typed] in Hv; try contradiction; cbn [ser] in H;
    try (injection H as <-; exact I); try (injection H as <-; destruct be; exact I).
  - exact (IH Hw None v j Hv H).
  - apply omap_ok in H. destruct H as (js & H & ->). apply mapm_ok in H. cbn. rewrite all1_Forall in *.
    clear Hflat. induction H; [constructor|]. inversion Hv; subst. constructor; [|auto]. eapply (IH Hw None); eassumption.
  - apply omap_ok in H. destruct H as (js & H & ->). apply mapm_ok in H. destruct Hv as [_ Hv]. cbn. rewrite all1_Forall in *.
    clear Hflat. induction H; [constructor|]. inversion Hv; subst. constructor; [|auto]. eapply (IH Hw None); eassumption.
  - apply omap_ok in H. destruct H as (ms & H & ->). apply map_members_keys in H. destruct H as [H1 H2].
    cbn. split; [apply H2, sorted_keys_nodup, Hv|]. apply all1_in. intros [k j] Hin. destruct (H1 _ _ Hin) as (w & Hw' & E).
    cbn. apply (IH Hw None w j); [|exact E]. exact (proj1 (all1_in _ _) (proj2 Hv) _ Hw').
  - apply omap_ok in H. destruct H as (js & H & ->). cbn. clear Hflat. cbn [wf] in Hw. revert vs js Hv H.
    induction ts as [|t ts IHts]; intros [|v vs] js Hv H; cbn in Hv; try contradiction.
    + injection H as <-. exact I.
    + apply ser_tuple_cons in H. destruct H as (j & js' & Hj & Hjs & ->). inversion IH; subst. cbn. split.
      * apply (H1 (proj1 Hw) None v j); tauto.
      * eapply IHts; [assumption|apply Hw|apply Hv|exact Hjs].
  - apply omap_ok in H. destruct H as (s & _ & ->). exact I.
  - apply omap_ok in H. destruct H as (js & H & ->). apply mapm_ok in H. cbn. apply all1_Forall. clear Hflat.
    induction H; constructor; [|assumption]. apply omap_ok in H. destruct H as (s & _ & ->). exact I.
  - destruct Hw as (Hw & Ho & Hser & _).
    assert (Hnm : exists names, match flat with Some ns => names = ns | None => reserved_field_names fs = Ok names end).
    { apply obind_ok in H. destruct H as (ns & Hns & _). exists ns. destruct flat; congruence. }
    destruct Hnm as (names & Hnm). destruct (ser_rec names fs vs flat j H Hnm) as (ms & -> & Hms).
    assert (Hall : all1 (fun m => keys_unique (snd m)) ms).
    { clear H Hnm Hser Hflat. revert vs ms Hv Hms. induction fs as [|[a t] fs IHfs]; intros vs ms Hv Hms.
      - apply ser_fields_nil in Hms. destruct Hms as [-> ->]. exact I.
      - destruct vs as [|v vs]; [destruct Hv|]. apply ser_fields_cons in Hms. destruct Hms as (ms1 & ms2 & H1 & H2 & ->).
        inversion IH as [|? ? IHt IHr]; subst. destruct Hw as [Hwt Hwr]. destruct Ho as [Hot Hor]. destruct Hv as [Hvt Hvr].
        cbn [snd] in *. apply all1_app. split; [|eapply IHfs; eassumption].
        unfold field_members in H1. destruct (omitted skip a v); [injection H1 as <-; exact I|].
        destruct (a_extra a).
        + destruct t as [ |it| | | |t|t|n t|te|ts|e|e|gs]; try discriminate.
          destruct v as [b|z|b|b|s| |v|us|m|us]; try discriminate.
          apply extra_members_map in H1. destruct H1 as [_ H1]. apply map_members_keys in H1. destruct H1 as [H1 _].
          apply all1_in. intros [k j] Hin. destruct (H1 _ _ Hin) as (w & Hw' & E). cbn.
          apply (proj2 IHt te eq_refl Hwt None w j); [|exact E]. exact (proj1 (all1_in _ _) (proj2 Hvt) _ Hw').
        + destruct (a_flatten a).
          * destruct t as [ |it| | | |t|t|n t|te|ts|e|e|gs]; try discriminate.
            apply obind_ok in H1. destruct H1 as (j & Hj & Hm). destruct j; try discriminate. injection Hm as <-.
            exact (proj1 IHt Hwt (Some names) v _ Hvt Hj).
          * apply obind_ok in H1. destruct H1 as (j & Hj & [= <-]). cbn. split; [|exact I].
            exact (proj1 IHt Hwt None v _ Hvt Hj). }
    destruct flat as [ns|]; [exact Hall|]. cbn [keys_unique]. split; [|exact Hall].
    destruct (any_extra_or_flatten fs) eqn:Eany.
    + apply reserved_ok in Hnm; [|exact Eany]. destruct Hnm as [-> [Hnd Hex]]. cbn [all_names extras] in Hnd, Hex.
      eapply (fields_keys _ fs); try eassumption; [|left; apply incl_refl].
      apply Forall_forall. intros g _. apply key_claim_all.
    + exact (proj1 (plain_keys _ fs Eany Hser vs ms Hms)).
Qed.

(* ------------------------------------------------------------------ *)
(** ** Success *)

Lemma mapm_ex {A B} (f : A -> outcome B) l : (exists r, mapm f l = Ok r) <-> forall x, In x l -> exists y, f x = Ok y.
Proof.
  induction l as [|x l IH]; cbn [mapm].
  - split; [intros _ x []|intros _; now exists []].
  - split.
    + intros (r & H). apply obind_ok in H. destruct H as (y & Hy & H). apply obind_ok in H. destruct H as (ys & Hys & _).
      intros x' [<- |Hx]; [eauto|]. apply IH; eauto.
    + intros H. destruct (H x (or_introl eq_refl)) as [y Hy]. rewrite Hy. cbn [obind].
      destruct (proj2 IH) as [ys Hys]; [intros; apply H; now right|]. rewrite Hys. cbn. eauto.
Qed.

Lemma map_members_ex f kvs : (exists r, map_members skip f kvs = Ok r) <->
  forall kv, In kv kvs -> skip_null_value skip (snd kv) = true \/ exists y, f (snd kv) = Ok y.
Proof.
  induction kvs as [|[k v] kvs IH]; cbn [map_members].
  - split; [intros _ x []|intros _; now exists []].
  - destruct (skip_null_value skip v) eqn:E.
    + rewrite IH. split; intros H kv; [intros [<- |Hkv]; [now left|auto]|]. intros Hkv. apply H. now right.
    + split.
      * intros (r & H). apply obind_ok in H. destruct H as (y & Hy & H). apply obind_ok in H. destruct H as (ys & Hys & _).
        intros x' [<- |Hx]; [right; eauto|]. apply IH; eauto.
      * intros H. destruct (H (k, v) (or_introl eq_refl)) as [Hs|[y Hy]]; cbn [snd] in *; [congruence|].
        rewrite Hy. cbn [obind]. destruct (proj2 IH) as [ys Hys]; [intros; apply H; now right|]. rewrite Hys. cbn. eauto.
Qed.

Lemma omap_ex {A B} (f : A -> B) m : (exists b, omap f m = Ok b) <-> exists a, m = Ok a.
Proof. destruct m; cbn; split; intros [x H]; try discriminate; eauto. Qed.

Definition succ_claim (t : ty) : Prop :=
  wf t -> forall flat v, typed t v -> (exists j, ser be skip t flat v = Ok j) <-> writable skip t flat v.

Lemma field_success names a t v : wf t -> field_ok (a, t) -> typed t v -> succ_claim t ->
  (forall te, t = TMap te -> succ_claim te) ->
  (exists ms, field_members names (a, t) v = Ok ms) <-> field_writable skip (writable skip) names (a, t) v.
Proof.
  intros Hw (_ & _ & Hfl & Hexm) Hv Hs Hse. cbn [fst snd] in *. unfold field_members, field_writable.
  destruct (omitted skip a v) eqn:Eo.
  { split; [intros _; now left|intros _; now exists []]. }
  assert (Hno : forall P, (false = true \/ P) <-> P) by (intros P; intuition discriminate).
  rewrite Hno. destruct (a_extra a) eqn:Ee.
  - specialize (Hexm eq_refl). destruct t as [ |it| | | |t|t|n t|te|ts|e|e|gs]; cbn in Hexm; try contradiction.
    destruct v as [b|z|b|b|s| |v|us|m|us]; cbn in Hv; try contradiction.
    rewrite all1_in. split.
    + intros (ms & H). apply extra_members_map in H. destruct H as [H1 H2]. intros kv Hkv. split; [now apply H1|].
      destruct (proj1 (map_members_ex (ser be skip te None) m) (ex_intro _ _ H2) kv Hkv) as [Hn|Hn]; [now left|right].
      apply (Hse te eq_refl Hw None); [|exact Hn]. exact (proj1 (all1_in _ _) (proj2 Hv) _ Hkv).
    + intros H. destruct (proj2 (map_members_ex (ser be skip te None) m)) as [ms Hms].
      * intros kv Hkv. destruct (H kv Hkv) as [_ [Hn|Hn]]; [now left|right].
        apply (Hse te eq_refl Hw None); [|exact Hn]. exact (proj1 (all1_in _ _) (proj2 Hv) _ Hkv).
      * exists ms. apply extra_members_map. split; [|exact Hms]. intros kv Hkv. now apply H.
  - destruct (a_flatten a) eqn:Ef.
    + specialize (Hfl eq_refl). destruct t as [ |it| | | |t|t|n t|te|ts|e|e|gs]; cbn in Hfl; try contradiction.
      rewrite <- (Hs Hw (Some names) v Hv). split.
      * intros (ms & H). apply obind_ok in H. destruct H as (j & Hj & _). eauto.
      * intros (j & Hj). destruct (proj2 (ser_defined be skip (TRec gs) Hw (Some names) v Hv) I j Hj) as [ms ->].
        rewrite Hj. cbn. eauto.
    + rewrite <- (Hs Hw None v Hv). split.
      * intros (ms & H). apply obind_ok in H. destruct H as (j & Hj & _). eauto.
      * intros (j & Hj). rewrite Hj. cbn. eauto.
Qed.

Lemma fields_success names fs :
  Forall (fun g : attrs * ty => succ_claim (snd g) /\ forall te, snd g = TMap te -> succ_claim te) fs ->
  all1 (fun g => wf (snd g)) fs -> all1 field_ok fs -> forall vs, all2 (fun g => typed (snd g)) fs vs ->
  (exists ms, ser_fields skip (ser be skip) names fs vs = Ok ms) <->
  all2 (field_writable skip (writable skip) names) fs vs.
Proof.
  induction fs as [|[a t] fs IH]; intros HC Hw Ho [|v vs] Hv; cbn in Hv; try contradiction.
  - split; [intros _; exact I|intros _; now exists []].
  - inversion HC as [|? ? HCt HCr]; subst. destruct Hw as [Hwt Hwr]. destruct Ho as [Hot Hor]. destruct Hv as [Hvt Hvr].
    cbn [snd] in *. specialize (IH HCr Hwr Hor vs Hvr).
    pose proof (field_success names a t v Hwt Hot Hvt (proj1 HCt) (proj2 HCt)) as Hf.
    cbn [all2]. rewrite <- IH, <- Hf. split.
    + intros (ms & H). apply ser_fields_cons in H. destruct H as (ms1 & ms2 & H1 & H2 & ->). eauto.
    + intros [(ms1 & H1) (ms2 & H2)]. exists (ms1 ++ ms2). apply ser_fields_cons. eauto.
Qed.

Lemma to_string_ex e z : enum_ok e -> of_type (e_ity e) z -> exists s, to_string (e_ity e) (e_tab e) z (e_unknown e) = Ok s.
Proof. apply to_string_defined. Qed.

Lemma ser_success t : succ_claim t.
Proof.
  induction t as [ |it| | | |t IH|t IH|n t IH|t IH|ts IH|e|e|fs IH] using ty_ind1; intros Hw flat v Hv;
    destruct v as [b|z|b|b|s| |v|vs|m|vs]; cbn [typed] in Hv; try contradiction; cbn [ser writable];
    try (split; [intros _; exact I|intros _; eauto; fail]).
  - apply IH; assumption.
  - rewrite omap_ex, mapm_ex, all1_in. rewrite all1_in in Hv.
    split; intros H x Hx; apply (IH Hw None x (Hv x Hx)), H, Hx.
  - destruct Hv as [_ Hv]. rewrite omap_ex, mapm_ex, all1_in. rewrite all1_in in Hv.
    split; intros H x Hx; apply (IH Hw None x (Hv x Hx)), H, Hx.
  - destruct Hv as [_ Hv]. rewrite omap_ex, map_members_ex, all1_in. rewrite all1_in in Hv.
    split; intros H x Hx; (destruct (H x Hx) as [Hn|Hn]; [now left|right]); apply (IH Hw None _ (Hv x Hx)), Hn.
  - rewrite omap_ex. cbn [wf] in Hw. revert vs Hv. induction ts as [|t ts IHts]; intros [|v vs] Hv; cbn in Hv; try contradiction.
    + split; [intros _; exact I|intros _; now exists []].
    + inversion IH as [|? ? IH1 IH2]; subst. cbn [all2]. rewrite <- (IHts IH2 (proj2 Hw) vs (proj2 Hv)).
      rewrite <- (IH1 (proj1 Hw) None v (proj1 Hv)). split.
      * intros (js & H). apply ser_tuple_cons in H. destruct H as (j & js' & Hj & Hjs & ->). eauto.
      * intros [(j & Hj) (js & Hjs)]. cbn [ser_tuple]. rewrite Hj. cbn [obind]. rewrite Hjs. cbn. eauto.
  - split; [intros _; exact I|intros _]. destruct (to_string_ex e z Hw Hv) as [s ->]. cbn. eauto.
  - split; [intros _; exact I|intros _]. apply omap_ex, mapm_ex. intros x Hx. apply filter_In in Hx. destruct Hx as [Hx _].
    destruct (to_string_ex e x Hw) as [s ->]; [|cbn; eauto].
    destruct Hw as (_ & Hw & _). rewrite Forall_forall in Hw. now apply Hw.
  - destruct Hw as (Hw & Ho & _). destruct flat as [names|]; cbn [obind].
    + rewrite omap_ex. now apply fields_success.
    + destruct (any_extra_or_flatten fs) eqn:Eany.
      * destruct (reserved_field_names fs) as [names| |] eqn:En.
        -- cbn [obind]. rewrite omap_ex, fields_success by assumption. apply reserved_ok in En; [|exact Eany].
           destruct En as [-> Hd]. tauto.
        -- split; [intros [j Hj]; discriminate|]. intros [Hd _]. destruct (reserved_distinct fs (Hd eq_refl)) as (ns & E & _). congruence.
        -- now apply reserved_defined in En.
      * rewrite (reserved_none fs Eany). cbn [obind]. rewrite omap_ex, fields_success by assumption.
        assert (Hn : forall ns ns', all2 (field_writable skip (writable skip) ns) fs vs <-> all2 (field_writable skip (writable skip) ns') fs vs).
        { intros ns ns'. clear - Eany. revert vs. induction fs as [|[a t] fs IHfs]; intros [|v vs]; cbn [all2]; try tauto.
          cbn in Eany. apply orb_false_iff in Eany. destruct Eany as [Ea Eany]. apply orb_false_iff in Ea. destruct Ea as [Ee Ef].
          rewrite (IHfs Eany vs). unfold field_writable. rewrite Ee, Ef. tauto. }
        rewrite (Hn [] (all_names (TRec fs))). intuition discriminate.
Qed.

(** On values of the type, serialize succeeds exactly on the writable ones and
    throws on the others. *)
Lemma serialize_succeeds t v : wf t -> typed t v ->
  ((exists j, serialize be skip t v = Ok j) <-> writable skip t None v) /\
  (serialize be skip t v = Throws <-> ~ writable skip t None v).
Proof.
  intros Hw Hv. pose proof (ser_success t Hw None v Hv) as H. split; [exact H|].
  unfold serialize. rewrite <- H. pose proof (proj1 (ser_defined be skip t Hw None v Hv)) as Hd.
  destruct (ser be skip t None v); split; intros E; try discriminate; auto; try congruence.
  - exfalso. apply E. eauto.
  - intros [j Hj]. discriminate.
Qed.

End WithBackend.
