(** The documents that serialize makes are exactly those of the specification. *)
From Coq Require Import List NArith ZArith Arith Bool Lia.
From Verif Require Import Base PathModel EnumModel EnumSpec EnumProofs SerialModel SerialSpec SerialLeafProofs SerialBaseProofs
  SerialTypeProofs SerialKeyProofs SerialRoundProofs SerialDocSpec.
Import ListNotations.
Local Open Scope outcome_scope.

Local Notation str := (list N) (only parsing).

Lemma declared_names t : declared t = all_names t.
Proof. reflexivity. Qed.

Lemma checked_any fs : checked fs <-> any_extra_or_flatten fs = true.
Proof.
  unfold checked, any_extra_or_flatten. rewrite existsb_exists. split.
  - intros (f & Hf & H). exists f. split; [exact Hf|]. apply orb_true_iff. exact H.
  - intros (f & Hf & H). exists f. split; [exact Hf|]. now apply orb_true_iff.
Qed.

Lemma sound_iff fs : sound_names fs <-> (any_extra_or_flatten fs = true -> distinct_names (TRec fs)).
Proof. unfold sound_names. rewrite checked_any. reflexivity. Qed.

(** The reserved names, when there are any. *)
Lemma reserved_sound fs : sound_names fs ->
  (any_extra_or_flatten fs = true /\ reserved_field_names fs = Ok (declared (TRec fs))) \/
  (any_extra_or_flatten fs = false /\ reserved_field_names fs = Ok []).
Proof.
  intros H. rewrite sound_iff in H. destruct (any_extra_or_flatten fs) eqn:E.
  - left. split; [reflexivity|]. apply reserved_ok; [exact E|]. auto.
  - right. split; [reflexivity|]. now apply reserved_none.
Qed.

Lemma reserved_unsound fs : ~ sound_names fs -> reserved_field_names fs = Throws.
Proof.
  intros H. pose proof (reserved_defined fs) as Hd. destruct (reserved_field_names fs) as [names| |] eqn:E; [|reflexivity|congruence].
  exfalso. apply H. rewrite sound_iff. intros Ha. apply (reserved_ok fs Ha) in E. tauto.
Qed.

Lemma sound_dec fs : sound_names fs \/ ~ sound_names fs.
Proof.
  destruct (reserved_field_names fs) as [names| |] eqn:E.
  - left. rewrite sound_iff. intros Ha. apply (reserved_ok fs Ha) in E. tauto.
  - right. intros H. destruct (reserved_sound fs H) as [[_ H']|[_ H']]; congruence.
  - now apply reserved_defined in E.
Qed.

Lemma left_out_iff skip a v : left_out skip a v <-> omitted skip a v = true.
Proof.
  unfold left_out, omitted, skip_serialized_field, skip_null_field, skip_empty_field, skip_null_value.
  rewrite !orb_true_iff. split.
  - intros [H|[(-> & He & H)|(H & Hv)]]; [now left| |].
    + right. left. rewrite He. destruct (a_skip_if_null a); [reflexivity|]. destruct H as [H|H]; [discriminate|]. subst. reflexivity.
    + right. right. rewrite H. destruct Hv as [-> |[-> | ->]]; reflexivity.
  - intros [H|[H|H]]; [now left| |].
    + right. left. destruct (a_emit_null a); [discriminate|]. destruct (a_skip_if_null a); [|apply andb_true_iff in H; destruct H as [-> H]];
        (destruct v; try discriminate; auto).
    + right. right. destruct (a_skip_if_empty a); [|discriminate]. split; [reflexivity|].
      destruct v as [b|z|b|b|[|]| |v|[|]|[|]|vs]; try discriminate; auto.
Qed.

Lemma skip_null_iff skip v : skip_null_value skip v = true <-> skip = true /\ v = VNone.
Proof.
  unfold skip_null_value. rewrite andb_true_iff. split; intros [H1 H2]; (split; [exact H1|]); [|now subst].
  destruct v; try discriminate; reflexivity.
Qed.

(* ------------------------------------------------------------------ *)
(** ** Enumerators *)

Lemma named_iff e z s : enum_ok e -> of_type (e_ity e) z ->
  (to_string (e_ity e) (e_tab e) z (e_unknown e) = Ok s <-> named e z s).
Proof.
  intros (Ht & Hf & Hl) Hz. rewrite (to_string_search _ _ _ _ Ht Hf Hl Hz). unfold named.
  clear Hf Hl. induction (e_tab e) as [|[z' s'] tab IH]; cbn [find_name].
  - split; [intros [= <-]; right; split; [intros []|reflexivity]|].
    intros [(p & q & E & _)|[_ ->]]; [now destruct p|reflexivity].
  - cbn [fst snd]. destruct (Z.eqb_spec z' z) as [-> |N].
    + split.
      * intros [= ->]. left. exists [], tab. split; [reflexivity|intros []].
      * intros [([|[z1 s1] p] & q & E & Hn)|[Hn _]].
        -- now injection E as -> _.
        -- injection E as -> -> _. exfalso. apply Hn. now left.
        -- exfalso. apply Hn. now left.
    + rewrite IH. split.
      * intros [(p & q & -> & Hn)|[Hn ->]].
        -- left. exists ((z', s') :: p), q. split; [reflexivity|]. cbn. intros [H|H]; congruence.
        -- right. split; [|reflexivity]. cbn. intros [H|H]; congruence.
      * intros [([|[z1 s1] p] & q & E & Hn)|[Hn ->]].
        -- injection E as -> _. congruence.
        -- injection E as -> -> ->. left. exists p, q. split; [reflexivity|]. intros H. apply Hn. now right.
        -- right. split; [|reflexivity]. intros H. apply Hn. now right.
Qed.

Lemma enumerator_iff e s z : from_string (e_tab e) s = Some z <-> enumerator e s z.
Proof.
  unfold enumerator. induction (e_tab e) as [|[z' s'] tab IH].
  - split; [discriminate|]. intros (p & q & E & _). now destruct p.
  - rewrite from_string_cons. cbn [fst snd]. destruct (str_eqb s s') eqn:Es.
    + apply str_eqb_true in Es. subst s'. split.
      * intros [= ->]. exists [], tab. split; [reflexivity|intros []].
      * intros ([|[z1 s1] p] & q & E & Hn); [now injection E as -> _|].
        injection E as -> -> _. exfalso. apply Hn. now left.
    + apply str_eqb_false in Es. rewrite IH. split.
      * intros (p & q & -> & Hn). exists ((z', s') :: p), q. split; [reflexivity|]. cbn. intros [H|H]; congruence.
      * intros ([|[z1 s1] p] & q & E & Hn); [injection E as -> -> _; congruence|].
        injection E as -> -> ->. exists p, q. split; [reflexivity|]. intros H. apply Hn. now right.
Qed.

Lemma included_iff t x z : 1 <= ibits t -> of_type t x -> (included t x z <-> es_test t z x = true).
Proof.
  intros Hb Hx. split; [intros H; apply es_test_subset; assumption|].
  intros H i Hi Hf. exact (es_test_bits t z x H i Hi Hf).
Qed.

Lemma picks_filter {A} (P : A -> Prop) (p : A -> bool) xs : (forall x, In x xs -> (P x <-> p x = true)) ->
  forall ys, picks P xs ys <-> ys = filter p xs.
Proof.
  induction xs as [|x xs IH]; intros H ys; cbn [picks filter]; [reflexivity|].
  assert (IH' := IH (fun y Hy => H y (or_intror Hy))). pose proof (H x (or_introl eq_refl)) as Hx.
  destruct (p x) eqn:E.
  - split.
    + intros [(_ & ys' & -> & H1)|[Hn _]]; [|exfalso; apply Hn, Hx; reflexivity]. f_equal. now apply IH'.
    + intros ->. left. split; [now apply Hx|]. exists (filter p xs). split; [reflexivity|]. now apply IH'.
  - split.
    + intros [(Hp & _)|[_ H1]]; [apply Hx in Hp; discriminate|]. now apply IH'.
    + intros ->. right. split; [intros Hp; apply Hx in Hp; discriminate|]. now apply IH'.
Qed.

(* ------------------------------------------------------------------ *)
(** ** The document *)

Section WithBackend.
Context (be : backend) (skip : bool).

Definition doc_claim (t : ty) : Prop := wf t -> forall outer v j, typed t v ->
  (ser be skip t outer v = Ok j <-> doc be skip t outer v j).

Lemma all2_iff {A B} (P Q : A -> B -> Prop) l : forall m, (forall x y, In x l -> (P x y <-> Q x y)) ->
  (all2 P l m <-> all2 Q l m).
Proof.
  induction l as [|x l IH]; intros [|y m] H; cbn; try reflexivity.
  rewrite (H x y (or_introl eq_refl)), (IH m (fun a b Ha => H a b (or_intror Ha))). reflexivity.
Qed.

Lemma mapm_all2 {A B} (f : A -> outcome B) (P : A -> B -> Prop) l : (forall x y, In x l -> (f x = Ok y <-> P x y)) ->
  forall r, mapm f l = Ok r <-> all2 P l r.
Proof.
  intros H r. rewrite mapm_ok, <- all2_Forall2. apply all2_iff. exact H.
Qed.

Lemma omap_iff {A B} (f : A -> B) m b : omap f m = Ok b <-> exists a, b = f a /\ m = Ok a.
Proof.
  split; [intros H; apply omap_ok in H; destruct H as (a & H1 & H2); eauto|].
  intros (a & -> & ->). reflexivity.
Qed.

Lemma map_members_doc f (P : val -> json -> Prop) kvs : (forall kv, In kv kvs -> forall j, f (snd kv) = Ok j <-> P (snd kv) j) ->
  forall ms, map_members skip f kvs = Ok ms <-> map_doc skip P kvs ms.
Proof.
  induction kvs as [|[k v] kvs IH]; intros H ms; cbn [map_members map_doc].
  - split; [now intros [= <-]|now intros ->].
  - assert (IH' := IH (fun kv Hk => H kv (or_intror Hk))). pose proof (H (k, v) (or_introl eq_refl)) as Hv. cbn [snd] in Hv.
    pose proof (skip_null_iff skip v) as Hs. destruct (skip_null_value skip v).
    + rewrite IH'. split; [intros Hd; left; split; [|split; [|exact Hd]]; apply Hs; reflexivity|].
      intros [(_ & _ & Hd)|[Hn _]]; [exact Hd|]. exfalso. apply Hn, Hs. reflexivity.
    + split.
      * intros E. apply obind_ok in E. destruct E as (j & Hj & E). apply obind_ok in E. destruct E as (ms' & Hms & [= <-]).
        right. split; [intros Hn; apply Hs in Hn; discriminate|]. exists j, ms'. split; [reflexivity|]. split; [now apply Hv|now apply IH'].
      * intros [(H1 & H2 & _)|[_ (j & ms' & -> & Hp & Hd)]]; [exfalso; enough (false = true) by discriminate; apply Hs; auto|].
        apply Hv in Hp. apply IH' in Hd. rewrite Hp. cbn [obind]. now rewrite Hd.
Qed.

Lemma field_members_doc names a t v : wf t -> field_ok (a, t) -> typed t v -> doc_claim t ->
  (forall te, t = TMap te -> doc_claim te) ->
  forall ms, field_members be skip names (a, t) v = Ok ms <-> field_doc skip (doc be skip) names (a, t) v ms.
Proof.
  intros Hw (_ & _ & Hfl & Hex) Hv HC HCm ms. cbn [fst snd] in *. unfold field_members, field_doc.
  pose proof (left_out_iff skip a v) as Hl. destruct (omitted skip a v).
  - split; [intros [= <-]; left; split; [now apply Hl|reflexivity]|].
    intros [[_ ->]|[Hn _]]; [reflexivity|]. exfalso. apply Hn, Hl. reflexivity.
  - transitivity (~ left_out skip a v /\
      (if a_extra a
       then match t with
            | TMap te => match v with
                | VMap kvs => (forall k, In k (map fst kvs) -> ~ In k names) /\ map_doc skip (doc be skip te None) kvs ms
                | _ => False end
            | _ => False end
       else if a_flatten a then doc be skip t (Some names) v (JObj ms)
            else exists j, ms = [(wire_name a, j)] /\ doc be skip t None v j)).
    2: { assert (~ left_out skip a v) by (intros H; apply Hl in H; discriminate). tauto. }
    assert (Hn : ~ left_out skip a v) by (intros H; apply Hl in H; discriminate).
    match goal with |- ?L <-> _ /\ ?R => enough (L <-> R) by tauto end. clear Hl Hn.
    destruct (a_extra a).
    + destruct t as [ |it| | | |t|t|n t|te|ts|e|e|gs]; try (now destruct (Hex eq_refl)).
      destruct v as [b|z|b|b|s| |v|vs|m|vs]; cbn in Hv; try contradiction.
      rewrite extra_members_map. rewrite (map_members_doc _ (doc be skip te None)).
      * assert (E : (forall kv, In kv m -> ~ In (fst kv) names) <-> (forall k, In k (map fst m) -> ~ In k names)).
        { split; [|intros H kv Hkv; apply H, in_map, Hkv]. intros H k Hk. apply in_map_iff in Hk. destruct Hk as (kv & <- & Hk). auto. }
        rewrite E. reflexivity.
      * intros kv Hkv j. apply (HCm te eq_refl); [exact Hw|]. destruct Hv as [_ Hv]. exact (proj1 (all1_in _ _) Hv kv Hkv).
    + destruct (a_flatten a).
      * specialize (Hfl eq_refl). destruct t as [ |it| | | |t|t|n t|te|ts|e|e|gs]; try (now destruct Hfl).
        split.
        -- intros H. apply obind_ok in H. destruct H as (j & Hj & Hm). destruct j; try discriminate. injection Hm as ->.
           now apply (HC Hw (Some names) v).
        -- intros H. apply (HC Hw (Some names) v _ Hv) in H. rewrite H. reflexivity.
      * split.
        -- intros H. apply obind_ok in H. destruct H as (j & Hj & [= <-]). exists j. split; [reflexivity|]. now apply (HC Hw None v).
        -- intros (j & -> & H). apply (HC Hw None v _ Hv) in H. rewrite H. reflexivity.
Qed.

Lemma fields_doc names fs : all1 (fun f => wf (snd f)) fs -> all1 field_ok fs ->
  Forall (fun f : attrs * ty => doc_claim (snd f) /\ forall te, snd f = TMap te -> doc_claim te) fs ->
  forall vs ms, all2 (fun f => typed (snd f)) fs vs ->
  (ser_fields skip (ser be skip) names fs vs = Ok ms <->
   exists mss, ms = concat mss /\ all3 (field_doc skip (doc be skip) names) fs vs mss).
Proof.
  induction fs as [|[a t] fs IH]; intros Hw Ho HC vs ms Hv.
  - destruct vs; [|destruct Hv]. cbn [ser_fields]. split.
    + intros [= <-]. exists []. split; [reflexivity|exact I].
    + intros ([|? ?] & -> & H); [reflexivity|destruct H].
  - destruct vs as [|v vs]; [destruct Hv|]. rewrite ser_fields_cons. destruct Hw as [Hwt Hw]. destruct Ho as [Hot Ho].
    destruct Hv as [Hvt Hv]. inversion HC as [|? ? [HC1 HC2] HCr]; subst. cbn [snd] in *.
    specialize (IH Hw Ho HCr vs). split.
    + intros (ms1 & ms2 & H1 & H2 & ->). apply (IH ms2 Hv) in H2. destruct H2 as (mss & -> & H2).
      apply (field_members_doc names a t v Hwt Hot Hvt HC1 HC2) in H1. exists (ms1 :: mss). split; [reflexivity|]. split; assumption.
    + intros ([|ms1 mss] & -> & H); [destruct H|]. destruct H as [H1 H2].
      apply (field_members_doc names a t v Hwt Hot Hvt HC1 HC2) in H1. exists ms1, (concat mss). split; [exact H1|].
      split; [|reflexivity]. apply (IH _ Hv). exists mss. auto.
Qed.

(** Without a flattened or an extra field the names do not matter. *)
Lemma fields_doc_names names names' fs : any_extra_or_flatten fs = false -> forall vs mss,
  all3 (field_doc skip (doc be skip) names) fs vs mss -> all3 (field_doc skip (doc be skip) names') fs vs mss.
Proof.
  induction fs as [|[a t] fs IH]; intros Ha [|v vs] [|ms mss] H; cbn in H |- *; try contradiction; [exact I|].
  cbn in Ha. apply orb_false_iff in Ha. destruct Ha as [Ha Hr]. cbn in Ha. apply orb_false_iff in Ha. destruct Ha as [He Hf].
  destruct H as [H H']. split; [|now apply IH]. rewrite He, Hf in *. exact H.
Qed.

Lemma tuple_doc ts : Forall doc_claim ts -> all1 wf ts -> forall vs js, all2 typed ts vs ->
  (ser_tuple (fun t' => ser be skip t' None) ts vs = Ok js <-> all3 (fun t' => doc be skip t' None) ts vs js).
Proof.
  induction ts as [|t ts IH]; intros HC Hw [|v vs] js Hv; cbn in Hv; try contradiction; cbn [ser_tuple].
  - split; [intros [= <-]; exact I|]. destruct js; [reflexivity|intros []].
  - destruct Hw as [Hw Hwr]. destruct Hv as [Hv Hvr]. inversion HC as [|? ? HC1 HCr]; subst.
    pose proof (HC1 Hw None v) as H1. pose proof (IH HCr Hwr vs) as H2. split.
    + intros E. apply obind_ok in E. destruct E as (j & Hj & E). apply obind_ok in E. destruct E as (js' & Hjs & [= <-]).
      split; [now apply H1|now apply H2].
    + destruct js as [|j js]; [intros []|]. intros [Ha Hb]. apply H1 in Ha; [|exact Hv]. apply H2 in Hb; [|exact Hvr].
      rewrite Ha. cbn [obind]. now rewrite Hb.
Qed.

Lemma doc_claim_all t : doc_claim t.
Proof.
  induction t as [ |it| | | |t IH|t IH|n t IH|t IH|ts IH|en|en|fs IH] using ty_ind1; intros Hw outer v j Hv;
    destruct v as [b|z|b|b|s| |v|vs|m|vs]; cbn in Hv; try contradiction; cbn [ser doc].
  - rewrite <- enc_bool_spec. split; congruence.
  - rewrite <- enc_int_spec. split; congruence.
  - rewrite <- enc_dbl_spec. split; congruence.
  - rewrite <- enc_flt_spec. split; congruence.
  - split; [now intros [= <-]|now intros ->].
  - split; [now intros [= <-]|now intros ->].
  - now apply IH.
  - rewrite omap_iff. assert (E : forall js, mapm (ser be skip t None) vs = Ok js <-> all2 (doc be skip t None) vs js).
    { apply mapm_all2. intros x y Hx. apply IH; [exact Hw|]. exact (proj1 (all1_in _ _) Hv x Hx). }
    split; intros (js & -> & H); exists js; (split; [reflexivity|now apply E]).
  - rewrite omap_iff. destruct Hv as [_ Hv].
    assert (E : forall js, mapm (ser be skip t None) vs = Ok js <-> all2 (doc be skip t None) vs js).
    { apply mapm_all2. intros x y Hx. apply IH; [exact Hw|]. exact (proj1 (all1_in _ _) Hv x Hx). }
    split; intros (js & -> & H); exists js; (split; [reflexivity|now apply E]).
  - rewrite omap_iff. destruct Hv as [_ Hv].
    assert (E : forall ms, map_members skip (ser be skip t None) m = Ok ms <-> map_doc skip (doc be skip t None) m ms).
    { apply map_members_doc. intros kv Hkv j'. apply IH; [exact Hw|]. exact (proj1 (all1_in _ _) Hv kv Hkv). }
    split; intros (ms & -> & H); exists ms; (split; [reflexivity|now apply E]).
  - rewrite omap_iff. split; intros (js & -> & H); exists js; (split; [reflexivity|now apply (tuple_doc ts IH Hw vs js Hv)]).
  - rewrite omap_iff. split; intros (s & -> & H); exists s; (split; [reflexivity|]);
      now apply (named_iff en z s Hw Hv).
  - rewrite omap_iff. pose proof Hw as (Ht & Hf & _). rewrite Forall_forall in Hf.
    assert (E1 : forall xs, picks (fun x => included (e_ity en) x z) (map fst (e_tab en)) xs <->
                            xs = filter (es_test (e_ity en) z) (values (e_tab en))).
    { apply picks_filter. intros x Hx. apply included_iff; [apply bits_pos, Ht|auto]. }
    assert (E2 : forall js, mapm (fun x => omap JStr (to_string (e_ity en) (e_tab en) x (e_unknown en)))
                     (filter (es_test (e_ity en) z) (values (e_tab en))) = Ok js <->
                   all2 (fun x j' => exists s, j' = JStr s /\ named en x s) (filter (es_test (e_ity en) z) (values (e_tab en))) js).
    { apply mapm_all2. intros x y Hx. apply filter_In in Hx. destruct Hx as [Hx _]. rewrite omap_iff.
      split; intros (s & -> & H); exists s; (split; [reflexivity|]); now apply (named_iff en x s Hw (Hf x Hx)). }
    split.
    + intros (js & -> & H). exists (filter (es_test (e_ity en) z) (values (e_tab en))), js. split; [reflexivity|].
      split; [now apply E1|now apply E2].
    + intros (xs & js & -> & Hx & H). apply E1 in Hx. subst xs. exists js. split; [reflexivity|now apply E2].
  - destruct Hw as (Hw & Ho & _). destruct outer as [names|].
    + cbn [obind]. rewrite omap_iff. split.
      * intros (ms & -> & H). split; [discriminate|]. apply (fields_doc names fs Hw Ho IH vs ms Hv) in H.
        destruct H as (mss & -> & H). exists mss. auto.
      * intros (_ & mss & -> & H). exists (concat mss). split; [reflexivity|].
        apply (fields_doc names fs Hw Ho IH vs _ Hv). exists mss. auto.
    + destruct (sound_dec fs) as [Hs|Hs].
      * destruct (reserved_sound fs Hs) as [[Ha ->]|[Ha ->]]; cbn [obind]; rewrite omap_iff; split.
        -- intros (ms & -> & H). split; [auto|]. apply (fields_doc _ fs Hw Ho IH vs ms Hv) in H.
           destruct H as (mss & -> & H). exists mss. auto.
        -- intros (_ & mss & -> & H). exists (concat mss). split; [reflexivity|].
           apply (fields_doc _ fs Hw Ho IH vs _ Hv). exists mss. auto.
        -- intros (ms & -> & H). split; [auto|]. apply (fields_doc _ fs Hw Ho IH vs ms Hv) in H.
           destruct H as (mss & -> & H). exists mss. split; [reflexivity|]. now apply (fields_doc_names [] _ fs Ha).
        -- intros (_ & mss & -> & H). exists (concat mss). split; [reflexivity|].
           apply (fields_doc _ fs Hw Ho IH vs _ Hv). exists mss. split; [reflexivity|]. now apply (fields_doc_names _ [] fs Ha) in H.
      * rewrite (reserved_unsound fs Hs). cbn [obind]. split; [discriminate|]. intros [H _]. exfalso. auto.
Qed.

Lemma document_lemma t v : wf t -> typed t v ->
  (forall j, serialize be skip t v = Ok j <-> doc be skip t None v j) /\
  (serialize be skip t v = Throws <-> forall j, ~ doc be skip t None v j).
Proof.
  intros Hw Hv. assert (H : forall j, serialize be skip t v = Ok j <-> doc be skip t None v j).
  { intros j. now apply doc_claim_all. }
  split; [exact H|]. pose proof (proj1 (ser_defined be skip t Hw None v Hv)) as Hd. unfold serialize in *. split.
  - intros E j Hj. apply H in Hj. congruence.
  - intros Hn. destruct (ser be skip t None v) as [j| |]; [|reflexivity|congruence].
    exfalso. apply (Hn j). now apply H.
Qed.

End WithBackend.
