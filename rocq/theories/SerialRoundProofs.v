(** Reading back what was written. *)
From Coq Require Import List NArith ZArith Arith Bool Lia.
From Verif Require Import Base PathModel EnumModel EnumSpec EnumProofs SerialModel SerialSpec SerialLeafProofs SerialBaseProofs
  SerialTypeProofs SerialIntProofs SerialKeyProofs.
Import ListNotations.
Local Open Scope outcome_scope.

Local Notation str := (list N) (only parsing).

(* ------------------------------------------------------------------ *)
(** ** Sequences *)

Lemma Forall2_len {A B} (P : A -> B -> Prop) l m : Forall2 P l m -> length l = length m.
Proof. induction 1; cbn; congruence. Qed.

Lemma seq_loop_rt f d (s : val -> outcome json) vs : forall js acc, mapm s vs = Ok js ->
  (forall v j, In v vs -> s v = Ok j -> f j d = (v, None)) -> seq_loop f d js acc = (acc ++ vs, None).
Proof.
  induction vs as [|v vs IH]; intros js acc H Hf; cbn [mapm] in H.
  - injection H as <-. cbn. now rewrite app_nil_r.
  - apply obind_ok in H. destruct H as (j & Hj & H). apply obind_ok in H. destruct H as (js' & Hjs & [= <-]).
    cbn [seq_loop]. rewrite (Hf v j (or_introl eq_refl) Hj). rewrite (IH js'); [|exact Hjs|intros; apply Hf; auto; now right].
    now rewrite <- app_assoc.
Qed.

Lemma at_index_app pre (j : json) js : at_index (pre ++ j :: js) (length pre) = j.
Proof. unfold at_index. rewrite nth_error_app2 by lia. now rewrite Nat.sub_diag. Qed.

Lemma arr_loop_rt f (s : val -> outcome json) : forall vs ws js pre, mapm s vs = Ok js ->
  Forall2 (fun v w => forall j, s v = Ok j -> f j w = (v, None)) vs ws ->
  arr_loop f (pre ++ js) (length pre) ws = (vs, None).
Proof.
  induction vs as [|v vs IH]; intros ws js pre H Hf; inversion Hf as [|? w ? ws' Hw Hws]; subst; cbn [mapm] in H.
  - reflexivity.
  - apply obind_ok in H. destruct H as (j & Hj & H). apply obind_ok in H. destruct H as (js' & Hjs & [= <-]).
    cbn [arr_loop]. rewrite at_index_app, (Hw j Hj).
    specialize (IH ws' js' (pre ++ [j]) Hjs Hws). rewrite <- app_assoc, app_length, Nat.add_1_r in IH. cbn in IH.
    now rewrite IH.
Qed.

Lemma tuple_rt (f : ty -> json -> val -> dres) (s : ty -> val -> outcome json) : forall ts vs ws js pre,
  ser_tuple s ts vs = Ok js ->
  all3 (fun t v w => forall j, s t v = Ok j -> f t j w = (v, None)) ts vs ws ->
  deser_tuple f (pre ++ js) ts (length pre) ws = (vs, None).
Proof.
  induction ts as [|t ts IH]; intros [|v vs] [|w ws] js pre H Hf; cbn in Hf; try contradiction.
  - reflexivity.
  - apply ser_tuple_cons in H. destruct H as (j & js' & Hj & Hjs & ->). destruct Hf as [Hw Hws].
    cbn [deser_tuple]. rewrite at_index_app, (Hw j Hj).
    specialize (IH vs ws js' (pre ++ [j]) Hjs Hws). rewrite <- app_assoc, app_length, Nat.add_1_r in IH. cbn in IH.
    now rewrite IH.
Qed.

(* ------------------------------------------------------------------ *)
(** ** Maps *)

Lemma sorted_app_lt a : forall b k k', sorted_keys (a ++ b) -> In k (map fst a) -> In k' (map fst b) -> str_ltb k k' = true.
Proof.
  induction a as [|[x v] a IH]; intros b k k' H Hk Hk'; [destruct Hk|]. cbn in H. destruct H as [H Hs].
  destruct Hk as [<- |Hk]; [|eapply IH; eassumption]. apply H. rewrite map_app. apply in_or_app. now right.
Qed.

Lemma map_loop_rt skip f d (s : val -> outcome json) kvs : forall ms acc, map_members skip s kvs = Ok ms ->
  (forall kv, In kv kvs -> skip_null_value skip (snd kv) = false /\ forall j, s (snd kv) = Ok j -> f j d = (snd kv, None)) ->
  sorted_keys (acc ++ kvs) -> map_loop f d ms acc = (acc ++ kvs, None).
Proof.
  induction kvs as [|[k v] kvs IH]; intros ms acc H Hf Hs; cbn [map_members] in H.
  - injection H as <-. cbn. now rewrite app_nil_r.
  - destruct (Hf (k, v) (or_introl eq_refl)) as [Hn Hv]. cbn [snd] in *. rewrite Hn in H.
    apply obind_ok in H. destruct H as (j & Hj & H). apply obind_ok in H. destruct H as (ms' & Hms & [= <-]).
    cbn [map_loop]. rewrite (Hv j Hj).
    assert (Hlt : forall k', In k' (map fst acc) -> str_ltb k' k = true).
    { intros k' Hk'. eapply sorted_app_lt; [exact Hs|exact Hk'|now left]. }
    assert (E : map_emplace k v acc = acc ++ [(k, v)]).
    { unfold map_emplace. rewrite (proj2 (map_find_none k acc)); [now apply map_insert_last|].
      intros Hin. apply Hlt in Hin. now rewrite str_ltb_irrefl in Hin. }
    rewrite E. change (acc ++ (k, v) :: kvs) with (acc ++ [(k, v)] ++ kvs). rewrite app_assoc. apply IH.
    + exact Hms.
    + intros kv Hkv. apply Hf. now right.
    + now rewrite <- app_assoc.
Qed.

Definition unreserved (names : list str) (m : str * json) : bool := negb (in_set (fst m) names).

Lemma extra_loop_filter f d names ms : forall out,
  extra_loop f d names ms out = map_loop f d (filter (unreserved names) ms) out.
Proof.
  induction ms as [|[k j] ms IH]; intros out; cbn [extra_loop filter]; [reflexivity|].
  unfold unreserved at 1. cbn [fst]. destruct (in_set k names); cbn [negb]; [apply IH|].
  cbn [map_loop]. destruct (f j d) as [v [e|]]; [reflexivity|apply IH].
Qed.

Lemma filter_none {A} (p : A -> bool) l : (forall x, In x l -> p x = false) -> filter p l = [].
Proof. induction l as [|x l IH]; cbn; intros H; [reflexivity|]. rewrite (H x) by now left. auto. Qed.

Lemma filter_all {A} (p : A -> bool) l : (forall x, In x l -> p x = true) -> filter p l = l.
Proof. induction l as [|x l IH]; cbn; intros H; [reflexivity|]. rewrite (H x) by now left. f_equal. auto. Qed.

(* ------------------------------------------------------------------ *)
(** ** Enums *)

Lemma enum_rt e z s : enum_ok e -> of_type (e_ity e) z -> In z (map fst (e_tab e)) -> NoDup (map snd (e_tab e)) ->
  to_string (e_ity e) (e_tab e) z (e_unknown e) = Ok s -> from_string (e_tab e) s = Some z.
Proof.
  intros (H1 & H2 & H3) Hz Hin Hnd E. destruct (reflector_lemma (e_ity e) (e_tab e) (e_unknown e) H1 H2 H3) as (_ & _ & _ & _ & H & _).
  destruct (H z Hnd Hin) as (n & E' & F). congruence.
Qed.

Lemma fold_lor_bits l : forall a i, Z.testbit (fold_left Z.lor l a) i = true <->
  Z.testbit a i = true \/ exists x, In x l /\ Z.testbit x i = true.
Proof.
  induction l as [|y l IH]; intros a i; cbn [fold_left].
  - split; [auto|]. intros [H|(x & [] & _)]. exact H.
  - rewrite IH, Z.lor_spec, orb_true_iff. split.
    + intros [[H|H]|(x & Hx & H)]; [now left|right; exists y; split; [now left|exact H]|right; exists x; split; [now right|exact H]].
    + intros [H|(x & [<- |Hx] & H)]; [left; now left|left; now right|right; eauto].
Qed.

Lemma fold_or_bits t l : forall a i, i < ibits t -> Z.testbit (fold_left (es_or t) l a) (Z.of_nat i) = true <->
  Z.testbit a (Z.of_nat i) = true \/ exists x, In x l /\ Z.testbit x (Z.of_nat i) = true.
Proof.
  induction l as [|y l IH]; intros a i Hi; cbn [fold_left].
  - split; [auto|]. intros [H|(x & [] & _)]. exact H.
  - rewrite IH by exact Hi. unfold es_or. rewrite wrap_testbit, Z.lor_spec, orb_true_iff by exact Hi. split.
    + intros [[H|H]|(x & Hx & H)]; [now left|right; exists y; split; [now left|exact H]|right; exists x; split; [now right|exact H]].
    + intros [H|(x & [<- |Hx] & H)]; [left; now left|left; now right|right; eauto].
Qed.

Lemma fold_or_type t l : 1 <= ibits t -> forall a, of_type t a -> of_type t (fold_left (es_or t) l a).
Proof.
  intros Hb. induction l as [|y l IH]; intros a Ha; cbn [fold_left]; [exact Ha|]. apply IH. unfold es_or. now apply wrap_range.
Qed.

Lemma es_test_subset t z x : 1 <= ibits t -> of_type t x ->
  (forall i, i < ibits t -> Z.testbit x (Z.of_nat i) = true -> Z.testbit z (Z.of_nat i) = true) -> es_test t z x = true.
Proof.
  intros Hb Hx H. unfold es_test, es_has_all, es_eq, es_and. apply Z.eqb_eq.
  apply (eq_by_bits t); [exact Hb|now apply wrap_range|exact Hx|]. intros i Hi. rewrite wrap_testbit, Z.land_spec by exact Hi.
  destruct (Z.testbit x (Z.of_nat i)) eqn:E; [|apply andb_false_r]. now rewrite (H i Hi E).
Qed.

Lemma es_test_bits t z x : es_test t z x = true -> forall i, i < ibits t -> Z.testbit x (Z.of_nat i) = true ->
  Z.testbit z (Z.of_nat i) = true.
Proof.
  unfold es_test, es_has_all, es_eq, es_and. intros H i Hi Hx. apply Z.eqb_eq in H. rewrite <- H in Hx.
  rewrite wrap_testbit, Z.land_spec in Hx by exact Hi. now apply andb_true_iff in Hx.
Qed.

Lemma set_loop_rt e xs : enum_ok e -> NoDup (map snd (e_tab e)) -> (forall x, In x xs -> In x (map fst (e_tab e))) ->
  forall js acc, mapm (fun x => omap JStr (to_string (e_ity e) (e_tab e) x (e_unknown e))) xs = Ok js ->
  set_loop e js acc = (fold_left (es_or (e_ity e)) xs acc, None).
Proof.
  intros He Hnd. induction xs as [|x xs IH]; intros Hin js acc H; cbn [mapm] in H.
  - now injection H as <-.
  - apply obind_ok in H. destruct H as (j & Hj & H). apply obind_ok in H. destruct H as (js' & Hjs & [= <-]).
    apply omap_ok in Hj. destruct Hj as (s & Hs & ->). cbn [set_loop fold_left].
    assert (Hx : In x (map fst (e_tab e))) by (apply Hin; now left).
    assert (Hxt : of_type (e_ity e) x) by (destruct He as (_ & Hf & _); rewrite Forall_forall in Hf; auto).
    rewrite (enum_rt e x s He Hxt Hx Hnd Hs). apply IH; [|exact Hjs]. intros; apply Hin; now right.
Qed.

Lemma set_rt e z : enum_ok e -> of_type (e_ity e) z -> union_of_values e z ->
  fold_left (es_or (e_ity e)) (filter (es_test (e_ity e) z) (values (e_tab e))) es_empty = z.
Proof.
  intros He Hz (l & Hl & Ez). pose proof He as (Ht & Hf & _). pose proof (bits_pos _ Ht) as Hb.
  assert (Hz0 : of_type (e_ity e) es_empty) by (apply zero_of_type, Hb).
  apply (eq_by_bits (e_ity e)); [exact Hb|now apply fold_or_type|exact Hz|].
  intros i Hi. apply eq_true_iff_eq. rewrite (fold_or_bits (e_ity e) _ es_empty i Hi). unfold es_empty. rewrite Z.bits_0.
  split.
  - intros [H|(x & Hx & H)]; [discriminate|]. apply filter_In in Hx. destruct Hx as [_ Hx].
    now apply (es_test_bits (e_ity e) z x Hx i Hi).
  - intros H. right. rewrite Ez in H. apply fold_lor_bits in H. rewrite Z.bits_0 in H. destruct H as [H|(x & Hx & H)]; [discriminate|].
    exists x. split; [|exact H]. apply filter_In. split; [apply Hl, Hx|].
    assert (Hxt : of_type (e_ity e) x) by (rewrite Forall_forall in Hf; apply Hf, Hl, Hx).
    apply es_test_subset; [exact Hb|exact Hxt|]. intros k Hk Hxk. rewrite Ez. apply fold_lor_bits. right. eauto.
Qed.

(* ------------------------------------------------------------------ *)
(** ** Fields *)

Lemma accepted_validate a v : accepted a v <-> validate (a_validators a) v = None.
Proof.
  unfold accepted. induction (a_validators a) as [|f l IH]; cbn; [split; [auto|intros _ f []]|]. split.
  - intros H. rewrite (H f (or_introl eq_refl)). apply IH. intros; apply H; now right.
  - destruct (f v) eqn:E; try discriminate. intros H g [<- |Hg]; [exact E|]. now apply IH.
Qed.

Lemma then_validate_accept a v : accepted a v -> then_validate a (v, None) = (v, None).
Proof. intros H. cbn. f_equal. now apply accepted_validate. Qed.

Lemma resolve_none ms a : (forall n, In n (serialized_name a :: a_aliases a) -> find_member n ms = None) ->
  resolve_field_name ms a = None.
Proof.
  intros H. unfold resolve_field_name. unfold has_field at 1. rewrite (H (serialized_name a)) by now left.
  assert (Hal : forall n, In n (a_aliases a) -> find_member n ms = None) by (intros; apply H; now right).
  clear H. induction (a_aliases a) as [|n l IH]; [reflexivity|]. cbn [find]. unfold has_field at 1.
  rewrite (Hal n) by now left. apply IH. intros; apply Hal; now right.
Qed.

Lemma resolve_name ms a j : find_member (serialized_name a) ms = Some j ->
  resolve_field_name ms a = Some (serialized_name a) /\ at_field ms (serialized_name a) = j.
Proof. intros H. unfold resolve_field_name, has_field, at_field. now rewrite H. Qed.

Section WithBackend.
Context (be : backend) (skip : bool).

Definition rt_claim (t : ty) : Prop := forall flat v w j, wf t -> typed t v -> rt be skip t v w -> ser be skip t flat v = Ok j ->
  (v <> VNone -> is_null j = false) /\
  (flat = None -> deser be t j w = (v, None)) /\
  (is_rec t -> extras t = 0 -> forall ms M, j = JObj ms ->
     (forall n, In n (all_names t) -> find_member n M = find_member n ms) -> deser be t (JObj M) w = (v, None)).

Lemma leaf_rt a t v w M : wf t -> typed t v -> rt_claim t ->
  field_rt skip (rt be skip) [] (a, t) v w -> a_skip_deser a = false -> a_extra a = false -> a_flatten a = false ->
  (if omitted skip a v then forall n, In n (serialized_name a :: a_aliases a) -> find_member n M = None
   else exists j, ser be skip t None v = Ok j /\ find_member (serialized_name a) M = Some j) ->
  read_field a (deser be t) M w = (v, None).
Proof.
  intros Hw Hv Hc Hr Hd He Hf HM. unfold field_rt in Hr. rewrite Hd, He, Hf in Hr. unfold read_field.
  destruct (omitted skip a v).
  - rewrite (resolve_none M a HM). destruct (a_default a) as [d|]; [now subst|].
    destruct (a_allow_missing a); [now subst|]. destruct Hr as (Ho & -> & Ha).
    unfold at_field. rewrite (HM (serialized_name a)) by now left.
    destruct t; cbn in Ho; try contradiction. cbn [deser is_null]. now apply then_validate_accept.
  - destruct HM as (j & Hj & HM). destruct (resolve_name M a j HM) as [-> ->].
    assert (Hcase : (v = VNone /\ exists d, a_default a = Some d /\ v = d) \/
                    (rt be skip t v w /\ accepted a v /\ (v = VNone -> a_default a = None))).
    { destruct v; try (right; destruct Hr; repeat split; auto; discriminate).
      destruct (a_default a) as [d|]; [left; eauto|right; tauto]. }
    destruct Hcase as [(-> & d & -> & <-)|(Hrt & Ha & Hn)].
    + destruct t; cbn in Hv; try contradiction. cbn in Hj. injection Hj as <-. reflexivity.
    + destruct (Hc None v w j Hw Hv Hrt Hj) as (Hnull & Hd' & _). rewrite (Hd' eq_refl), (then_validate_accept a v Ha).
      destruct (is_null j) eqn:En; [|reflexivity]. rewrite Hn; [reflexivity|].
      destruct v; auto; exfalso; assert (true = false) by (apply Hnull; discriminate); discriminate.
Qed.

Lemma fields_rt N ns nd fs :
  Forall (fun g : attrs * ty => rt_claim (snd g) /\ forall te, snd g = TMap te -> rt_claim te) fs ->
  all1 (fun g => wf (snd g)) fs -> all1 field_ok fs ->
  NoDup (all_names_of all_names fs) -> extras_of extras fs <= 1 -> incl (all_names_of all_names fs) N ->
  extras_of extras fs = 0 \/ (ns = N /\ nd = N) ->
  forall vs ws ms M, all2 (fun g => typed (snd g)) fs vs -> all3 (field_rt skip (rt be skip) N) fs vs ws ->
  ser_fields skip (ser be skip) ns fs vs = Ok ms ->
  (forall n, In n (all_names_of all_names fs) -> find_member n M = find_member n ms) ->
  (extras_of extras fs <> 0 -> filter (unreserved N) M = filter (unreserved N) ms) ->
  deser_members (deser be) nd M fs ws = (vs, None).
Proof.
  induction fs as [|[a t] fs IH]; intros HC Hw Ho Hnd Hex HN Hnames vs ws ms M Hv Hr H HM HX.
  - destruct vs, ws; cbn in Hr; try contradiction. reflexivity.
  - destruct vs as [|v vs]; [destruct Hv|]. destruct ws as [|w ws]; [destruct Hr|].
    apply ser_fields_cons in H. destruct H as (ms1 & ms2 & H1 & H2 & ->).
    inversion HC as [|? ? HCt HCr]; subst. destruct Hw as [Hwt Hwr]. destruct Ho as [Hot Hor]. destruct Hv as [Hvt Hvr].
    destruct Hr as [Hrt Hrr]. cbn [snd] in *. cbn [all_names_of extras_of] in *.
    set (n1 := if a_extra a then [] else if a_flatten a then all_names t else serialized_name a :: a_aliases a) in *.
    set (e1 := if a_extra a then 1 else if a_flatten a then extras t else 0) in *.
    apply NoDup_app in Hnd. destruct Hnd as (Hn1 & Hn2 & Hdis).
    assert (HN1 : incl n1 N) by (intros x Hx; apply HN, in_or_app; now left).
    assert (HN2 : incl (all_names_of all_names fs) N) by (intros x Hx; apply HN, in_or_app; now right).
    (* names of the rest of the document *)
    destruct (fields_keys be skip ns fs) with (vs := vs) (ms := ms2) as [_ K2]; auto; try lia.
    { apply Forall_forall. intros g _. apply key_claim_all. }
    { destruct Hnames as [E|[-> _]]; [right; lia|left; exact HN2]. }
    (* names of this field *)
    assert (K1 : forall k, In k (map fst ms1) -> In k n1 \/ (e1 <> 0 /\ ~ In k ns)).
    { subst n1 e1. unfold field_members in H1. destruct (omitted skip a v); [injection H1 as <-; intros k []|].
      destruct (a_extra a).
      - destruct t as [ |it| | | |t|t|n t|te|ts|e|e|gs]; try discriminate.
        destruct v as [b|z|b|b|s| |v|us|m|us]; try discriminate.
        apply extra_members_map in H1. destruct H1 as [Hk H1]. apply map_members_keys in H1. destruct H1 as [H1 _].
        intros k Hk1. right. split; [discriminate|].
        apply in_map_iff in Hk1. destruct Hk1 as ([k' j] & <- & Hk1). destruct (H1 _ _ Hk1) as (x & Hx & _).
        exact (Hk _ Hx).
      - destruct (a_flatten a) eqn:Ef.
        + destruct t as [ |it| | | |t|t|n t|te|ts|e|e|gs]; try discriminate.
          apply obind_ok in H1. destruct H1 as (j & Hj & Hm). destruct j; try discriminate. injection Hm as <-.
          apply (key_claim_all be skip (TRec gs) ns v ms Hwt Hvt Hj I Hn1); [lia|].
          destruct Hnames as [E|[-> _]]; [right; lia|left; exact HN1].
        + apply obind_ok in H1. destruct H1 as (j & Hj & [= <-]). intros k [<- |[]]. left. now left. }
    (* what the document says about the rest *)
    assert (Hrest : deser_members (deser be) nd M fs ws = (vs, None)).
    { apply (IH HCr Hwr Hor Hn2) with (ms := ms2); auto; try lia.
      - destruct Hnames as [E|E]; [left; lia|right; exact E].
      - intros n Hn. rewrite (HM n) by (apply in_or_app; now right). rewrite find_member_app.
        rewrite (proj2 (find_member_none n ms1)); [reflexivity|]. intros Hk. destruct (K1 n Hk) as [A|[A B]].
        + exact (Hdis n A Hn).
        + destruct Hnames as [E|[-> _]]; [lia|]. apply B, HN2, Hn.
      - intros E. rewrite HX by lia. rewrite filter_app. rewrite (filter_none _ ms1); [reflexivity|].
        intros [k j] Hk. unfold unreserved. cbn [fst]. apply negb_false_iff, in_set_true.
        destruct (K1 k (in_map fst _ _ Hk)) as [A|[A _]]; [now apply HN1|lia]. }
    assert (Hthis : (if a_skip_deser a then (w, None)
                     else if a_extra a then
                       match t with
                       | TMap te => let '(m, e) := extra_loop (deser be te) (default_of te) nd M [] in (VMap m, e)
                       | _ => (w, Some EStuck)
                       end
                     else if a_flatten a then deser be t (JObj M) w
                     else read_field a (deser be t) M w) = (v, None)).
    2: { cbn [deser_members]. rewrite Hthis, Hrest. reflexivity. }
    destruct (a_skip_deser a) eqn:Ed.
    { unfold field_rt in Hrt. rewrite Ed in Hrt. now subst. }
    destruct (a_extra a) eqn:Ee.
    { unfold field_rt in Hrt. rewrite Ed, Ee in Hrt. subst n1 e1.
      destruct Hnames as [E|[-> ->]]; [lia|].
      destruct t as [ |it| | | |t|t|n t|te|ts|e|e|gs]; try contradiction.
      destruct v as [b|z|b|b|s| |v|us|m|us]; try contradiction.
      rewrite extra_loop_filter, HX by lia. rewrite filter_app.
      rewrite (filter_none _ ms2).
      2: { intros [k j] Hk. unfold unreserved. cbn [fst]. apply negb_false_iff, in_set_true.
           destruct (K2 k (in_map fst _ _ Hk)) as [A|[A _]]; [now apply HN2|lia]. }
      rewrite app_nil_r.
      assert (Hm1 : (m = [] /\ ms1 = []) \/ (extra_members skip N (ser be skip te None) m = Ok ms1 /\
                all1 (fun kv => ~ In (fst kv) N /\ skip_null_value skip (snd kv) = false /\
                                rt be skip te (snd kv) (default_of te)) m)).
      { unfold field_members in H1. rewrite Ee in H1. unfold omitted in H1. destruct (a_skip_ser a) eqn:Es.
        - left. split; [exact Hrt|]. cbn in H1. congruence.
        - cbn [orb] in H1. destruct (skip_serialized_field skip a (VMap m)) eqn:Esk.
          + left. split; [|congruence]. unfold skip_serialized_field, skip_null_field, skip_null_value, skip_empty_field in Esk.
            cbn in Esk. destruct m; [reflexivity|]. destruct (a_emit_null a), (a_skip_if_null a), (a_skip_if_empty a), skip; discriminate.
          + right. split; assumption. }
      destruct Hm1 as [[-> ->]|[Hm1 Hm2]]; [reflexivity|].
      apply extra_members_map in Hm1. destruct Hm1 as [Hk Hm1]. pose proof (map_members_keys _ _ _ _ Hm1) as [Hkk _].
      rewrite filter_all.
      2: { intros [k j] Hkj. unfold unreserved. cbn [fst]. apply negb_true_iff, in_set_false.
           destruct (Hkk _ _ Hkj) as (x & Hx & _). exact (Hk _ Hx). }
      rewrite (map_loop_rt skip _ _ (ser be skip te None) m ms1 [] Hm1); [reflexivity| |exact (proj1 Hvt)].
      intros kv Hkv. pose proof (proj1 (all1_in _ _) Hm2 _ Hkv) as (_ & Hn & Hx). split; [exact Hn|]. intros j Hj.
      apply (proj2 HCt te eq_refl None (snd kv) (default_of te) j Hwt); auto.
      exact (proj1 (all1_in _ _) (proj2 Hvt) _ Hkv). }
    destruct (a_flatten a) eqn:Ef.
    { unfold field_rt in Hrt. rewrite Ed, Ee, Ef in Hrt. destruct Hrt as (Hs & Hex0 & Hrt). subst n1 e1.
      destruct Hot as (_ & _ & Hfl & _). cbn [fst snd] in Hfl. specialize (Hfl Ef).
      destruct (is_rec_typed t v Hfl Hvt) as (gs & us & -> & ->).
      unfold field_members in H1. rewrite Ee, Ef in H1.
      assert (Eom : omitted skip a (VRec us) = false).
      { unfold omitted, skip_serialized_field, skip_null_field, skip_null_value, skip_empty_field. rewrite Hs. cbn.
        destruct (a_emit_null a), (a_skip_if_null a), (a_skip_if_empty a), skip; reflexivity. }
      rewrite Eom in H1. apply obind_ok in H1. destruct H1 as (j & Hj & Hm). destruct j; try discriminate. injection Hm as <-.
      apply (proj2 (proj2 (proj1 HCt (Some ns) (VRec us) w (JObj ms) Hwt Hvt Hrt Hj)) I Hex0 ms M eq_refl).
      intros n Hn. rewrite (HM n) by (apply in_or_app; now left). rewrite find_member_app.
      destruct (find_member n ms); [reflexivity|]. apply find_member_none. intros Hk. destruct (K2 n Hk) as [A|[A B]].
      - exact (Hdis n Hn A).
      - destruct Hnames as [E|[-> _]]; [lia|]. apply B, HN1, Hn. }
    { apply leaf_rt; auto.
      - exact (proj1 HCt).
      - unfold field_rt in *. rewrite Ed, Ee, Ef in *. exact Hrt.
      - subst n1 e1. unfold field_members in H1. rewrite Ee, Ef in H1.
        assert (Hrest' : forall n, In n (serialized_name a :: a_aliases a) -> find_member n ms2 = None).
        { intros n Hn. apply find_member_none. intros Hk. destruct (K2 n Hk) as [A|[A B]].
          - exact (Hdis n Hn A).
          - destruct Hnames as [E|[-> _]]; [lia|]. apply B, HN1, Hn. }
        destruct (omitted skip a v).
        + injection H1 as <-. intros n Hn. rewrite (HM n) by (apply in_or_app; now left). now apply Hrest'.
        + apply obind_ok in H1. destruct H1 as (j & Hj & [= <-]). exists j. split; [exact Hj|].
          rewrite HM by (apply in_or_app; left; now left). cbn. now rewrite str_eqb_refl. }
Qed.

Lemma rt_claim_all t : rt_claim t.
Proof.
  induction t as [ |it| | | |t IH|t IH|n t IH|t IH|ts IH|e|e|fs IH] using ty_ind1; intros flat v w j Hw Hv Hr H;
    destruct v as [b|z|b|b|s| |v|vs|m|vs]; cbn [typed] in Hv; try contradiction;
    try (split; [|split; [|intros []; fail]]); cbn [ser] in H.
  1: injection H as <-; intros _; apply enc_bool_null.
  1: injection H as <-; intros _; cbn [deser]; now rewrite dec_enc_bool.
  1: injection H as <-; intros _; apply enc_int_null.
  1: injection H as <-; intros _; cbn [deser]; now rewrite (dec_enc_int be it z Hw Hv).
  1: injection H as <-; intros _; apply enc_dbl_null.
  1: injection H as <-; intros _; cbn [deser]; now rewrite (dec_enc_dbl be b Hr).
  1: injection H as <-; intros _; apply enc_flt_null.
  1: injection H as <-; intros _; cbn [deser]; now rewrite (dec_enc_flt be b Hr).
  1: injection H as <-; reflexivity.
  1: injection H as <-; reflexivity.
  1: congruence.
  1: injection H as <-; reflexivity.
  1, 2: destruct Hr as [Hn Hr]; destruct (IH None v (default_of t) j Hw Hv Hr H) as (H1 & H2 & _); specialize (H1 Hn).
  1: auto.
  1: intros _; cbn [deser]; rewrite H1, (H2 eq_refl); reflexivity.
  - apply omap_ok in H. destruct H as (js & _ & ->). reflexivity.
  - intros _. apply omap_ok in H. destruct H as (js & H & ->). cbn [deser].
    rewrite (seq_loop_rt _ _ (ser be skip t None) vs js [] H); [reflexivity|].
    intros v j Hin Hj. apply (IH None v (default_of t) j Hw); auto.
    + exact (proj1 (all1_in _ _) Hv v Hin).
    + exact (proj1 (all1_in _ _) Hr v Hin).
  - apply omap_ok in H. destruct H as (js & _ & ->). reflexivity.
  - intros _. apply omap_ok in H. destruct H as (js & H & ->). cbn [rt] in Hr. destruct w as [b|z|b|b|s| |w|ws|m|ws]; try contradiction.
    cbn [deser]. destruct Hv as [Hlen Hv]. apply all2_Forall2 in Hr. pose proof (Forall2_len _ _ _ Hr) as El.
    pose proof (proj1 (mapm_ok _ _ _) H) as Hf. pose proof (Forall2_len _ _ _ Hf) as El2.
    destruct (Nat.ltb_spec (length ws) (length js)) as [Hlt|_]; [lia|].
    pose proof (arr_loop_rt (deser be t) (ser be skip t None) vs ws js [] H) as E. cbn [app length] in E.
    rewrite E; [reflexivity|].
    clear - Hr Hv IH Hw. induction Hr; constructor; [|apply IHHr, Hv]. intros j Hj.
    apply (IH None x y j Hw); auto. apply Hv.
  - apply omap_ok in H. destruct H as (js & _ & ->). reflexivity.
  - intros _. apply omap_ok in H. destruct H as (ms & H & ->). cbn [deser].
    rewrite (map_loop_rt skip _ _ (ser be skip t None) m ms [] H); [reflexivity| |exact (proj1 Hv)].
    intros kv Hin. pose proof (proj1 (all1_in _ _) Hr kv Hin) as [Hn Hx]. split; [exact Hn|]. intros j Hj.
    apply (IH None (snd kv) (default_of t) j Hw); auto. exact (proj1 (all1_in _ _) (proj2 Hv) kv Hin).
  - apply omap_ok in H. destruct H as (js & _ & ->). reflexivity.
  - intros _. apply omap_ok in H. destruct H as (js & H & ->). cbn [rt] in Hr. destruct w as [b|z|b|b|s| |w|ws|m|ws]; try contradiction.
    cbn [deser]. destruct (ser_tuple_ok _ _ _ _ H) as (_ & El & _). rewrite El, Nat.ltb_irrefl.
    pose proof (tuple_rt (deser be) (fun t' => ser be skip t' None) ts vs ws js [] H) as E. cbn [app length] in E.
    rewrite E; [reflexivity|].
    clear - IH Hw Hv Hr. cbn [wf] in Hw. revert vs ws Hv Hr. induction ts as [|t ts IHts]; intros [|v vs] [|w ws] Hv Hr; cbn in Hv, Hr; try contradiction; [exact I|].
    inversion IH as [|? ? IH1 IH2]; subst. cbn [all3]. split.
    + intros j Hj. apply (IH1 None v w j (proj1 Hw)); tauto.
    + apply IHts; [exact IH2|apply Hw|apply Hv|apply Hr].
  - apply omap_ok in H. destruct H as (s & _ & ->). reflexivity.
  - intros _. apply omap_ok in H. destruct H as (s & H & ->). destruct Hr as [Hin Hnd]. cbn [deser].
    now rewrite (enum_rt e z s Hw Hv Hin Hnd H).
  - apply omap_ok in H. destruct H as (js & _ & ->). reflexivity.
  - intros _. apply omap_ok in H. destruct H as (js & H & ->). destruct Hr as [Hu Hnd]. cbn [deser].
    rewrite (set_loop_rt e (filter (es_test (e_ity e) z) (values (e_tab e))) Hw Hnd).
    + now rewrite set_rt.
    + intros x Hx. apply filter_In in Hx. apply Hx.
    + exact H.
  - (* structs *)
    destruct Hw as (Hw & Ho & _). cbn [rt] in Hr. destruct w as [b|z|b|b|s| |w|ws|m|ws]; try contradiction.
    destruct Hr as (Hnd & Hex & Hr).
    assert (Hnames : exists ns, match flat with Some x => ns = x | None => reserved_field_names fs = Ok ns end).
    { apply obind_ok in H. destruct H as (ns & Hns & _). exists ns. destruct flat; congruence. }
    destruct Hnames as (ns & Hns). destruct (ser_rec be skip ns fs vs flat j H Hns) as (ms & -> & Hms).
    destruct (reserved_distinct fs (conj Hnd Hex)) as (nd & Ed & Hnd').
    assert (Hzero : any_extra_or_flatten fs = false -> extras_of extras fs = 0).
    { clear. induction fs as [|[a t] fs IHfs]; intros E; [reflexivity|]. cbn in E. apply orb_false_iff in E.
      destruct E as [Ea E]. apply orb_false_iff in Ea. destruct Ea as [E1 E2]. cbn. rewrite E1, E2. auto. }
    split; [reflexivity|]. split.
    + intros ->. cbn [deser]. rewrite Ed. assert (nd = ns) by congruence. subst ns.
      rewrite (fields_rt (all_names_of all_names fs) nd nd fs IH Hw Ho Hnd Hex (incl_refl _)) with (vs := vs) (ms := ms); auto.
      destruct (any_extra_or_flatten fs) eqn:Eany; [right|left; auto]. split; now apply Hnd'.
    + intros _ Hex0 ms' M [= <-] HM. cbn [deser]. rewrite Ed. cbn [extras all_names] in *.
      rewrite (fields_rt (all_names_of all_names fs) ns nd fs IH Hw Ho Hnd Hex (incl_refl _)) with (vs := vs) (ms := ms); auto.
      lia.
Qed.

Lemma round_trip_lemma t v w j : wf t -> typed t v -> rt be skip t v w ->
  serialize be skip t v = Ok j -> deser be t j w = (v, None).
Proof. intros Hw Hv Hr H. exact (proj1 (proj2 (rt_claim_all t None v w j Hw Hv Hr H)) eq_refl). Qed.

End WithBackend.
