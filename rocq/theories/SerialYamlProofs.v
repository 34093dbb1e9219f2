(** The two backends side by side. *)
From Coq Require Import String List NArith ZArith Arith Bool Lia.
From Verif Require Import Base PathModel EnumModel EnumSpec EnumProofs ScalarModel ScalarSpec ScalarProofs.
From Verif Require Import SerialModel SerialSpec SerialDocSpec SerialLeafProofs SerialBaseProofs SerialTextProofs SerialYamlSpec.
Import ListNotations.
Local Open Scope outcome_scope.

(* ------------------------------------------------------------------ *)
(** ** Numerals *)

Lemma wide_enough z z' : exists b, of_type (mkity true b) z /\ of_type (mkity true b) z'.
Proof.
  exists (S (Z.to_nat (Z.abs z + Z.abs z' + 1))). unfold of_type, ity_min, ity_max. cbn [isigned ibits].
  assert (H : (Z.abs z + Z.abs z' + 1 < 2 ^ (Z.abs z + Z.abs z' + 1))%Z) by (apply Z.pow_gt_lin_r; lia).
  rewrite Nat2Z.inj_succ, Z2Nat.id by lia. replace (Z.succ (Z.abs z + Z.abs z' + 1) - 1)%Z with (Z.abs z + Z.abs z' + 1)%Z by lia.
  lia.
Qed.

Lemma means_signed sg s z : int_means sg s z -> int_means true s z.
Proof.
  intros (sign & body & tail & n & E & Hw & Hm & H). exists sign, body, tail, n.
  split; [exact E|]. split; [exact Hw|]. split; [exact Hm|]. intuition.
Qed.

Lemma means_unique sg s z z' : int_means sg s z -> int_means sg s z' -> z = z'.
Proof.
  intros H H'. apply means_signed in H, H'. destruct (wide_enough z z') as (b & Hb & Hb').
  assert (E : text_int (mkity true b) s = Some z) by now apply text_int_spec.
  assert (E' : text_int (mkity true b) s = Some z') by now apply text_int_spec. congruence.
Qed.

Lemma decimal_means z s : decimal z s -> int_means true s z.
Proof.
  intros H. apply int_text_decimal in H. subst s. destruct (wide_enough z z) as (b & Hb & _).
  apply (text_int_text (mkity true b)) in Hb. apply text_int_spec in Hb. apply Hb.
Qed.

Lemma decimal_unique z z' s s' : decimal z s -> decimal z' s' -> (z = z' <-> s = s').
Proof.
  intros H H'. split.
  - intros <-. apply int_text_decimal in H, H'. congruence.
  - intros <-. apply decimal_means in H, H'. exact (means_unique _ _ _ _ H H').
Qed.

Lemma yaml_int_lemma ft t out : int_type t ->
  (forall s z, of_type t z -> int_means (isigned t) s z -> deser (Yaml ft) (TInt t) (JStr s) out = (VInt z, None)) /\
  (forall j, (forall s z, j = JStr s -> int_means (isigned t) s z -> ~ of_type t z) ->
     deser (Yaml ft) (TInt t) j out = (out, Some EDeser)).
Proof.
  intros Ht. split.
  - intros s z Hz Hm. cbn. rewrite (proj2 (text_int_spec t s z)); [reflexivity|auto].
  - intros j Hj. cbn [deser]. destruct (dec_int (Yaml ft) t j) as [z|] eqn:E; [|reflexivity]. exfalso.
    apply dec_int_spec in E as [Hz (s & -> & Hm)]; [|exact Ht]. exact (Hj s z eq_refl Hm Hz).
Qed.

Lemma yaml_int_written ft skip t z : (forall j, serialize (Yaml ft) skip (TInt t) (VInt z) = Ok j <->
  exists s, j = JStr s /\ decimal z s).
Proof.
  intros j. cbn. split.
  - intros [= <-]. eexists. split; [reflexivity|]. now apply int_text_decimal.
  - intros (s & -> & Hs). apply int_text_decimal in Hs. now subst s.
Qed.

Lemma yaml_bool_lemma ft skip out :
  (forall b, serialize (Yaml ft) skip TBool (VBool b) = Ok (JStr (codes (if b then "true" else "false")%string))) /\
  (forall s b, In s (spellings b) -> deser (Yaml ft) TBool (JStr s) out = (VBool b, None)) /\
  (forall j, (forall s b, j = JStr s -> ~ In s (spellings b)) -> deser (Yaml ft) TBool j out = (out, Some EDeser)).
Proof.
  split; [|split].
  - now intros [].
  - intros s b H. cbn. now rewrite (proj2 (text_bool_spec s b) H).
  - intros j Hj. cbn [deser]. destruct (dec_bool (Yaml ft) j) as [b|] eqn:E; [|reflexivity]. exfalso.
    apply dec_bool_spec in E as (s & -> & Hs). exact (Hj s b eq_refl Hs).
Qed.

(* ------------------------------------------------------------------ *)
(** ** The same document *)

Section Both.
Context (fp : fpconv) (ft : fptext).

Fixpoint yaml_of (j : json) : json :=
  match j with
  | JNull => JNull
  | JBool b => JStr (bool_text b)
  | JInt z => JStr (int_text z)
  | JDbl b => JStr (dbl_text ft b)
  | JStr s => JStr s
  | JArr js => JArr (map yaml_of js)
  | JObj ms => JObj (map (fun m => (fst m, yaml_of (snd m))) ms)
  end.

Definition ymembers := map (fun m : list N * json => (fst m, yaml_of (snd m))).

Lemma restated_spec j : forall j', restated ft j j' <-> j' = yaml_of j.
Proof.
  induction j as [|b|z|b|s|js IH|ms IH] using json_ind0; intros j'; cbn [restated yaml_of]; try reflexivity.
  - destruct b; reflexivity.
  - split.
    + intros (s & -> & Hs). apply int_text_decimal in Hs. now subst s.
    + intros ->. eexists. split; [reflexivity|]. now apply int_text_decimal.
  - assert (E : forall js', all2 (restated ft) js js' <-> js' = map yaml_of js).
    { induction IH as [|j js Hj _ IHjs]; intros [|x js']; cbn; try (split; [contradiction|discriminate]); [tauto|].
      rewrite Hj, IHjs. split; [intros [-> ->]; reflexivity|intros [= -> ->]; auto]. }
    split; [intros (js' & -> & H); apply E in H; now subst|intros ->; eexists; split; [reflexivity|now apply E]].
  - assert (E : forall ms', all2 (fun m m' => fst m = fst m' /\ restated ft (snd m) (snd m')) ms ms' <-> ms' = ymembers ms).
    { induction IH as [|j ms Hj _ IHms]; intros [|[k' x] ms']; cbn; try (split; [contradiction|discriminate]); [tauto|].
      rewrite Hj, IHms. split; [intros [[<- ->] ->]; reflexivity|intros [= -> -> ->]; auto]. }
    split; [intros (ms' & -> & H); apply E in H; now subst|intros ->; eexists; split; [reflexivity|now apply E]].
Qed.

(** *** Writing *)

Lemma omap_omap {A B C} (f : A -> B) (g : B -> C) m : omap g (omap f m) = omap (fun x => g (f x)) m.
Proof. now destruct m. Qed.

Lemma mapm_yaml {A} (f g : A -> outcome json) l : (forall x, In x l -> g x = omap yaml_of (f x)) ->
  mapm g l = omap (map yaml_of) (mapm f l).
Proof.
  induction l as [|x l IH]; intros H; [reflexivity|]. cbn [mapm]. rewrite (H x) by now left.
  rewrite IH by (intros y Hy; apply H; now right). destruct (f x); cbn; try reflexivity. now destruct (mapm f l).
Qed.

Lemma map_members_yaml skip (f g : val -> outcome json) m : (forall v, g v = omap yaml_of (f v)) ->
  map_members skip g m = omap ymembers (map_members skip f m).
Proof.
  intros H. induction m as [|[k v] m IH]; [reflexivity|]. cbn [map_members]. destruct (skip_null_value skip v); [exact IH|].
  rewrite H, IH. destruct (f v); cbn; try reflexivity. now destruct (map_members skip f m).
Qed.

Lemma extra_members_yaml skip names (f g : val -> outcome json) m : (forall v, g v = omap yaml_of (f v)) ->
  extra_members skip names g m = omap ymembers (extra_members skip names f m).
Proof.
  intros H. induction m as [|[k v] m IH]; [reflexivity|]. cbn [extra_members]. destruct (in_set k names); [reflexivity|].
  destruct (skip_null_value skip v); [exact IH|].
  rewrite H, IH. destruct (f v); cbn; try reflexivity. now destruct (extra_members skip names f m).
Qed.

Lemma ser_yaml skip t : no_float t -> forall flat v,
  ser (Yaml ft) skip t flat v = omap yaml_of (ser (Json fp) skip t flat v).
Proof.
  unfold no_float.
  induction t as [ |it| | | |t IH|t IH|n t IH|t IH|ts IH|e|e|fs IH] using ty_ind1; intros Hn flat v; destruct Hn as [Hn0 Hn];
    destruct v as [b|z|b|b|s| |v|vs|m|vs]; try reflexivity; cbn [ser].
  - now destruct Hn0.
  - now apply IH.
  - rewrite (mapm_yaml (ser (Json fp) skip t None)) by (intros x _; now apply IH). now rewrite !omap_omap.
  - rewrite (mapm_yaml (ser (Json fp) skip t None)) by (intros x _; now apply IH). now rewrite !omap_omap.
  - rewrite (map_members_yaml skip (ser (Json fp) skip t None)) by (intros x; now apply IH). now rewrite !omap_omap.
  - assert (E : ser_tuple (fun t' => ser (Yaml ft) skip t' None) ts vs =
                omap (map yaml_of) (ser_tuple (fun t' => ser (Json fp) skip t' None) ts vs)).
    { clear Hn0. revert vs Hn. induction IH as [|t ts Ht _ IHts]; intros [|v vs] Hn; try reflexivity. destruct Hn as [Hn1 Hn2].
      cbn [ser_tuple]. rewrite (Ht Hn1), (IHts vs Hn2). destruct (ser (Json fp) skip t None v); cbn; try reflexivity.
      now destruct (ser_tuple _ ts vs). }
    rewrite E. now rewrite !omap_omap.
  - rewrite omap_omap. reflexivity.
  - rewrite omap_omap.
    rewrite (mapm_yaml (fun x => omap JStr (to_string (e_ity e) (e_tab e) x (e_unknown e)))) at 1
      by (intros x _; now rewrite omap_omap).
    rewrite omap_omap. reflexivity.
  - assert (E : forall names, ser_fields skip (ser (Yaml ft) skip) names fs vs =
                omap ymembers (ser_fields skip (ser (Json fp) skip) names fs vs)).
    { intros names. clear Hn0. revert vs Hn. induction IH as [|[a t] fs Ht _ IHfs]; intros [|v vs] Hn; try reflexivity.
      destruct Hn as [Hn1 Hn2]. cbn [snd] in *. destruct Ht as [Ht Hm].
      cbn [ser_fields]. destruct (a_skip_ser a || skip_serialized_field skip a v); [now apply IHfs|].
      rewrite (IHfs vs Hn2).
      assert (E : (if a_extra a then match t, v with TMap te, VMap kvs => extra_members skip names (ser (Yaml ft) skip te None) kvs | _, _ => UB end
                   else if a_flatten a then match t with TRec _ => j <- ser (Yaml ft) skip t (Some names) v ;; members_of j | _ => UB end
                   else j <- ser (Yaml ft) skip t None v ;; Ok [(serialized_name a, j)]) =
                  omap ymembers
                  (if a_extra a then match t, v with TMap te, VMap kvs => extra_members skip names (ser (Json fp) skip te None) kvs | _, _ => UB end
                   else if a_flatten a then match t with TRec _ => j <- ser (Json fp) skip t (Some names) v ;; members_of j | _ => UB end
                   else j <- ser (Json fp) skip t None v ;; Ok [(serialized_name a, j)])).
      { destruct (a_extra a); [|destruct (a_flatten a)].
        - destruct t; try reflexivity. destruct v; try reflexivity. apply extra_members_yaml.
          intros x. apply (Hm t eq_refl). apply Hn1.
        - destruct t; try reflexivity. rewrite (Ht Hn1). destruct (ser (Json fp) skip (TRec fs0) (Some names) v) as [j| |]; try reflexivity.
          now destruct j.
        - rewrite (Ht Hn1). now destruct (ser (Json fp) skip t None v). }
      rewrite E. clear E.
      set (ms := if a_extra a then _ else _). destruct ms as [ms| |]; cbn [omap obind]; try reflexivity.
      destruct (ser_fields skip (ser (Json fp) skip) names fs vs); cbn [omap obind]; try reflexivity.
      unfold ymembers. now rewrite map_app. }
    destruct (match flat with Some names => Ok names | None => reserved_field_names fs end); cbn [obind]; try reflexivity.
    rewrite E, !omap_omap. reflexivity.
Qed.

Lemma both_written skip t v : no_float t ->
  (forall j, serialize (Json fp) skip t v = Ok j -> exists j', restated ft j j' /\ serialize (Yaml ft) skip t v = Ok j') /\
  (serialize (Json fp) skip t v = Throws <-> serialize (Yaml ft) skip t v = Throws).
Proof.
  intros Hn. unfold serialize. rewrite (ser_yaml skip t Hn). split.
  - intros j ->. exists (yaml_of j). split; [now apply restated_spec|reflexivity].
  - destruct (ser (Json fp) skip t None v); cbn; split; congruence.
Qed.

(** *** Reading *)

Lemma yaml_null j : is_null (yaml_of j) = is_null j.
Proof. now destruct j. Qed.

Lemma yaml_find n ms : find_member n (ymembers ms) = match find_member n ms with Some j => Some (yaml_of j) | None => None end.
Proof. induction ms as [|[k j] ms IH]; [reflexivity|]. cbn. now destruct (str_eqb k n). Qed.

Lemma yaml_at_field n ms : at_field (ymembers ms) n = yaml_of (at_field ms n).
Proof. unfold at_field. rewrite yaml_find. now destruct (find_member n ms). Qed.

Lemma yaml_has_field n ms : has_field (ymembers ms) n = has_field ms n.
Proof. unfold has_field. rewrite yaml_find. now destruct (find_member n ms). Qed.

Lemma yaml_at_index js i : at_index (map yaml_of js) i = yaml_of (at_index js i).
Proof. unfold at_index. rewrite nth_error_map. now destruct (nth_error js i). Qed.

Lemma yaml_resolve a ms : resolve_field_name (ymembers ms) a = resolve_field_name ms a.
Proof.
  unfold resolve_field_name. rewrite yaml_has_field. destruct (has_field ms (serialized_name a)); [reflexivity|].
  induction (a_aliases a) as [|n l IH]; [reflexivity|]. cbn [find]. now rewrite yaml_has_field, IH.
Qed.

(** What [f] reads, [g] reads from the YAML document. *)
Definition follows (f g : json -> val -> dres) : Prop :=
  forall j w v, f j w = (v, None) -> g (yaml_of j) w = (v, None).

Lemma then_validate_follows a f g j w v : follows f g ->
  then_validate a (f j w) = (v, None) -> then_validate a (g (yaml_of j) w) = (v, None).
Proof.
  intros Hf H. destruct (f j w) as [x [e|]] eqn:E; cbn in H; [discriminate|]. injection H as -> Hv.
  rewrite (Hf _ _ _ E). cbn. now rewrite Hv.
Qed.

Lemma seq_follows f g d js : follows f g -> forall out vs,
  seq_loop f d js out = (vs, None) -> seq_loop g d (map yaml_of js) out = (vs, None).
Proof.
  intros Hf. induction js as [|j js IH]; intros out vs H; [exact H|]. cbn [seq_loop map] in *.
  destruct (f j d) as [v [e|]] eqn:E; [discriminate|]. rewrite (Hf _ _ _ E). now apply IH.
Qed.

Lemma arr_follows f g js : follows f g -> forall vs i r,
  arr_loop f js i vs = (r, None) -> arr_loop g (map yaml_of js) i vs = (r, None).
Proof.
  intros Hf. induction vs as [|v vs IH]; intros i r H; [exact H|]. cbn [arr_loop] in *. rewrite yaml_at_index.
  destruct (f (at_index js i) v) as [v' [e|]] eqn:E; [discriminate|]. rewrite (Hf _ _ _ E).
  destruct (arr_loop f js (S i) vs) as [r' e] eqn:Er. injection H as <- ->. now rewrite (IH _ _ Er).
Qed.

Lemma map_follows f g d ms : follows f g -> forall out m,
  map_loop f d ms out = (m, None) -> map_loop g d (ymembers ms) out = (m, None).
Proof.
  intros Hf. induction ms as [|[k j] ms IH]; intros out m H; [exact H|]. cbn [map_loop ymembers map fst snd] in *.
  destruct (f j d) as [v [e|]] eqn:E; [discriminate|]. rewrite (Hf _ _ _ E). now apply IH.
Qed.

Lemma extra_follows f g d names ms : follows f g -> forall out m,
  extra_loop f d names ms out = (m, None) -> extra_loop g d names (ymembers ms) out = (m, None).
Proof.
  intros Hf. induction ms as [|[k j] ms IH]; intros out m H; [exact H|]. cbn [extra_loop ymembers map fst snd] in *.
  destruct (in_set k names); [now apply IH|].
  destruct (f j d) as [v [e|]] eqn:E; [discriminate|]. rewrite (Hf _ _ _ E). now apply IH.
Qed.

Lemma patch_extra_follows f g d names ms : follows f g -> forall out m,
  patch_extra_loop f d names ms out = (m, None) -> patch_extra_loop g d names (ymembers ms) out = (m, None).
Proof.
  intros Hf. induction ms as [|[k j] ms IH]; intros out m H; [exact H|]. cbn [patch_extra_loop ymembers map fst snd] in *.
  destruct (in_set k names); [now apply IH|]. destruct (map_find k out) as [w|].
  - destruct (f j w) as [v [e|]] eqn:E; [discriminate|]. rewrite (Hf _ _ _ E). now apply IH.
  - destruct (f j d) as [v [e|]] eqn:E; [discriminate|]. rewrite (Hf _ _ _ E). now apply IH.
Qed.

Lemma tuple_follows (f g : ty -> json -> val -> dres) js ts : Forall (fun t => follows (f t) (g t)) ts -> forall vs i r,
  deser_tuple f js ts i vs = (r, None) -> deser_tuple g (map yaml_of js) ts i vs = (r, None).
Proof.
  induction 1 as [|t ts Ht _ IH]; intros [|v vs] i r H; try exact H. cbn [deser_tuple] in *. rewrite yaml_at_index.
  destruct (f t (at_index js i) v) as [v' [e|]] eqn:E; [discriminate|]. rewrite (Ht _ _ _ E).
  destruct (deser_tuple f js ts (S i) vs) as [r' e] eqn:Er. injection H as <- ->. now rewrite (IH _ _ _ Er).
Qed.

Lemma set_follows e js : forall acc z, set_loop e js acc = (z, None) -> set_loop e (map yaml_of js) acc = (z, None).
Proof.
  induction js as [|j js IH]; intros acc z H; [exact H|]. destruct j; cbn [set_loop map yaml_of] in *; try discriminate.
  destruct (from_string (e_tab e) s); [now apply IH|discriminate].
Qed.

Lemma elements_follows (f g : ty -> json -> val -> dres) js fs : Forall (fun h => follows (f (snd h)) (g (snd h))) fs -> forall vs i r,
  deser_elements f js fs i vs = (r, None) -> deser_elements g (map yaml_of js) fs i vs = (r, None).
Proof.
  induction 1 as [|[a t] fs Ht _ IH]; intros [|v vs] i r H; try exact H. cbn [deser_elements snd] in *. rewrite yaml_at_index.
  destruct (a_skip_deser a).
  { destruct (deser_elements f js fs i vs) as [r' e] eqn:Er. injection H as <- ->. now rewrite (IH _ _ _ Er). }
  destruct (a_extra a || a_flatten a); [discriminate|].
  destruct (then_validate a (f t (at_index js i) v)) as [v' [e|]] eqn:E; [discriminate|].
  rewrite (then_validate_follows _ _ _ _ _ _ Ht E).
  destruct (deser_elements f js fs (S i) vs) as [r' e] eqn:Er. injection H as <- ->. now rewrite (IH _ _ _ Er).
Qed.

Lemma read_field_follows a f g ms v r : follows f g ->
  read_field a f ms v = (r, None) -> read_field a g (ymembers ms) v = (r, None).
Proof.
  intros Hf. unfold read_field. rewrite yaml_resolve. destruct (resolve_field_name ms a) as [n|].
  - cbn zeta. rewrite yaml_at_field, yaml_null. destruct (is_null (at_field ms n)), (a_default a); auto; now apply then_validate_follows.
  - destruct (a_default a); auto. destruct (a_allow_missing a); auto. rewrite yaml_at_field. now apply then_validate_follows.
Qed.

Lemma patch_field_follows a f g ms v r : follows f g ->
  patch_field a f ms v = (r, None) -> patch_field a g (ymembers ms) v = (r, None).
Proof.
  intros Hf. unfold patch_field. rewrite yaml_resolve. destruct (resolve_field_name ms a) as [n|]; [|auto].
  cbn zeta. rewrite yaml_at_field, yaml_null. destruct (is_null (at_field ms n)), (a_default a); auto; now apply then_validate_follows.
Qed.

Definition member_follows (f g : ty -> json -> val -> dres) (h : attrs * ty) : Prop :=
  follows (f (snd h)) (g (snd h)) /\ forall te, snd h = TMap te -> follows (f te) (g te).

Lemma members_follows (f g : ty -> json -> val -> dres) names ms fs : Forall (member_follows f g) fs -> forall vs r,
  deser_members f names ms fs vs = (r, None) -> deser_members g names (ymembers ms) fs vs = (r, None).
Proof.
  induction 1 as [|[a t] fs [Ht Hm] _ IH]; intros [|v vs] r H; try exact H. cbn [deser_members snd] in *.
  set (one := if a_skip_deser a then _ else _) in H. destruct one as [v' [e|]] eqn:E; [discriminate|]. subst one.
  destruct (deser_members f names ms fs vs) as [r' e] eqn:Er. injection H as <- ->. rewrite (IH _ _ Er).
  assert (E2 : (if a_skip_deser a then (v, None)
          else if a_extra a then
            match t with
            | TMap te =>
                let '(m, e) := extra_loop (g te) (default_of te) names (ymembers ms) [] in (VMap m, e)
            | _ => (v, Some EStuck)
            end
          else if a_flatten a then g t (JObj (ymembers ms)) v
          else read_field a (g t) (ymembers ms) v) = (v', None)); [|now rewrite E2].
  destruct (a_skip_deser a); [exact E|]. destruct (a_extra a); [|destruct (a_flatten a)].
  - destruct t; try discriminate. destruct (extra_loop (f t) (default_of t) names ms []) as [m e] eqn:Ee. injection E as <- ->.
    now rewrite (extra_follows _ _ _ _ _ (Hm t eq_refl) _ _ Ee).
  - exact (Ht _ _ _ E).
  - exact (read_field_follows _ _ _ _ _ _ Ht E).
Qed.

Lemma patch_members_follows (f g : ty -> json -> val -> dres) names ms fs : Forall (member_follows f g) fs -> forall vs r,
  patch_members f names ms fs vs = (r, None) -> patch_members g names (ymembers ms) fs vs = (r, None).
Proof.
  induction 1 as [|[a t] fs [Ht Hm] _ IH]; intros [|v vs] r H; try exact H. cbn [patch_members snd] in *.
  set (one := if a_skip_deser a then _ else _) in H. destruct one as [v' [e|]] eqn:E; [discriminate|]. subst one.
  destruct (patch_members f names ms fs vs) as [r' e] eqn:Er. injection H as <- ->. rewrite (IH _ _ Er).
  assert (E2 : (if a_skip_deser a then (v, None)
          else if a_extra a then
            match t, v with
            | TMap te, VMap m =>
                let '(m', e) := patch_extra_loop (g te) (default_of te) names (ymembers ms) m in (VMap m', e)
            | _, _ => (v, Some EStuck)
            end
          else if a_flatten a then g t (JObj (ymembers ms)) v
          else patch_field a (g t) (ymembers ms) v) = (v', None)); [|now rewrite E2].
  destruct (a_skip_deser a); [exact E|]. destruct (a_extra a); [|destruct (a_flatten a)].
  - destruct t; try discriminate. destruct v; try discriminate.
    destruct (patch_extra_loop (f t) (default_of t) names ms kvs) as [m e] eqn:Ee. injection E as <- ->.
    now rewrite (patch_extra_follows _ _ _ _ _ (Hm t eq_refl) _ _ Ee).
  - exact (Ht _ _ _ E).
  - exact (patch_field_follows _ _ _ _ _ _ Ht E).
Qed.

Lemma every_all1 {A} (P : A -> Prop) l : all1 P l -> Forall P l.
Proof. induction l as [|x l IH]; intros H; constructor; [apply H|apply IH, H]. Qed.

Lemma deser_follows t : wf t -> no_reals t -> follows (deser (Json fp) t) (deser (Yaml ft) t).
Proof.
  unfold no_reals.
  induction t as [ |it| | | |t IH|t IH|n t IH|t IH|ts IH|e|e|fs IH] using ty_ind1; intros Hw Hn j w v H; destruct Hn as [Hn0 Hn];
    cbn [deser] in *.
  - destruct j; try discriminate. cbn in *. now rewrite text_bool_text.
  - destruct (dec_int (Json fp) it j) as [z|] eqn:E; [|discriminate]. apply dec_int_spec in E as [Hz ->]; [|exact Hw].
    cbn [yaml_of dec_int scalar through]. now rewrite (text_int_text it z Hz).
  - now destruct (proj2 Hn0).
  - now destruct (proj1 Hn0).
  - destruct j; try discriminate. exact H.
  - rewrite yaml_null. destruct (is_null j); [exact H|].
    destruct (deser (Json fp) t j (default_of t)) as [x [e|]] eqn:E; [discriminate|]. now rewrite (IH Hw Hn _ _ _ E).
  - destruct j; try discriminate. cbn [yaml_of]. destruct (seq_loop (deser (Json fp) t) (default_of t) js []) as [r e] eqn:E.
    injection H as <- ->. now rewrite (seq_follows _ _ _ _ (IH Hw Hn) _ _ E).
  - destruct j; try discriminate. cbn [yaml_of]. destruct w; try discriminate. rewrite map_length.
    destruct (length vs <? length js); [discriminate|].
    destruct (arr_loop (deser (Json fp) t) js 0 vs) as [r e] eqn:E. injection H as <- ->.
    now rewrite (arr_follows _ _ _ (IH Hw Hn) _ _ _ E).
  - destruct j; try discriminate. cbn [yaml_of]. destruct (map_loop (deser (Json fp) t) (default_of t) ms []) as [r e] eqn:E.
    injection H as <- ->. fold (ymembers ms). now rewrite (map_follows _ _ _ _ (IH Hw Hn) _ _ E).
  - destruct j; try discriminate. cbn [yaml_of]. destruct w; try discriminate. rewrite map_length.
    destruct (length ts <? length js); [discriminate|].
    destruct (deser_tuple (deser (Json fp)) js ts 0 vs) as [r e] eqn:E. injection H as <- ->.
    rewrite (tuple_follows (deser (Json fp)) (deser (Yaml ft)) js ts) with (r := r); [reflexivity| |exact E].
    cbn [wf] in Hw. apply every_all1 in Hw, Hn. rewrite Forall_forall in *. intros t Ht.
    exact (IH t Ht (Hw t Ht) (Hn t Ht)).
  - destruct j; try discriminate. exact H.
  - destruct j; try discriminate. cbn [yaml_of]. destruct (set_loop e js es_empty) as [z x] eqn:E. injection H as <- ->.
    now rewrite (set_follows _ _ _ _ E).
  - assert (Hm : Forall (member_follows (deser (Json fp)) (deser (Yaml ft))) fs).
    { destruct Hw as (Hw & _). apply every_all1 in Hw, Hn. rewrite Forall_forall in *. intros h Hh. destruct (IH h Hh) as [I1 I2].
      split; [auto|]. intros te Ete. apply I2; [exact Ete| |].
      - specialize (Hw h Hh). cbn in Hw. now rewrite Ete in Hw.
      - specialize (Hn h Hh). cbn in Hn. rewrite Ete in Hn. apply Hn. }
    destruct j; try discriminate; cbn [yaml_of]; destruct w; try discriminate.
    + rewrite map_length. destruct (sequence_field_count fs <? length js); [discriminate|].
      destruct (deser_elements (deser (Json fp)) js fs 0 vs) as [r e] eqn:E. injection H as <- ->.
      rewrite (elements_follows (deser (Json fp)) (deser (Yaml ft)) js fs) with (r := r); [reflexivity| |exact E].
      eapply Forall_impl; [|exact Hm]. intros h Hh. exact (proj1 Hh).
    + destruct (reserved_field_names fs) as [names| |]; try discriminate.
      destruct (deser_members (deser (Json fp)) names ms fs vs) as [r e] eqn:E. injection H as <- ->.
      fold (ymembers ms). now rewrite (members_follows _ _ _ _ _ Hm _ _ E).
Qed.

Lemma patch_follows t : wf t -> no_reals t -> follows (patch (Json fp) t) (patch (Yaml ft) t).
Proof.
  induction t as [ |it| | | |t IH|t IH|n t IH|t IH|ts IH|e|e|fs IH] using ty_ind1; intros Hw Hn j w v H;
    try (exact (deser_follows _ Hw Hn j w v H)); cbn [patch] in *.
  - rewrite yaml_null. destruct (is_null j); [exact H|]. destruct Hn as [_ Hn]. destruct w; try discriminate.
    + destruct (patch (Json fp) t j (default_of t)) as [x [e|]] eqn:E; [discriminate|]. now rewrite (IH Hw Hn _ _ _ E).
    + destruct (patch (Json fp) t j w) as [x e] eqn:E. injection H as <- ->. now rewrite (IH Hw Hn _ _ _ E).
  - pose proof (deser_follows (TRec fs) Hw Hn j w v) as Hd.
    destruct j; try (exact (Hd H)). cbn [yaml_of] in *. destruct w; try (exact (Hd H)). clear Hd.
    destruct Hn as [_ Hn].
    assert (Hm : Forall (member_follows (patch (Json fp)) (patch (Yaml ft))) fs).
    { destruct Hw as (Hw & _). apply every_all1 in Hw, Hn. rewrite Forall_forall in *. intros h Hh. destruct (IH h Hh) as [I1 I2].
      split; [apply I1; [apply Hw, Hh|apply Hn, Hh]|]. intros te Ete. apply I2; [exact Ete| |].
      - specialize (Hw h Hh). cbn in Hw. now rewrite Ete in Hw.
      - specialize (Hn h Hh). cbn in Hn. rewrite Ete in Hn. apply Hn. }
    destruct (reserved_field_names fs) as [names| |]; try discriminate.
    destruct (patch_members (patch (Json fp)) names ms fs vs) as [r e] eqn:E. injection H as <- ->.
    fold (ymembers ms). now rewrite (patch_members_follows _ _ _ _ _ Hm _ _ E).
Qed.

Lemma both_read t j j' w v : wf t -> no_reals t -> restated ft j j' ->
  (deser (Json fp) t j w = (v, None) -> deser (Yaml ft) t j' w = (v, None)) /\
  (patch (Json fp) t j w = (v, None) -> patch (Yaml ft) t j' w = (v, None)).
Proof.
  intros Hw Hn Hr. apply restated_spec in Hr. subst j'. split; [now apply deser_follows|now apply patch_follows].
Qed.

End Both.
