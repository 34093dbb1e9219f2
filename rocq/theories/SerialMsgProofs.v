(** Every error report is right. *)
From Coq Require Import String List NArith ZArith Arith Bool Lia.
From Verif Require Import Base PathModel EnumModel EnumSpec ScalarModel ScalarSpec SerialModel SerialSpec SerialBaseProofs
  SerialLeafProofs SerialTypeProofs SerialFieldProofs SerialDocSpec SerialDocProofs SerialReadProofs
  SerialMsgModel SerialMsgSpec SerialMsgEraseProofs.
Import ListNotations.
Local Open Scope list_scope.

Local Notation str := (list N) (only parsing).

Lemma bytes_codes s : bytes s = codes s.
Proof. unfold codes. induction s as [|a s IH]; [reflexivity|]. cbn. now rewrite IH. Qed.

Lemma add_error l r c ls : add l r = Error c ls -> exists ls', r = Error c ls' /\ ls = ls' ++ [l].
Proof. destruct r; cbn; try discriminate. intros [= -> <-]. eauto. Qed.

Lemma catch_error l e c ls : catch l e = Some (Error c ls) -> exists ls', e = Some (Error c ls') /\ ls = ls' ++ [l].
Proof.
  destruct e as [r|]; [|discriminate]. cbn. intros [= H]. apply add_error in H. destruct H as (ls' & -> & ->). eauto.
Qed.

Lemma at_index_nth (js : list json) i : at_index js i = nth i js JNull.
Proof.
  unfold at_index. revert i. induction js as [|j js IH]; intros [|i]; cbn; try reflexivity. apply IH.
Qed.

(* ------------------------------------------------------------------ *)
(** ** Loops *)

Section Loops.
Context (f : json -> val -> xres).

Lemma seq_error d js : forall out c ls, snd (xseq_loop f d js out) = Some (Error c ls) ->
  exists pre j post ls', js = pre ++ j :: post /\ Forall (fun j => snd (f j d) = None) pre /\
    snd (f j d) = Some (Error c ls') /\ ls = ls' ++ [LElement (length out + length pre)].
Proof.
  induction js as [|j js IH]; intros out c ls; cbn [xseq_loop]; [discriminate|].
  destruct (f j d) as [v [r|]] eqn:E; cbn [snd].
  - intros [= H]. apply add_error in H. destruct H as (ls' & -> & ->).
    exists [], j, js, ls'. cbn. rewrite E, Nat.add_0_r. auto.
  - intros H. apply IH in H. destruct H as (pre & j' & post & ls' & -> & Hp & Hj & ->).
    exists (j :: pre), j', post, ls'. split; [reflexivity|]. split; [constructor; [now rewrite E|exact Hp]|]. split; [exact Hj|].
    rewrite app_length. cbn. now rewrite <- Nat.add_assoc.
Qed.

Lemma arr_error js vs : forall i c ls, snd (xarr_loop f js i vs) = Some (Error c ls) ->
  exists k v ls', nth_error vs k = Some v /\ snd (f (at_index js (i + k)) v) = Some (Error c ls') /\
    ls = ls' ++ [LElement (i + k)].
Proof.
  induction vs as [|v vs IH]; intros i c ls; cbn [xarr_loop]; [discriminate|].
  destruct (f (at_index js i) v) as [v' [r|]] eqn:E; cbn [snd].
  - intros [= H]. apply add_error in H. destruct H as (ls' & -> & ->).
    exists 0, v, ls'. rewrite Nat.add_0_r. now rewrite E.
  - specialize (IH (S i) c ls). destruct (xarr_loop f js (S i) vs). cbn [snd] in *. intros H. apply IH in H.
    destruct H as (k & x & ls' & Hk & Hx & ->). exists (S k), x, ls'. rewrite Nat.add_succ_r. auto.
Qed.

Lemma map_error d ms : forall out c ls, snd (xmap_loop f d ms out) = Some (Error c ls) ->
  exists pre k j post ls', ms = pre ++ (k, j) :: post /\ Forall (fun m => snd (f (snd m) d) = None) pre /\
    snd (f j d) = Some (Error c ls') /\ ls = ls' ++ [LField Deserializing k].
Proof.
  induction ms as [|[k j] ms IH]; intros out c ls; cbn [xmap_loop]; [discriminate|].
  destruct (f j d) as [v [r|]] eqn:E; cbn [snd].
  - intros [= H]. apply add_error in H. destruct H as (ls' & -> & ->).
    exists [], k, j, ms, ls'. cbn. rewrite E. auto.
  - intros H. apply IH in H. destruct H as (pre & k' & j' & post & ls' & -> & Hp & Hj & ->).
    exists ((k, j) :: pre), k', j', post, ls'. split; [reflexivity|]. split; [constructor; [now cbn; rewrite E|exact Hp]|]. auto.
Qed.

Lemma extra_error d names ms : forall out c ls, snd (xextra_loop f d names ms out) = Some (Error c ls) ->
  exists k j ls', In (k, j) ms /\ ~ In k names /\ snd (f j d) = Some (Error c ls') /\ ls = ls' ++ [LExtra Deserializing k].
Proof.
  induction ms as [|[k j] ms IH]; intros out c ls; cbn [xextra_loop]; [discriminate|].
  destruct (in_set k names) eqn:En.
  - intros H. apply IH in H. destruct H as (k' & j' & ls' & Hin & H). exists k', j', ls'. split; [now right|exact H].
  - destruct (f j d) as [v [r|]] eqn:E; cbn [snd].
    + intros [= H]. apply add_error in H. destruct H as (ls' & -> & ->).
      exists k, j, ls'. rewrite E. split; [now left|]. split; [now apply in_set_false|]. auto.
    + intros H. apply IH in H. destruct H as (k' & j' & ls' & Hin & H). exists k', j', ls'. split; [now right|exact H].
Qed.

Lemma patch_extra_error t (g : json -> val -> dres) d names ms : (forall j v, erase (f j v) = g j v) -> good g t -> typed t d ->
  forall m c ls, map_typed t m -> snd (xpatch_extra_loop f d names ms m) = Some (Error c ls) ->
  exists k j w ls', In (k, j) ms /\ ~ In k names /\ typed t w /\ snd (f j w) = Some (Error c ls') /\
    ls = ls' ++ [LExtra Patching k].
Proof.
  intros Hf Hg Hd. induction ms as [|[k j] ms IH]; intros m c ls Hm; cbn [xpatch_extra_loop]; [discriminate|].
  assert (Step : forall m', map_typed t m' -> snd (xpatch_extra_loop f d names ms m') = Some (Error c ls) ->
    exists k' j' w ls', In (k', j') ((k, j) :: ms) /\ ~ In k' names /\ typed t w /\ snd (f j' w) = Some (Error c ls') /\
      ls = ls' ++ [LExtra Patching k']).
  { intros m' Hm' H. apply IH in H; [|exact Hm']. destruct H as (k' & j' & w & ls' & Hin & H).
    exists k', j', w, ls'. split; [now right|exact H]. }
  destruct (in_set k names) eqn:En; [now apply Step|].
  assert (Here : forall w v r, typed t w -> f j w = (v, Some r) -> add (LExtra Patching k) r = Error c ls ->
    exists k' j' w ls', In (k', j') ((k, j) :: ms) /\ ~ In k' names /\ typed t w /\ snd (f j' w) = Some (Error c ls') /\
      ls = ls' ++ [LExtra Patching k']).
  { intros w v r Hw E H. apply add_error in H. destruct H as (ls' & -> & ->).
    exists k, j, w, ls'. rewrite E. split; [now left|]. split; [now apply in_set_false|]. auto. }
  destruct (map_find k m) as [w|] eqn:Ek.
  - assert (Hw : typed t w).
    { apply map_find_in in Ek. exact (proj1 (all1_in _ _) (proj2 Hm) (k, w) Ek). }
    destruct (f j w) as [v [r|]] eqn:E; cbn [snd].
    + intros [= H]. now apply (Here w v r).
    + apply Step. apply assign_typed; [|exact Hm]. destruct (Hg j w Hw) as [Gt _]. rewrite <- Hf, E in Gt. exact Gt.
  - destruct (f j d) as [v [r|]] eqn:E; cbn [snd].
    + intros [= H]. now apply (Here d v r).
    + apply Step. apply emplace_typed; [|exact Hm]. destruct (Hg j d Hd) as [Gt _]. rewrite <- Hf, E in Gt. exact Gt.
Qed.

(** A value that was read and validated: the error is that of the reading, or
    the validator's. *)
Lemma validate_error vals v c ls : xvalidate vals v = Some (Error c ls) -> c = CValidator /\ ls = [] /\ validate vals v = Some EDeser.
Proof.
  induction vals as [|g vals IH]; cbn; [discriminate|]. destruct (g v); [exact IH| |discriminate].
  intros [= <- <-]. auto.
Qed.

Lemma then_validate_error a j w c ls : snd (xthen_validate a (f j w)) = Some (Error c ls) ->
  snd (f j w) = Some (Error c ls) \/
  (c = CValidator /\ ls = [] /\ exists v, f j w = (v, None) /\ checks a v (Some EDeser)).
Proof.
  destruct (f j w) as [v [r|]]; cbn [xthen_validate snd]; [auto|]. intros H. right.
  apply validate_error in H. destruct H as (-> & -> & H). split; [reflexivity|]. split; [reflexivity|].
  exists v. split; [reflexivity|]. now apply checks_iff.
Qed.

Lemma read_field_error a ms w c ls : snd (xread_field a f ms w) = Some (Error c ls) ->
  exists j, node_of Deserializing ms a j /\ snd (xthen_validate a (f j w)) = Some (Error c ls).
Proof.
  pose proof (resolve_spec ms a) as Hr. change (lookup_names a) with (wire_names a) in Hr.
  unfold xread_field. destruct (resolve_field_name ms a) as [n|].
  - cbv zeta. intros H. exists (at_field ms n).
    destruct (is_null (at_field ms n)) eqn:En.
    + destruct (a_default a) eqn:Ed; [discriminate|]. split; [|exact H]. split; [auto|now left].
    + split.
      * split; [intros E; rewrite E in En; discriminate|now left].
      * destruct (a_default a); exact H.
  - destruct (a_default a) eqn:Ed; [discriminate|]. destruct (a_allow_missing a) eqn:Em; [discriminate|].
    assert (E : at_field ms (serialized_name a) = JNull).
    { unfold at_field. inversion Hr; subst. apply absent_find in H1. change (serialized_name a) with (wire_name a). now rewrite H1. }
    rewrite E. intros H. exists JNull. split; [|exact H]. split; [auto|]. right. auto.
Qed.

Lemma patch_field_error a ms w c ls : snd (xpatch_field a f ms w) = Some (Error c ls) ->
  exists j, node_of Patching ms a j /\ snd (xthen_validate a (f j w)) = Some (Error c ls).
Proof.
  pose proof (resolve_spec ms a) as Hr. change (lookup_names a) with (wire_names a) in Hr.
  unfold xpatch_field. destruct (resolve_field_name ms a) as [n|]; [|discriminate].
  cbv zeta. intros H. exists (at_field ms n).
  destruct (is_null (at_field ms n)) eqn:En.
  - destruct (a_default a) eqn:Ed; [discriminate|]. split; [|exact H]. split; [auto|now left].
  - split.
    + split; [intros E; rewrite E in En; discriminate|now left].
    + destruct (a_default a); exact H.
Qed.
End Loops.

Lemma tuple_error (f : ty -> json -> val -> xres) js ts : forall i ws c ls, all2 typed ts ws ->
  snd (xdeser_tuple f js ts i ws) = Some (Error c ls) ->
  exists k t w, nth_error ts k = Some t /\ typed t w /\ snd (f t (at_index js (i + k)) w) = Some (Error c ls).
Proof.
  induction ts as [|t ts IH]; intros i [|w ws] c ls Hw; cbn in Hw; try contradiction; cbn [xdeser_tuple]; [discriminate|].
  destruct Hw as [Ht Hw]. destruct (f t (at_index js i) w) as [v' [r|]] eqn:E; cbn [snd].
  - intros H. exists 0, t, w. rewrite Nat.add_0_r, E. auto.
  - specialize (IH (S i) ws c ls Hw). destruct (xdeser_tuple f js ts (S i) ws). cbn [snd] in *. intros H. apply IH in H.
    destruct H as (k & x & w' & Hk & Hx & H). exists (S k), x, w'. rewrite Nat.add_succ_r. auto.
Qed.

Lemma elements_error (f : ty -> json -> val -> xres) js fs : forall i ws c ls, all2 (fun g => typed (snd g)) fs ws ->
  snd (xdeser_elements f js fs i ws) = Some (Error c ls) ->
  exists pre a t post w ls', fs = pre ++ (a, t) :: post /\ typed t w /\ a_skip_deser a = false /\
    ls = ls' ++ [LElement (i + readable_fields pre)] /\
    ((a_extra a = true /\ c = CExtraInSequence /\ ls' = []) \/
     (a_extra a = false /\ a_flatten a = true /\ c = CFlattenInSequence /\ ls' = []) \/
     (ordinary a /\ snd (xthen_validate a (f t (at_index js (i + readable_fields pre)) w)) = Some (Error c ls'))).
Proof.
  induction fs as [|[a t] fs IH]; intros i [|w ws] c ls Hw; cbn in Hw; try contradiction; cbn [xdeser_elements]; [discriminate|].
  destruct Hw as [Ht Hw]. destruct (a_skip_deser a) eqn:Es.
  { specialize (IH i ws c ls Hw). destruct (xdeser_elements f js fs i ws). cbn [snd] in *. intros H. apply IH in H.
    destruct H as (pre & a' & t' & post & w' & ls' & -> & H). exists ((a, t) :: pre), a', t', post, w', ls'.
    cbn [readable_fields]. rewrite Es. split; [reflexivity|exact H]. }
  destruct (a_extra a) eqn:Ee.
  { cbn [snd add]. intros [= <- <-]. exists [], a, t, fs, w, []. cbn. rewrite Nat.add_0_r. split; [reflexivity|]. auto 10. }
  destruct (a_flatten a) eqn:Ef.
  { cbn [snd add]. intros [= <- <-]. exists [], a, t, fs, w, []. cbn. rewrite Nat.add_0_r. split; [reflexivity|]. auto 10. }
  destruct (xthen_validate a (f t (at_index js i) w)) as [v' [r|]] eqn:E; cbn [snd].
  - intros [= H]. apply add_error in H. destruct H as (ls' & -> & ->). exists [], a, t, fs, w, ls'. cbn. rewrite Nat.add_0_r, E.
    split; [reflexivity|]. unfold ordinary. auto 10.
  - specialize (IH (S i) ws c ls Hw). destruct (xdeser_elements f js fs (S i) ws). cbn [snd] in *. intros H. apply IH in H.
    destruct H as (pre & a' & t' & post & w' & ls' & -> & H). exists ((a, t) :: pre), a', t', post, w', ls'.
    cbn [readable_fields]. rewrite Es. cbn [Nat.add]. rewrite Nat.add_succ_r. split; [reflexivity|exact H].
Qed.

Lemma members_error (f : ty -> json -> val -> xres) names ms fs : forall ws c ls, all2 (fun g => typed (snd g)) fs ws ->
  snd (xdeser_members f names ms fs ws) = Some (Error c ls) ->
  exists a t w, In (a, t) fs /\ typed t w /\ a_skip_deser a = false /\
    ((a_extra a = true /\ exists te, t = TMap te /\ snd (xextra_loop (f te) (default_of te) names ms []) = Some (Error c ls)) \/
     (a_extra a = false /\ exists ls', ls = ls' ++ [LField Deserializing (a_name a)] /\
        ((a_flatten a = true /\ snd (f t (JObj ms) w) = Some (Error c ls')) \/
         (a_flatten a = false /\ snd (xread_field a (f t) ms w) = Some (Error c ls'))))).
Proof.
  induction fs as [|[a t] fs IH]; intros [|w ws] c ls Hw; cbn in Hw; try contradiction; cbn [xdeser_members]; [discriminate|].
  destruct Hw as [Ht Hw].
  match goal with |- context [let '(_, _) := ?x in match _ with _ => _ end] => set (one := x) end.
  destruct one as [v' [r|]] eqn:E; cbn [snd].
  - intros [= ->]. exists a, t, w. split; [now left|]. split; [exact Ht|]. subst one.
    destruct (a_skip_deser a); [discriminate|]. split; [reflexivity|]. destruct (a_extra a).
    + left. split; [reflexivity|]. destruct t; try discriminate. exists t. split; [reflexivity|].
      destruct (xextra_loop (f t) (default_of t) names ms []). injection E as _ ->. reflexivity.
    + right. split; [reflexivity|]. destruct (a_flatten a).
      * destruct (f t (JObj ms) w) as [x e]. injection E as _ E. apply catch_error in E. destruct E as (ls' & -> & ->).
        exists ls'. split; [reflexivity|]. now left.
      * destruct (xread_field a (f t) ms w) as [x e]. injection E as _ E. apply catch_error in E. destruct E as (ls' & -> & ->).
        exists ls'. split; [reflexivity|]. now right.
  - specialize (IH ws c ls Hw). destruct (xdeser_members f names ms fs ws). cbn [snd] in *. intros H. apply IH in H.
    destruct H as (a' & t' & w' & Hin & H). exists a', t', w'. split; [now right|exact H].
Qed.

Lemma patch_members_error (f : ty -> json -> val -> xres) names ms fs : forall ws c ls, all2 (fun g => typed (snd g)) fs ws ->
  snd (xpatch_members f names ms fs ws) = Some (Error c ls) ->
  exists a t w, In (a, t) fs /\ typed t w /\ a_skip_deser a = false /\
    ((a_extra a = true /\ exists te m, t = TMap te /\ w = VMap m /\
        snd (xpatch_extra_loop (f te) (default_of te) names ms m) = Some (Error c ls)) \/
     (a_extra a = false /\ exists ls', ls = ls' ++ [LField Patching (a_name a)] /\
        ((a_flatten a = true /\ snd (f t (JObj ms) w) = Some (Error c ls')) \/
         (a_flatten a = false /\ snd (xpatch_field a (f t) ms w) = Some (Error c ls'))))).
Proof.
  induction fs as [|[a t] fs IH]; intros [|w ws] c ls Hw; cbn in Hw; try contradiction; cbn [xpatch_members]; [discriminate|].
  destruct Hw as [Ht Hw].
  match goal with |- context [let '(_, _) := ?x in match _ with _ => _ end] => set (one := x) end.
  destruct one as [v' [r|]] eqn:E; cbn [snd].
  - intros [= ->]. exists a, t, w. split; [now left|]. split; [exact Ht|]. subst one.
    destruct (a_skip_deser a); [discriminate|]. split; [reflexivity|]. destruct (a_extra a).
    + left. split; [reflexivity|]. destruct t; try discriminate. destruct w; try discriminate.
      eexists _, _. split; [reflexivity|]. split; [reflexivity|].
      destruct (xpatch_extra_loop (f t) (default_of t) names ms _) as [x e]. injection E as _ ->. reflexivity.
    + right. split; [reflexivity|]. destruct (a_flatten a).
      * destruct (f t (JObj ms) w) as [x e]. injection E as _ E. apply catch_error in E. destruct E as (ls' & -> & ->).
        exists ls'. split; [reflexivity|]. now left.
      * destruct (xpatch_field a (f t) ms w) as [x e]. injection E as _ E. apply catch_error in E. destruct E as (ls' & -> & ->).
        exists ls'. split; [reflexivity|]. now right.
  - specialize (IH ws c ls Hw). destruct (xpatch_members f names ms fs ws). cbn [snd] in *. intros H. apply IH in H.
    destruct H as (a' & t' & w' & Hin & H). exists a', t', w'. split; [now right|exact H].
Qed.

(* ------------------------------------------------------------------ *)
(** ** Reports *)

Section WithBackend.
Context (be : backend) (tname : list (attrs * ty) -> str).

Lemma kind_called j : exists word, called be j word /\ kind_name be j = codes word.
Proof.
  unfold called, kind_name. rewrite !bytes_codes. destruct be; destruct j as [|[|]| | | | |]; eexists; split; reflexivity.
Qed.

Lemma expected_says wj wy j : says be wj wy j (expected be wj wy j).
Proof.
  destruct (kind_called j) as (word & Hw & E). exists word. split; [exact Hw|]. unfold expected. rewrite E, bytes_codes.
  now destruct be.
Qed.

Lemma integral_iff j : is_integral j = true <-> is_integer j.
Proof.
  unfold is_integral, integral, is_integer. destruct j as [|b|z|b|s|js|ms]; try (split; [discriminate|intros (x & E & _); discriminate]).
  split.
  - intros H. exists z. split; [reflexivity|].
    destruct (fits i32 z) eqn:E1; [left; apply fits_true in E1; revert E1; unfold of_type, ity_min, ity_max; cbn; lia|].
    destruct (fits i64 z) eqn:E2; [left; now apply fits_true|].
    destruct (fits u32 z) eqn:E3; [right; apply fits_true in E3; revert E3; unfold of_type, ity_min, ity_max; cbn; lia|].
    destruct (fits u64 z) eqn:E4; [right; now apply fits_true|]. discriminate.
  - intros (x & [= <-] & [H|H]); apply fits_true in H; rewrite H; cbn [orb]; rewrite ?orb_true_r; reflexivity.
Qed.

Lemma leaf_cause wanted ok (fit : Prop) j : (ok j = true <-> fit) -> scalar_cause be wanted fit j (why_leaf be wanted ok j).
Proof.
  intros H. unfold scalar_cause, why_leaf. pose proof (expected_says wanted wanted j) as E1. pose proof (expected_says wanted "a scalar"%string j) as E2.
  destruct be as [fp|ft].
  - destruct (ok j).
    + left. split; [now apply H|reflexivity].
    + right. split; [intros X; apply H in X; discriminate|exact E1].
  - destruct j; try (right; split; [intros [x X]; discriminate|exact E2]). left. split; [now exists s|reflexivity].
Qed.

Lemma not_array j : match j with JArr _ => False | _ => True end -> ~ is_array j.
Proof. intros H [js ->]. exact H. Qed.
Lemma not_object j : match j with JObj _ => False | _ => True end -> ~ is_object j.
Proof. intros H [ms ->]. exact H. Qed.
Lemma not_text j : match j with JStr _ => False | _ => True end -> ~ is_text j.
Proof. intros H [s ->]. exact H. Qed.

Lemma take_error {A} (mk : A -> val) k (r : option A) w c ls : snd (xtake mk k r w) = Some (Error c ls) ->
  r = None /\ c = k /\ ls = [].
Proof. destruct r; cbn; [discriminate|]. intros [= <- <-]. auto. Qed.

Lemma fail_error w k c ls : snd (fail w k) = Some (Error c ls) -> c = k /\ ls = [].
Proof. cbn. intros [= <- <-]. auto. Qed.

Ltac unwrap H :=
  match type of H with
  | snd (let '(_, _) := ?r in _) = ?x =>
      let H' := fresh in assert (H' : snd r = x) by (destruct r; exact H); clear H; rename H' into H
  end.

Lemma set_error en js : forall acc c ls, snd (xset_loop be en js acc) = Some (Error c ls) ->
  exists j, In j js /\ blame be tname Deserializing (TEnum en) j c ls.
Proof.
  induction js as [|j js IH]; intros acc c ls; cbn [xset_loop]; [discriminate|].
  assert (K : ~ is_text j -> Some (Error (why_string be j) []) = Some (Error c ls) ->
              exists j', In j' (j :: js) /\ blame be tname Deserializing (TEnum en) j' c ls).
  { intros H [= <- <-]. exists j. split; [now left|]. apply b_enum_kind; [exact H|apply expected_says]. }
  destruct j; try (apply K, not_text; exact I).
  destruct (from_string (e_tab en) s) as [z|] eqn:E.
  - intros H. apply IH in H. destruct H as (j & Hj & H). exists j. split; [now right|exact H].
  - cbn. intros [= <- <-]. exists (JStr s). split; [now left|]. apply b_enum. intros z H. apply enumerator_iff in H. congruence.
Qed.

Definition sound (d : doing) (f : json -> val -> xres) (t : ty) : Prop :=
  forall j w c ls, typed t w -> snd (f j w) = Some (Error c ls) -> blame be tname d t j c ls.

Lemma read_none t j w : wf t -> typed t w -> snd (xdeser be tname t j w) = None -> exists v, reads be t j w v None.
Proof.
  intros Hw Ht H. pose proof (xdeser_erase be tname t j w) as E. destruct (xdeser be tname t j w) as [v r]. cbn in H. subst r.
  exists v. apply (reads_computes be t Hw); [exact Ht|]. now rewrite <- E.
Qed.

Lemma patched_none t j w v : wf t -> typed t w -> xpatch be tname t j w = (v, None) -> patched be t j w v None.
Proof.
  intros Hw Ht E. apply (patched_computes be t Hw); [exact Ht|]. now rewrite <- (xpatch_erase be tname t j w), E.
Qed.

Lemma readable_pre t js : wf t -> Forall (fun j => snd (xdeser be tname t j (default_of t)) = None) js -> Forall (readable be t) js.
Proof. intros Hw. apply Forall_impl. intros j H. apply read_none; [exact Hw|now apply default_typed|exact H]. Qed.

Lemma readable_members t (ms : list (str * json)) : wf t -> Forall (fun m => snd (xdeser be tname t (snd m) (default_of t)) = None) ms ->
  Forall (fun m => readable be t (snd m)) ms.
Proof. intros Hw. apply Forall_impl. intros m H. apply read_none; [exact Hw|now apply default_typed|exact H]. Qed.

Lemma names_extra fs names : reserved_field_names fs = Ok names -> (exists a t, In (a, t) fs /\ a_extra a = true) ->
  names = declared (TRec fs).
Proof.
  intros H (a & t & Hin & He). apply reserved_ok in H; [exact (proj1 H)|]. exact (any_in fs a t Hin (or_introl He)).
Qed.

Lemma xdeser_sound t : wf t -> sound Deserializing (xdeser be tname t) t.
Proof.
  induction t as [ |it| | | |t IH|t IH|n t IH|t IH|ts IH|en|en|fs IH] using ty_ind1; intros Hw j w c ls Hv H; cbn [xdeser] in H.
  - apply take_error in H. destruct H as (H & -> & ->). apply b_bool.
    + intros x X. apply dec_bool_spec in X. congruence.
    + apply leaf_cause. split; [discriminate|intros []].
  - apply take_error in H. destruct H as (H & -> & ->). apply b_int.
    + intros x X. apply dec_int_spec in X; [congruence|exact Hw].
    + apply leaf_cause, integral_iff.
  - apply take_error in H. destruct H as (H & -> & ->). apply b_double.
    + intros x X. apply dec_dbl_spec in X. congruence.
    + apply leaf_cause. split; [discriminate|intros []].
  - apply take_error in H. destruct H as (H & -> & ->). apply b_float.
    + intros x X. apply dec_flt_spec in X. congruence.
    + apply leaf_cause. split; [discriminate|intros []].
  - destruct j; try discriminate; apply fail_error in H; destruct H as [-> ->];
      (apply b_str; [apply not_text; exact I|apply expected_says]).
  - apply b_opt; [intros ->; discriminate|]. apply (IH Hw j (default_of t)); [now apply default_typed|].
    destruct (is_null j); [discriminate|]. destruct (xdeser be tname t j (default_of t)) as [x [r|]]; [exact H|discriminate].
  - destruct j as [|b|z|b|s|js|ms];
      try (apply fail_error in H; destruct H as [-> ->]; apply b_seq_kind; [apply not_array; exact I|apply expected_says]).
    unwrap H. apply seq_error in H. destruct H as (pre & j & post & ls' & -> & Hp & Hj & ->).
    apply b_seq; [now apply readable_pre|]. apply (IH Hw j (default_of t)); [now apply default_typed|exact Hj].
  - destruct w as [b|z|b|b|s| |w|ws|m|ws]; cbn in Hv; try contradiction. destruct Hv as [Hl Hv].
    destruct j as [|b|z|b|s|js|ms];
      try (apply fail_error in H; destruct H as [-> ->]; apply b_arr_kind; [apply not_array; exact I|apply expected_says]).
    rewrite Hl in H. destruct (Nat.ltb_spec n (length js)) as [L|L].
    + apply fail_error in H. destruct H as [-> ->]. now apply b_arr_long.
    + unwrap H. apply arr_error in H. destruct H as (k & v & ls' & Hk & Hj & ->). cbn [Nat.add] in *.
      rewrite at_index_nth in Hj. apply b_arr; [|exact L|].
      * rewrite <- Hl. apply nth_error_Some. congruence.
      * apply (IH Hw _ v); [|exact Hj]. apply nth_error_In in Hk. exact (proj1 (all1_in _ _) Hv v Hk).
  - destruct j as [|b|z|b|s|js|ms];
      try (apply fail_error in H; destruct H as [-> ->]; apply b_map_kind; [apply not_object; exact I|apply expected_says]).
    unwrap H. apply map_error in H. destruct H as (pre & k & j & post & ls' & -> & Hp & Hj & ->).
    apply b_map; [now apply readable_members|]. apply (IH Hw j (default_of t)); [now apply default_typed|exact Hj].
  - destruct w as [b|z|b|b|s| |w|ws|m|ws]; cbn in Hv; try contradiction.
    destruct j as [|b|z|b|s|js|ms];
      try (apply fail_error in H; destruct H as [-> ->]; apply b_tup_kind; [apply not_array; exact I|apply expected_says]).
    destruct (Nat.ltb_spec (length ts) (length js)) as [L|L].
    + apply fail_error in H. destruct H as [-> ->]. now apply b_tup_long.
    + unwrap H. apply tuple_error in H; [|exact Hv]. destruct H as (k & t & w & Hk & Ht & H). cbn [Nat.add] in H.
      rewrite at_index_nth in H. apply (b_tup be tname _ ts js k t); [exact L|exact Hk|].
      apply nth_error_In in Hk. cbn in Hw. apply (proj1 (all1_in _ _)) with (x := t) in Hw; [|exact Hk].
      rewrite Forall_forall in IH. exact (IH t Hk Hw _ w c ls Ht H).
  - destruct j as [|b|z|b|s|js|ms];
      try (apply fail_error in H; destruct H as [-> ->]; apply b_enum_kind; [apply not_text; exact I|apply expected_says]).
    destruct (from_string (e_tab en) s) as [z|] eqn:E; [discriminate|]. apply fail_error in H. destruct H as [-> ->].
    apply b_enum. intros z X. apply enumerator_iff in X. congruence.
  - destruct j as [|b|z|b|s|js|ms];
      try (apply fail_error in H; destruct H as [-> ->]; apply b_set_kind; [apply not_array; exact I|apply expected_says]).
    unwrap H. apply set_error in H. destruct H as (j & Hj & H). now apply (b_set be tname _ en js j).
  - match type of H with snd (let '(_, _) := ?x in _) = _ => destruct x as [v e] eqn:E end. cbn [snd] in H.
    apply catch_error in H. destruct H as (ls' & -> & ->).
    assert (K : (v, Some (Error c ls')) = fail w (CNeither (kind_name be j)) -> ~ is_array j -> ~ is_object j ->
                blame be tname Deserializing (TRec fs) j c (ls' ++ [LType Deserializing (tname fs)])).
    { intros [= -> -> ->] Ha Ho. destruct (kind_called j) as (word & Hc & ->). now apply b_rec_kind. }
    destruct w as [b|z|b|b|s| |w|ws|m|ws]; cbn in Hv; try contradiction. destruct Hw as (Hw & Ho & _).
    assert (IH' : forall a t, In (a, t) fs -> sound Deserializing (xdeser be tname t) t).
    { intros a t Hin. rewrite Forall_forall in IH. destruct (IH _ Hin) as [I1 _].
      exact (I1 (proj1 (all1_in _ _) Hw _ Hin)). }
    destruct j as [|b|z|b|s|js|ms]; try (apply (K (eq_sym E)); [apply not_array; exact I|apply not_object; exact I]).
    + rewrite <- readable_count in E. destruct (Nat.ltb_spec (readable_fields fs) (length js)) as [L|L].
      * injection E as <- <- <-. now apply b_rec_long.
      * assert (H : snd (xdeser_elements (xdeser be tname) js fs 0 ws) = Some (Error c ls')).
        { destruct (xdeser_elements (xdeser be tname) js fs 0 ws). now injection E as _ ->. }
        apply elements_error in H; [|exact Hv]. destruct H as (pre & a & t & post & w & ls & Efs & Ht & Hs & -> & H). cbn [Nat.add] in *.
        rewrite <- app_assoc. cbn [app].
        destruct H as [(He & -> & ->)|[(He & Hf & -> & ->)|(Hord & H)]].
        -- now apply (b_elem_extra be tname fs js pre a t post).
        -- now apply (b_elem_flatten be tname fs js pre a t post).
        -- rewrite at_index_nth in H. assert (Hin : In (a, t) fs) by (rewrite Efs; apply in_elt).
           apply then_validate_error in H. destruct H as [H|(-> & -> & v' & Ev & Hc)].
           ++ apply (b_elem be tname fs js pre a t post); [exact Efs|exact L|exact Hord|]. exact (IH' a t Hin _ w c ls Ht H).
           ++ apply (b_elem_rejected be tname fs js pre a t post); [exact Efs|exact L|exact Hord|]. exists w, v'.
              split; [exact Ht|]. split; [|exact Hc]. assert (Hwt : wf t) by exact (proj1 (all1_in _ _) Hw _ Hin).
              apply (reads_computes be t Hwt); [exact Ht|]. now rewrite <- (xdeser_erase be tname), Ev.
    + destruct (reserved_field_names fs) as [names| |] eqn:En; try discriminate.
      assert (H : snd (xdeser_members (xdeser be tname) names ms fs ws) = Some (Error c ls')).
      { destruct (xdeser_members (xdeser be tname) names ms fs ws). now injection E as _ ->. }
      apply members_error in H; [|exact Hv]. destruct H as (a & t & w & Hin & Ht & Hs & H).
      assert (Hwt : wf t) by exact (proj1 (all1_in _ _) Hw _ Hin).
      destruct H as [(He & te & -> & H)|(He & ls & -> & H)].
      * apply extra_error in H. destruct H as (k & j & ls & Hk & Hn & H & ->). rewrite <- app_assoc. cbn [app].
        rewrite (names_extra fs names En) in Hn by eauto.
        apply (b_extra be tname _ fs ms a te k j); auto.
        rewrite Forall_forall in IH. destruct (IH _ Hin) as [_ I2]. apply (I2 te eq_refl Hwt j (default_of te)); [now apply default_typed|exact H].
      * rewrite <- app_assoc. cbn [app]. destruct H as [[Hf H]|[Hf H]].
        -- apply (b_flatten be tname _ fs ms a t); auto. exact (IH' a t Hin _ w c ls Ht H).
        -- assert (Hord : ordinary a) by (unfold ordinary; auto).
           apply read_field_error in H. destruct H as (j & Hj & H). apply then_validate_error in H. destruct H as [H|(-> & -> & v' & Ev & Hc)].
           ++ apply (b_field be tname _ fs ms a t j); auto. exact (IH' a t Hin _ w c ls Ht H).
           ++ apply (b_field_rejected be tname _ fs ms a t j); auto. exists w, v'. split; [exact Ht|]. split; [|exact Hc].
              apply (reads_computes be t Hwt); [exact Ht|]. now rewrite <- (xdeser_erase be tname), Ev.
Qed.

(** Types without a [patch] of their own. *)
Definition unpatched (t : ty) : bool := match t with TOpt _ | TRec _ => false | _ => true end.

Lemma blame_unpatched t j c ls : unpatched t = true -> blame be tname Deserializing t j c ls -> blame be tname Patching t j c ls.
Proof. intros Hp H. destruct H; try discriminate; econstructor; eassumption. Qed.

Lemma xpatch_sound t : wf t -> sound Patching (xpatch be tname t) t.
Proof.
  induction t as [ |it| | | |t IH|t IH|n t IH|t IH|ts IH|en|en|fs IH] using ty_ind1; intros Hw j w c ls Hv H;
    try (apply blame_unpatched; [reflexivity|exact (xdeser_sound _ Hw j w c ls Hv H)]).
  - cbn [xpatch] in H. apply b_opt; [intros ->; discriminate|]. destruct (is_null j); [discriminate|].
    destruct w as [b|z|b|b|s| |w|ws|m|ws]; cbn in Hv; try contradiction.
    + apply (IH Hw j (default_of t)); [now apply default_typed|].
      destruct (xpatch be tname t j (default_of t)) as [x [r|]]; [exact H|discriminate].
    + unwrap H. exact (IH Hw j w c ls Hv H).
  - cbn [xpatch] in H. match type of H with snd (let '(_, _) := ?x in _) = _ => destruct x as [v e] eqn:E end. cbn [snd] in H.
    apply catch_error in H. destruct H as (ls' & -> & ->).
    assert (K : (v, Some (Error c ls')) = xdeser be tname (TRec fs) j w -> ~ is_object j ->
                blame be tname Patching (TRec fs) j c (ls' ++ [LType Patching (tname fs)])).
    { intros Ed Hj. apply b_rec_whole; [exact Hj|]. apply (xdeser_sound (TRec fs) Hw j w); [exact Hv|]. now rewrite <- Ed. }
    destruct w as [b|z|b|b|s| |w|ws|m|ws]; cbn in Hv; try contradiction.
    destruct j as [|b|z|b|s|js|ms]; try (apply (K (eq_sym E)); apply not_object; exact I). clear K.
    destruct Hw as (Hw & Ho & _).
    assert (IH' : forall a t, In (a, t) fs -> sound Patching (xpatch be tname t) t).
    { intros a t Hin. rewrite Forall_forall in IH. destruct (IH _ Hin) as [I1 _].
      exact (I1 (proj1 (all1_in _ _) Hw _ Hin)). }
    destruct (reserved_field_names fs) as [names| |] eqn:En; try discriminate.
    assert (H : snd (xpatch_members (xpatch be tname) names ms fs ws) = Some (Error c ls')).
    { destruct (xpatch_members (xpatch be tname) names ms fs ws). now injection E as _ ->. }
    apply patch_members_error in H; [|exact Hv]. destruct H as (a & t & w & Hin & Ht & Hs & H).
    assert (Hwt : wf t) by exact (proj1 (all1_in _ _) Hw _ Hin).
    destruct H as [(He & te & m & -> & -> & H)|(He & ls & -> & H)].
    + apply (patch_extra_error _ te (patch be te)) in H;
        [|apply xpatch_erase|now apply patch_typed|now apply default_typed|exact Ht].
      destruct H as (k & j & w & ls & Hk & Hn & Htw & H & ->). rewrite <- app_assoc. cbn [app].
      rewrite (names_extra fs names En) in Hn by eauto.
      apply (b_extra be tname _ fs ms a te k j); auto.
      rewrite Forall_forall in IH. destruct (IH _ Hin) as [_ I2]. exact (I2 te eq_refl Hwt j w c ls Htw H).
    + rewrite <- app_assoc. cbn [app]. destruct H as [[Hf H]|[Hf H]].
      * apply (b_flatten be tname _ fs ms a t); auto. exact (IH' a t Hin _ w c ls Ht H).
      * assert (Hord : ordinary a) by (unfold ordinary; auto).
        apply patch_field_error in H. destruct H as (j & Hj & H). apply then_validate_error in H. destruct H as [H|(-> & -> & v' & Ev & Hc)].
        -- apply (b_field be tname _ fs ms a t j); auto. exact (IH' a t Hin _ w c ls Ht H).
        -- apply (b_field_rejected be tname _ fs ms a t j); auto. exists w, v'. split; [exact Ht|]. split; [|exact Hc].
           now apply patched_none.
Qed.

(** The report comes with the object and the exception of SerialModel. *)
Lemma deser_report t j w v : wf t -> typed t w -> deser be t j w = (v, Some EDeser) ->
  exists c ls, xdeser be tname t j w = (v, Some (Error c ls)) /\ blame be tname Deserializing t j c ls.
Proof.
  intros Hw Ht H. rewrite <- (xdeser_erase be tname) in H. destruct (xdeser be tname t j w) as [v' r] eqn:E.
  destruct r as [[c ls| | | ]|]; try discriminate. injection H as <-. exists c, ls. split; [reflexivity|].
  apply (xdeser_sound t Hw j w); [exact Ht|]. now rewrite E.
Qed.

Lemma patch_report t j w v : wf t -> typed t w -> patch be t j w = (v, Some EDeser) ->
  exists c ls, xpatch be tname t j w = (v, Some (Error c ls)) /\ blame be tname Patching t j c ls.
Proof.
  intros Hw Ht H. rewrite <- (xpatch_erase be tname) in H. destruct (xpatch be tname t j w) as [v' r] eqn:E.
  destruct r as [[c ls| | | ]|]; try discriminate. injection H as <-. exists c, ls. split; [reflexivity|].
  apply (xpatch_sound t Hw j w); [exact Ht|]. now rewrite E.
Qed.

(** And only then. *)
Lemma reports_agree t j w :
  (forall v, deser be t j w = (v, Some EDeser) <-> exists c ls, xdeser be tname t j w = (v, Some (Error c ls))) /\
  (forall v, patch be t j w = (v, Some EDeser) <-> exists c ls, xpatch be tname t j w = (v, Some (Error c ls))).
Proof.
  split; intros v; [rewrite <- (xdeser_erase be tname)|rewrite <- (xpatch_erase be tname)].
  - destruct (xdeser be tname t j w) as [v' [[c ls| | | ]|]]; (split; [try discriminate; intros [= <-]; eauto|intros (c' & ls' & [= <-]); reflexivity]).
  - destruct (xpatch be tname t j w) as [v' [[c ls| | | ]|]]; (split; [try discriminate; intros [= <-]; eauto|intros (c' & ls' & [= <-]); reflexivity]).
Qed.
End WithBackend.
