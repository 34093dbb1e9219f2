(** Reading the fields of a struct from an object. *)
From Coq Require Import List NArith ZArith Arith Bool Lia.
From Verif Require Import Base PathModel EnumModel EnumSpec EnumProofs SerialModel SerialSpec SerialBaseProofs
  SerialTypeProofs SerialKeyProofs SerialRoundProofs.
Import ListNotations.
Local Open Scope outcome_scope.

Local Notation str := (list N) (only parsing).

Lemma find_member_first n ms j : find_member n ms = Some j <-> first_member ms n j.
Proof.
  unfold first_member. induction ms as [|[k x] ms IH]; cbn [find_member].
  - split; [discriminate|]. intros (p & q & E & _). now destruct p.
  - destruct (str_eqb k n) eqn:E.
    + apply str_eqb_true in E. subst k. split.
      * intros [= ->]. exists [], ms. split; [reflexivity|intros []].
      * intros ([|[k y] p] & q & Eq & Hn); cbn in Eq; [now injection Eq as ->|]. injection Eq as <- <- _.
        exfalso. apply Hn. now left.
    + apply str_eqb_false in E. rewrite IH. split.
      * intros (p & q & -> & Hn). exists ((k, x) :: p), q. split; [reflexivity|]. cbn. intros [H|H]; congruence.
      * intros ([|[k' y] p] & q & Eq & Hn); cbn in Eq; [congruence|]. injection Eq as -> -> ->.
        exists p, q. split; [reflexivity|]. intros H. apply Hn. now right.
Qed.

Lemma first_member_fun ms n j j' : first_member ms n j -> first_member ms n j' -> j = j'.
Proof. rewrite <- !find_member_first. congruence. Qed.

Lemma first_member_in ms n : In n (map fst ms) <-> exists j, first_member ms n j.
Proof.
  split.
  - intros H. destruct (find_member n ms) as [j|] eqn:E; [exists j; now apply find_member_first|].
    now apply find_member_none in E.
  - intros (j & H). apply find_member_first in H. apply find_member_in in H. now apply (in_map fst) in H.
Qed.

Lemma absent_find ms n : absent ms n <-> find_member n ms = None.
Proof. symmetry. apply find_member_none. Qed.

(** Which member is used. *)
Lemma resolve_spec ms a :
  match resolve_field_name ms a with
  | Some n => first_named ms (lookup_names a) (at_field ms n)
  | None => Forall (absent ms) (lookup_names a)
  end.
Proof.
  assert (G : forall l, match find (has_field ms) l with
                        | Some n => first_named ms l (at_field ms n)
                        | None => Forall (absent ms) l
                        end).
  { induction l as [|n l IH]; cbn [find]; [constructor|]. unfold has_field at 1. destruct (find_member n ms) as [j|] eqn:E.
    - exists [], n, l. repeat split; [constructor|]. unfold at_field. rewrite E. now apply find_member_first.
    - destruct (find (has_field ms) l) as [m|].
      + destruct IH as (b & x & c & -> & Hb & Hm). exists (n :: b), x, c. repeat split; [|exact Hm].
        constructor; [now apply absent_find|exact Hb].
      + constructor; [now apply absent_find|exact IH]. }
  unfold resolve_field_name, lookup_names. specialize (G (serialized_name a :: a_aliases a)). cbn [find] in G.
  destruct (has_field ms (serialized_name a)); exact G.
Qed.

Lemma first_named_fun ms l : forall j j', first_named ms l j -> first_named ms l j' -> j = j'.
Proof.
  intros j j' (b & n & c & E & Hb & Hm) (b' & n' & c' & E' & Hb' & Hm').
  assert (H : b = b' /\ n = n').
  { subst l. revert b' Hb' E'. induction b as [|x b IH]; intros [|y b'] Hb' E'; cbn in E'.
    - injection E' as -> _. auto.
    - injection E' as -> _. inversion Hb'; subst. exfalso. apply H1. apply first_member_in. eauto.
    - injection E' as -> _. inversion Hb; subst. exfalso. apply H1. apply first_member_in. eauto.
    - injection E' as -> E'. inversion Hb; subst. inversion Hb'; subst. destruct (IH H2 b' H4 E') as [-> ->]. auto. }
  destruct H as [-> ->]. eapply first_member_fun; eassumption.
Qed.

Lemma first_named_absent ms l j : first_named ms l j -> ~ Forall (absent ms) l.
Proof.
  intros (b & n & c & -> & _ & Hm) H. apply Forall_app in H. destruct H as [_ H]. inversion H; subst.
  apply H2. apply first_member_in. eauto.
Qed.

Lemma first_named_or_absent ms l : (exists j, first_named ms l j) \/ Forall (absent ms) l.
Proof.
  induction l as [|n l IH]; [right; constructor|].
  destruct (find_member n ms) as [j|] eqn:E.
  - left. exists j, [], n, l. repeat split; [constructor|now apply find_member_first].
  - apply absent_find in E. destruct IH as [(j & b & x & c & -> & Hb & Hm)|IH].
    + left. exists j, (n :: b), x, c. repeat split; [|exact Hm]. now constructor.
    + right. now constructor.
Qed.

Lemma read_field_policy a read ms v :
  (forall j, first_named ms (lookup_names a) j -> present_policy a read j v (read_field a read ms v)) /\
  (Forall (absent ms) (lookup_names a) -> missing_policy a read v (read_field a read ms v)).
Proof.
  pose proof (resolve_spec ms a) as H. unfold read_field. destruct (resolve_field_name ms a) as [n|]; split.
  - intros j Hj. assert (j = at_field ms n) by (eapply first_named_fun; eassumption). subst j. unfold present_policy.
    destruct (at_field ms n), (a_default a); reflexivity.
  - intros Ha. now destruct (first_named_absent _ _ _ H).
  - intros j Hj. now destruct (first_named_absent _ _ _ Hj).
  - intros _. unfold missing_policy. destruct (a_default a); [reflexivity|]. destruct (a_allow_missing a); [reflexivity|].
    unfold at_field. inversion H; subst. apply absent_find in H2. now rewrite H2.
Qed.

Lemma patch_field_policy a pat ms v :
  (forall j, first_named ms (lookup_names a) j -> present_policy a pat j v (patch_field a pat ms v)) /\
  (Forall (absent ms) (lookup_names a) -> patch_field a pat ms v = (v, None)).
Proof.
  pose proof (resolve_spec ms a) as H. unfold patch_field. destruct (resolve_field_name ms a) as [n|]; split.
  - intros j Hj. assert (j = at_field ms n) by (eapply first_named_fun; eassumption). subst j. unfold present_policy.
    destruct (at_field ms n), (a_default a); reflexivity.
  - intros Ha. now destruct (first_named_absent _ _ _ H).
  - intros j Hj. now destruct (first_named_absent _ _ _ Hj).
  - reflexivity.
Qed.

(* ------------------------------------------------------------------ *)
(** ** Extra fields *)

Lemma map_loop_collects f d ms : forall acc m, map_loop f d ms acc = (m, None) -> sorted_keys acc ->
  sorted_keys m /\
  forall k, map_find k m = match map_find k acc with
                           | Some v => Some v
                           | None => match find_member k ms with Some j => Some (fst (f j d)) | None => None end
                           end /\
            (forall j, find_member k ms = Some j -> snd (f j d) = None).
Proof.
  induction ms as [|[k0 j0] ms IH]; intros acc m H Hs; cbn [map_loop] in H.
  - injection H as <-. split; [exact Hs|]. intros k. cbn. split; [now destruct (map_find k acc)|discriminate].
  - destruct (f j0 d) as [v0 [e|]] eqn:Ef; [discriminate|]. destruct (IH _ _ H (map_emplace_sorted k0 v0 acc Hs)) as [H1 H2].
    split; [exact H1|]. intros k. destruct (H2 k) as [H3 H4]. rewrite H3, map_emplace_find. cbn [find_member].
    destruct (str_eqb k0 k) eqn:E.
    + split; [destruct (map_find k acc); [reflexivity|now rewrite Ef]|]. intros j [= <-]. now rewrite Ef.
    + split; [destruct (map_find k acc); reflexivity|exact H4].
Qed.

Lemma find_filter names k ms : find_member k (filter (unreserved names) ms) =
  if in_set k names then None else find_member k ms.
Proof.
  induction ms as [|[k' j] ms IH]; cbn [filter find_member]; [now destruct (in_set k names)|].
  unfold unreserved at 1. cbn [fst]. destruct (in_set k' names) eqn:E; cbn [negb].
  - rewrite IH. destruct (str_eqb k' k) eqn:E'; [|reflexivity]. apply str_eqb_true in E'. subst. now rewrite E.
  - cbn [find_member]. destruct (str_eqb k' k) eqn:E'; [|exact IH]. apply str_eqb_true in E'. subst. now rewrite E.
Qed.

Lemma extra_loop_collects f d names ms m : extra_loop f d names ms [] = (m, None) -> collects f d names ms m.
Proof.
  rewrite extra_loop_filter. intros H. destruct (map_loop_collects _ _ _ _ _ H I) as [H1 H2]. split; [exact H1|].
  intros k v. destruct (H2 k) as [H3 H4]. rewrite H3. cbn [map_find]. rewrite find_filter in *.
  destruct (in_set k names) eqn:E.
  - apply in_set_true in E. split; [discriminate|tauto].
  - apply in_set_false in E. destruct (find_member k ms) as [j|] eqn:Ej.
    + split.
      * intros [= <-]. split; [exact E|]. exists j. split; [now apply find_member_first|].
        specialize (H4 j eq_refl). destruct (f j d); cbn in *. congruence.
      * intros (_ & j' & Hj & Hf). apply find_member_first in Hj. assert (j' = j) by congruence. subst. now rewrite Hf.
    + split; [discriminate|]. intros (_ & j' & Hj & _). apply find_member_first in Hj. congruence.
Qed.

(* ------------------------------------------------------------------ *)
(** ** Structs *)

Section WithBackend.
Context (be : backend).

Lemma members_in_order names ms fs : all1 field_ok fs -> forall vs, length vs = length fs ->
  in_order (field_reads (deser be) names ms) fs vs
    (fst (deser_members (deser be) names ms fs vs)) (snd (deser_members (deser be) names ms fs vs)).
Proof.
  induction fs as [|[a t] fs IH]; intros Ho [|v vs] Hl; try discriminate; [reflexivity|].
  injection Hl as Hl. destruct Ho as [Ho1 Ho2]. specialize (IH Ho2 vs Hl). cbn [deser_members].
  set (one := if a_skip_deser a then _ else _).
  assert (H1 : field_reads (deser be) names ms (a, t) v one).
  { subst one. unfold field_reads. destruct (a_skip_deser a); [reflexivity|]. destruct (a_extra a) eqn:Ee.
    - destruct Ho1 as (_ & _ & _ & Hm). cbn in Hm. specialize (Hm Ee). destruct t; try contradiction.
      destruct (extra_loop (deser be t) (default_of t) names ms []) as [m e] eqn:El. exists m. split; [reflexivity|].
      cbn. intros ->. now apply extra_loop_collects.
    - destruct (a_flatten a); [reflexivity|]. apply read_field_policy. }
  destruct one as [v' [e|]].
  - cbn. right. exists e. auto.
  - destruct (deser_members (deser be) names ms fs vs) as [r e]. cbn in *. left. auto.
Qed.

Lemma patch_members_in_order names ms fs : all1 field_ok fs -> forall vs, all2 (fun g => typed (snd g)) fs vs ->
  in_order (field_patches (patch be) ms) fs vs
    (fst (patch_members (patch be) names ms fs vs)) (snd (patch_members (patch be) names ms fs vs)).
Proof.
  induction fs as [|[a t] fs IH]; intros Ho [|v vs] Hv; cbn in Hv; try contradiction; [reflexivity|].
  destruct Ho as [Ho1 Ho2]. specialize (IH Ho2 vs (proj2 Hv)). cbn [patch_members].
  set (one := if a_skip_deser a then _ else _).
  assert (H1 : field_patches (patch be) ms (a, t) v one).
  { subst one. unfold field_patches. destruct (a_skip_deser a); [reflexivity|]. destruct (a_extra a) eqn:Ee.
    - destruct Ho1 as (_ & _ & _ & Hm). cbn in Hm. specialize (Hm Ee). destruct t; try contradiction.
      destruct Hv as [Hv _]. cbn in Hv. destruct v; try contradiction.
      destruct (patch_extra_loop (patch be t) (default_of t) names ms kvs) as [m e]. now exists m.
    - destruct (a_flatten a); [reflexivity|]. apply patch_field_policy. }
  destruct one as [v' [e|]].
  - cbn. right. exists e. auto.
  - destruct (patch_members (patch be) names ms fs vs) as [r e]. cbn in *. left. auto.
Qed.

(** The names that the extra fields of a struct do not take. *)
Definition reserved_of (fs : list (attrs * ty)) : list str := all_names (TRec fs).

Lemma collects_names f d names names' ms m : (forall k, In k names <-> In k names') ->
  collects f d names ms m -> collects f d names' ms m.
Proof.
  intros E [H1 H2]. split; [exact H1|]. intros k v. rewrite H2, (E k). reflexivity.
Qed.

Lemma in_order_impl (P Q : attrs * ty -> val -> dres -> Prop) fs : (forall f v r, In f fs -> P f v r -> Q f v r) ->
  forall vs vs' e, in_order P fs vs vs' e -> in_order Q fs vs vs' e.
Proof.
  induction fs as [|f fs IH]; intros H [|v vs] [|v' vs'] e; cbn [in_order]; auto.
  intros [[H1 H2]|(x & -> & H1 & ->)].
  - left. split; [apply H; [now left|exact H1]|]. apply IH; [|exact H2]. intros; apply H; [now right|assumption].
  - right. exists x. repeat split. apply H; [now left|exact H1].
Qed.

(** Reading an object. *)
Lemma deser_object_lemma fs ms vs : wf (TRec fs) -> typed (TRec fs) (VRec vs) ->
  (any_extra_or_flatten fs = true -> distinct_names (TRec fs)) ->
  exists vs' e, deser be (TRec fs) (JObj ms) (VRec vs) = (VRec vs', e) /\
    in_order (field_reads (deser be) (all_names (TRec fs)) ms) fs vs vs' e.
Proof.
  intros (Hw & Ho & _) Hv Hd. cbn [deser]. cbn [typed] in Hv.
  assert (Hn : exists names, reserved_field_names fs = Ok names /\ (any_extra_or_flatten fs = true -> names = all_names (TRec fs))).
  { destruct (any_extra_or_flatten fs) eqn:E.
    - destruct (reserved_distinct fs (Hd eq_refl)) as (ns & E1 & E2). exists ns. split; [exact E1|auto].
    - exists []. split; [now apply reserved_none|discriminate]. }
  destruct Hn as (names & -> & Hn).
  pose proof (members_in_order names ms fs Ho vs) as H. rewrite <- (all2_length _ _ _ Hv) in H. specialize (H eq_refl).
  destruct (deser_members (deser be) names ms fs vs) as [r e]. exists r, e. split; [reflexivity|]. cbn [fst snd] in H.
  eapply in_order_impl; [|exact H]. intros [a t] v x Hin Hx. unfold field_reads in *.
  destruct (a_skip_deser a); [exact Hx|]. destruct (a_extra a) eqn:Ee; [|exact Hx].
  rewrite (Hn (any_in fs a t Hin (or_introl Ee))) in Hx. exact Hx.
Qed.

(** A struct whose names clash is refused before anything is read. *)
Lemma deser_clash_lemma fs ms vs : any_extra_or_flatten fs = true -> ~ distinct_names (TRec fs) ->
  deser be (TRec fs) (JObj ms) (VRec vs) = (VRec vs, Some ELogic) /\
  patch be (TRec fs) (JObj ms) (VRec vs) = (VRec vs, Some ELogic) /\
  forall skip, serialize be skip (TRec fs) (VRec vs) = Throws.
Proof.
  intros E Hd. pose proof (reserved_ok fs E) as H. pose proof (reserved_defined fs) as Hu.
  destruct (reserved_field_names fs) as [names| |] eqn:En; [|clear H|congruence].
  - destruct (proj1 (H names) eq_refl) as [_ Hx]. contradiction.
  - cbn [deser patch]. unfold serialize. cbn [ser]. rewrite En. auto.
Qed.

(** Patching an object. *)
Lemma patch_object_lemma fs ms vs : wf (TRec fs) -> typed (TRec fs) (VRec vs) ->
  (any_extra_or_flatten fs = true -> distinct_names (TRec fs)) ->
  exists vs' e, patch be (TRec fs) (JObj ms) (VRec vs) = (VRec vs', e) /\
    in_order (field_patches (patch be) ms) fs vs vs' e.
Proof.
  intros (Hw & Ho & _) Hv Hd. cbn [patch]. cbn [typed] in Hv.
  assert (Hn : exists names, reserved_field_names fs = Ok names).
  { destruct (any_extra_or_flatten fs) eqn:E.
    - destruct (reserved_distinct fs (Hd eq_refl)) as (ns & E1 & E2). eauto.
    - exists []. now apply reserved_none. }
  destruct Hn as (names & ->).
  pose proof (patch_members_in_order names ms fs Ho vs Hv) as H.
  destruct (patch_members (patch be) names ms fs vs) as [r e]. exists r, e. split; [reflexivity|exact H].
Qed.

(* ------------------------------------------------------------------ *)
(** ** Fields one at a time *)

Lemma in_order_nth (P : attrs * ty -> val -> dres -> Prop) fs : forall vs vs', in_order P fs vs vs' None ->
  forall i f v v', nth_error fs i = Some f -> nth_error vs i = Some v -> nth_error vs' i = Some v' -> P f v (v', None).
Proof.
  induction fs as [|f fs IH]; intros [|v vs] [|v' vs'] H [|i] g x x'; cbn; try discriminate; cbn [in_order] in H;
    destruct H as [[H1 H2]|(y & E & _)]; try discriminate.
  - now intros [= <-] [= <-] [= <-].
  - intros Hg Hx Hx'. eapply IH; eassumption.
Qed.

(** Reading succeeded: the three cases for every ordinary field. *)
Lemma policy_lemma fs ms vs vs' : wf (TRec fs) -> typed (TRec fs) (VRec vs) ->
  deser be (TRec fs) (JObj ms) (VRec vs) = (VRec vs', None) ->
  forall i a t v v', nth_error fs i = Some (a, t) -> nth_error vs i = Some v -> nth_error vs' i = Some v' ->
  ordinary a ->
  (Forall (absent ms) (lookup_names a) ->
     match a_default a with
     | Some d => v' = d
     | None => if a_allow_missing a then v' = v else deser be t JNull v = (v', None)
     end) /\
  (first_named ms (lookup_names a) JNull ->
     match a_default a with Some d => v' = d | None => deser be t JNull v = (v', None) end) /\
  (forall j, j <> JNull -> first_named ms (lookup_names a) j -> deser be t j v = (v', None)).
Proof.
  intros Hw Hv H i a t v v' Ha Hvi Hv' (O1 & O2 & O3).
  assert (Hd : any_extra_or_flatten fs = true -> distinct_names (TRec fs)).
  { intros E. cbn [deser] in H. destruct (reserved_field_names fs) as [ns| |] eqn:En; try discriminate.
    apply reserved_ok in En; [|exact E]. apply En. }
  destruct (deser_object_lemma fs ms vs Hw Hv Hd) as (vs2 & e & E & Hord). rewrite H in E. injection E as <- <-.
  pose proof (in_order_nth _ _ _ _ Hord i _ _ _ Ha Hvi Hv') as P. cbn [field_reads] in P. rewrite O1, O2, O3 in P.
  destruct P as [P1 P2].
  assert (Htv : forall r, (v', None) = then_validate a r -> r = (v', None)).
  { intros [x [e|]]; cbn; congruence. }
  split; [|split].
  - intros Hab. specialize (P2 Hab). unfold missing_policy in P2. destruct (a_default a); [congruence|].
    destruct (a_allow_missing a); [congruence|]. now apply Htv.
  - intros Hn. specialize (P1 _ Hn). unfold present_policy in P1. destruct (a_default a); [congruence|]. now apply Htv.
  - intros j Hj Hn. specialize (P1 _ Hn). unfold present_policy in P1. destruct j; try congruence; now apply Htv.
Qed.

(** Reading succeeded: what came out of the document satisfies the validators. *)
Lemma validators_lemma fs ms vs vs' : wf (TRec fs) -> typed (TRec fs) (VRec vs) ->
  deser be (TRec fs) (JObj ms) (VRec vs) = (VRec vs', None) ->
  forall i a t v v', nth_error fs i = Some (a, t) -> nth_error vs i = Some v -> nth_error vs' i = Some v' ->
  ordinary a ->
  (exists j, first_named ms (lookup_names a) j /\ (j <> JNull \/ a_default a = None)) \/
  (Forall (absent ms) (lookup_names a) /\ a_default a = None /\ a_allow_missing a = false) ->
  accepted a v'.
Proof.
  intros Hw Hv H i a t v v' Ha Hvi Hv' (O1 & O2 & O3) Hread.
  assert (Hd : any_extra_or_flatten fs = true -> distinct_names (TRec fs)).
  { intros E. cbn [deser] in H. destruct (reserved_field_names fs) as [ns| |] eqn:En; try discriminate.
    apply reserved_ok in En; [|exact E]. apply En. }
  destruct (deser_object_lemma fs ms vs Hw Hv Hd) as (vs2 & e & E & Hord). rewrite H in E. injection E as <- <-.
  pose proof (in_order_nth _ _ _ _ Hord i _ _ _ Ha Hvi Hv') as P. cbn [field_reads] in P. rewrite O1, O2, O3 in P.
  destruct P as [P1 P2].
  assert (Htv : forall r, (v', None) = then_validate a r -> accepted a v').
  { intros [x [e|]]; cbn; intros Er; [congruence|]. injection Er as <- Er. now apply accepted_validate. }
  destruct Hread as [(j & Hj & Hc)|(Hab & E1 & E2)].
  - specialize (P1 _ Hj). unfold present_policy in P1. destruct Hc as [Hc|Hc].
    + destruct j; try congruence; eapply Htv; exact P1.
    + rewrite Hc in P1. destruct j; eapply Htv; exact P1.
  - specialize (P2 Hab). unfold missing_policy in P2. rewrite E1, E2 in P2. eapply Htv. exact P2.
Qed.

(** The same for a struct read from an array. *)
Lemma elements_accepted js fs : forall k vs vs', deser_elements (deser be) js fs k vs = (vs', None) ->
  forall i a t v', nth_error fs i = Some (a, t) -> nth_error vs' i = Some v' -> a_skip_deser a = false -> accepted a v'.
Proof.
  induction fs as [|[a t] fs IH]; intros k [|v vs] vs' H [|i] b u x; cbn [nth_error]; try discriminate;
    cbn [deser_elements] in H.
  - intros [= -> ->] Hx Hs. rewrite Hs in H. destruct (a_extra b || a_flatten b); [discriminate|].
    destruct (deser be u (at_index js k) v) as [v1 [e|]] eqn:E; cbn [then_validate] in H; [discriminate|].
    destruct (validate (a_validators b) v1) eqn:Ev; [discriminate|].
    destruct (deser_elements (deser be) js fs (S k) vs) as [r e]. injection H as <- ->. cbn in Hx. injection Hx as <-.
    now apply accepted_validate.
  - intros Hb Hx Hs. destruct (a_skip_deser a).
    { destruct (deser_elements (deser be) js fs k vs) as [r e] eqn:Er. injection H as <- ->. eapply IH; eassumption. }
    destruct (a_extra a || a_flatten a); [discriminate|].
    destruct (then_validate a (deser be t (at_index js k) v)) as [v1 [e|]]; [discriminate|].
    destruct (deser_elements (deser be) js fs (S k) vs) as [r e] eqn:Er. injection H as <- ->. eapply IH; eassumption.
Qed.

Lemma array_validators_lemma fs js vs vs' :
  deser be (TRec fs) (JArr js) (VRec vs) = (VRec vs', None) ->
  forall i a t v', nth_error fs i = Some (a, t) -> nth_error vs' i = Some v' -> a_skip_deser a = false -> accepted a v'.
Proof.
  cbn [deser]. intros H. destruct (sequence_field_count fs <? length js); [discriminate|].
  destruct (deser_elements (deser be) js fs 0 vs) as [r e] eqn:E. injection H as -> ->. eapply elements_accepted; exact E.
Qed.

(* ------------------------------------------------------------------ *)
(** ** Validity as an invariant *)

Lemma default_validated t : defaults_validated t -> validated t (default_of t).
Proof.
  induction t as [ |it| | | |t IH|t IH|n t IH|t IH|ts IH|e|e|fs IH] using ty_ind0; intros H; cbn [validated default_of]; auto.
  - exact I.
  - apply all1_in. intros x Hx. apply repeat_spec in Hx. subst. now apply IH.
  - exact I.
  - cbn [defaults_validated] in H. induction ts as [|t ts IHts]; [exact I|]. inversion IH; subst. cbn. split; [exact (H2 (proj1 H))|].
    exact (IHts H3 (proj2 H)).
  - cbn [defaults_validated] in H. clear IH. induction fs as [|f fs IHfs]; [exact I|]. cbn [map all2]. destruct H as [H H0].
    split; [exact (proj1 H)|exact (IHfs H0)].
Qed.

Definition keeps_valid (f : json -> val -> dres) (t : ty) : Prop :=
  forall j w v, validated t w -> f j w = (v, None) -> validated t v.

Lemma seq_loop_valid f t d js : keeps_valid f t -> validated t d -> forall acc r, all1 (validated t) acc ->
  seq_loop f d js acc = (r, None) -> all1 (validated t) r.
Proof.
  intros Hf Hd. induction js as [|j js IH]; intros acc r Ha H; cbn [seq_loop] in H; [now injection H as <-|].
  destruct (f j d) as [v [e|]] eqn:E; [discriminate|]. eapply IH; [|exact H]. apply all1_app. split; [exact Ha|].
  cbn. split; [|exact I]. eapply Hf; eassumption.
Qed.

Lemma arr_loop_valid f t js : keeps_valid f t -> forall vs i r, all1 (validated t) vs ->
  arr_loop f js i vs = (r, None) -> all1 (validated t) r.
Proof.
  intros Hf. induction vs as [|v vs IH]; intros i r Ha H; cbn [arr_loop] in H; [now injection H as <-|].
  destruct (f (at_index js i) v) as [v' [e|]] eqn:E; [discriminate|]. destruct Ha as [Ha1 Ha2].
  destruct (arr_loop f js (S i) vs) as [r' e] eqn:Er. injection H as <- ->. cbn. split; [eapply Hf; eassumption|].
  eapply IH; eassumption.
Qed.

Lemma map_loop_valid f t d ms : keeps_valid f t -> validated t d -> forall acc r,
  all1 (fun kv => validated t (snd kv)) acc -> map_loop f d ms acc = (r, None) -> all1 (fun kv => validated t (snd kv)) r.
Proof.
  intros Hf Hd. induction ms as [|[k j] ms IH]; intros acc r Ha H; cbn [map_loop] in H; [now injection H as <-|].
  destruct (f j d) as [v [e|]] eqn:E; [discriminate|]. eapply IH; [|exact H]. apply all1_in. intros x Hx.
  apply map_emplace_in in Hx. destruct Hx as [-> |Hx]; [cbn; eapply Hf; eassumption|].
  exact (proj1 (all1_in _ _) Ha x Hx).
Qed.

Lemma patch_extra_valid f t d names ms : keeps_valid f t -> validated t d -> forall acc r,
  all1 (fun kv => validated t (snd kv)) acc -> patch_extra_loop f d names ms acc = (r, None) ->
  all1 (fun kv => validated t (snd kv)) r.
Proof.
  intros Hf Hd. induction ms as [|[k j] ms IH]; intros acc r Ha H; cbn [patch_extra_loop] in H; [now injection H as <-|].
  destruct (in_set k names); [eapply IH; eassumption|]. destruct (map_find k acc) as [w|] eqn:Ek.
  - assert (Hw : validated t w) by (apply map_find_in in Ek; exact (proj1 (all1_in _ _) Ha _ Ek)).
    destruct (f j w) as [v [e|]] eqn:E; [discriminate|]. eapply IH; [|exact H]. apply all1_in. intros x Hx.
    apply map_assign_in in Hx. destruct Hx as [-> |Hx]; [cbn; eapply Hf; eassumption|].
    exact (proj1 (all1_in _ _) Ha x Hx).
  - destruct (f j d) as [v [e|]] eqn:E; [discriminate|]. eapply IH; [|exact H]. apply all1_in. intros x Hx.
    apply map_emplace_in in Hx. destruct Hx as [-> |Hx]; [cbn; eapply Hf; eassumption|].
    exact (proj1 (all1_in _ _) Ha x Hx).
Qed.

Lemma field_valid_step a t v' : forall r, (v', None) = then_validate a r -> (forall x, r = (x, None) -> validated t x) ->
  field_validated validated (a, t) v'.
Proof.
  intros [x [e|]]; cbn; intros E H; [discriminate|]. injection E as <- E. split; [|now apply H].
  intros _ _ _. now apply accepted_validate.
Qed.

Lemma deser_valid t : wf t -> defaults_validated t -> keeps_valid (deser be t) t.
Proof.
  induction t as [ |it| | | |t IH|t IH|n t IH|t IH|ts IH|e|e|fs IH] using ty_ind1; intros Hw Hd j w v Hv H;
    try exact I; cbn [deser] in H.
  - destruct (is_null j); [injection H as <-; exact I|]. destruct (deser be t j (default_of t)) as [x [e|]] eqn:E; [discriminate|].
    injection H as <-. cbn. eapply IH; [exact Hw|exact Hd|now apply default_validated|exact E].
  - destruct j; try discriminate. destruct (seq_loop (deser be t) (default_of t) js []) as [r e] eqn:E. injection H as <- ->.
    exact (seq_loop_valid _ t (default_of t) js (IH Hw Hd) (default_validated t Hd) [] r I E).
  - destruct w as [b|z|b|b|s| |w|ws|m|ws]; cbn in Hv; try contradiction. destruct j; try discriminate.
    destruct (length ws <? length js); [discriminate|]. destruct (arr_loop (deser be t) js 0 ws) as [r e] eqn:E.
    injection H as <- ->. cbn. eapply arr_loop_valid; [now apply IH|exact Hv|exact E].
  - destruct j; try discriminate. destruct (map_loop (deser be t) (default_of t) ms []) as [r e] eqn:E. injection H as <- ->.
    exact (map_loop_valid _ t (default_of t) ms (IH Hw Hd) (default_validated t Hd) [] r I E).
  - destruct w as [b|z|b|b|s| |w|ws|m|ws]; cbn in Hv; try contradiction. destruct j; try discriminate.
    destruct (length ts <? length js); [discriminate|]. destruct (deser_tuple (deser be) js ts 0 ws) as [r e] eqn:E.
    injection H as <- ->. cbn. revert ws r Hv E. generalize 0. cbn [wf defaults_validated] in *.
    induction ts as [|t ts IHts]; intros k [|w ws] r Hv E; cbn in Hv; try contradiction; cbn [deser_tuple] in E.
    + injection E as <-. exact I.
    + inversion IH as [|? ? IH1 IH2]; subst. destruct (deser be t (at_index js k) w) as [v' [e|]] eqn:Ev; [discriminate|].
      destruct (deser_tuple (deser be) js ts (S k) ws) as [r' e] eqn:Er. injection E as <- ->. cbn. split.
      * eapply (IH1 (proj1 Hw) (proj1 Hd)); [apply Hv|exact Ev].
      * eapply IHts; [exact IH2|apply Hw|apply Hd|apply Hv|exact Er].
  - destruct Hw as (Hw & Ho & _). destruct w as [b|z|b|b|s| |w|ws|m|ws]; cbn [validated] in Hv; try contradiction.
    destruct j; try discriminate.
    + destruct (sequence_field_count fs <? length js); [discriminate|].
      destruct (deser_elements (deser be) js fs 0 ws) as [r e] eqn:E. injection H as <- ->. cbn [validated].
      revert ws r Hv E. generalize 0. cbn [defaults_validated] in Hd.
      induction fs as [|[a t] fs IHfs]; intros k [|w ws] r Hv E; cbn [all2] in Hv; try contradiction; cbn [deser_elements] in E.
      { injection E as <-. exact I. }
      inversion IH as [|? ? IH1 IH2]; subst. destruct Hw as [Hw1 Hw2]. destruct Ho as [Ho1 Ho2]. destruct Hv as [Hv1 Hv2].
      destruct Hd as [(Hd1 & Hd2 & Hd3) Hd4]. cbn [fst snd] in *. destruct (a_skip_deser a) eqn:Es.
      { destruct (deser_elements (deser be) js fs k ws) as [r' e] eqn:Er. injection E as <- ->. cbn [all2]. split; [exact Hv1|].
        eapply IHfs; eassumption. }
      destruct (a_extra a || a_flatten a); [discriminate|].
      destruct (then_validate a (deser be t (at_index js k) w)) as [v' [e|]] eqn:Ev; [discriminate|].
      destruct (deser_elements (deser be) js fs (S k) ws) as [r' e] eqn:Er. injection E as <- ->. cbn [all2]. split.
      * eapply field_valid_step; [symmetry; exact Ev|]. intros x Hx. eapply (proj1 IH1 Hw1 Hd3); [apply Hv1|exact Hx].
      * eapply IHfs; eassumption.
    + destruct (reserved_field_names fs) as [names| |]; try discriminate.
      destruct (deser_members (deser be) names ms fs ws) as [r e] eqn:E. injection H as <- ->. cbn [validated].
      revert ws r Hv E. cbn [defaults_validated] in Hd.
      induction fs as [|[a t] fs IHfs]; intros [|w ws] r Hv E; cbn [all2] in Hv; try contradiction; cbn [deser_members] in E.
      { injection E as <-. exact I. }
      inversion IH as [|? ? IH1 IH2]; subst. destruct Hw as [Hw1 Hw2]. destruct Ho as [Ho1 Ho2]. destruct Hv as [Hv1 Hv2].
      destruct Hd as [(Hd1 & Hd2 & Hd3) Hd4]. cbn [fst snd] in *.
      set (one := if a_skip_deser a then _ else _) in E.
      assert (H1 : forall v', one = (v', None) -> field_validated validated (a, t) v').
      { subst one. intros v'. destruct (a_skip_deser a) eqn:Es; [now intros [= <-]|]. destruct (a_extra a) eqn:Ee.
        - destruct t as [ |it| | | |t|t|n t|te|ts|e|e|gs]; try discriminate.
          rewrite extra_loop_filter. destruct (map_loop (deser be te) (default_of te) _ []) as [m e] eqn:El. intros [= <- ->].
          split; [congruence|]. exact (map_loop_valid _ te _ _ (proj2 IH1 te eq_refl Hw1 Hd3) (default_validated te Hd3) [] m I El).
        - destruct (a_flatten a) eqn:Ef.
          + intros Ex. split; [congruence|]. eapply (proj1 IH1 Hw1 Hd3); [apply Hv1|exact Ex].
          + pose proof (resolve_spec ms a) as Hr. unfold read_field.
            assert (Htv : forall jj, then_validate a (deser be t jj w) = (v', None) -> field_validated validated (a, t) v').
            { intros jj Ex. eapply field_valid_step; [symmetry; exact Ex|]. intros x Hx. eapply (proj1 IH1 Hw1 Hd3); [apply Hv1|exact Hx]. }
            destruct (resolve_field_name ms a) as [n|].
            * destruct (is_null (at_field ms n)), (a_default a) as [d|] eqn:Ed; try apply Htv. intros [= <-]. now apply Hd2.
            * destruct (a_default a) as [d|] eqn:Ed; [intros [= <-]; now apply Hd2|].
              destruct (a_allow_missing a); [now intros [= <-]|apply Htv]. }
      destruct one as [v' [e|]]; [discriminate|]. specialize (H1 v' eq_refl).
      destruct (deser_members (deser be) names ms fs ws) as [r' e] eqn:Er. injection E as <- ->. cbn [all2]. split; [exact H1|].
      eapply IHfs; eassumption.
Qed.

Lemma patch_valid t : wf t -> defaults_validated t -> keeps_valid (patch be t) t.
Proof.
  induction t as [ |it| | | |t IH|t IH|n t IH|t IH|ts IH|e|e|fs IH] using ty_ind1; intros Hw Hd j w v Hv H;
    try (exact (deser_valid _ Hw Hd j w v Hv H)).
  - cbn [patch] in H. destruct (is_null j); [injection H as <-; exact I|].
    destruct w as [b|z|b|b|s| |w|ws|m|ws]; cbn in Hv; try contradiction.
    + destruct (patch be t j (default_of t)) as [x [e|]] eqn:E; [discriminate|].
      injection H as <-. cbn. eapply IH; [exact Hw|exact Hd|now apply default_validated|exact E].
    + destruct (patch be t j w) as [x e] eqn:E. injection H as <- ->. cbn. eapply IH; eassumption.
  - destruct w as [b|z|b|b|s| |w|ws|m|ws]; cbn [validated] in Hv; try contradiction.
    destruct j; try (exact (deser_valid _ Hw Hd _ (VRec ws) v Hv H)). cbn [patch] in H.
    destruct Hw as (Hw & Ho & _).
    destruct (reserved_field_names fs) as [names| |]; try discriminate.
    destruct (patch_members (patch be) names ms fs ws) as [r e] eqn:E. injection H as <- ->. cbn [validated].
    revert ws r Hv E. cbn [defaults_validated] in Hd.
    induction fs as [|[a t] fs IHfs]; intros [|w ws] r Hv E; cbn [all2] in Hv; try contradiction; cbn [patch_members] in E.
    { injection E as <-. exact I. }
    inversion IH as [|? ? IH1 IH2]; subst. destruct Hw as [Hw1 Hw2]. destruct Ho as [Ho1 Ho2]. destruct Hv as [Hv1 Hv2].
    destruct Hd as [(Hd1 & Hd2 & Hd3) Hd4]. cbn [fst snd] in *.
    set (one := if a_skip_deser a then _ else _) in E.
    assert (H1 : forall v', one = (v', None) -> field_validated validated (a, t) v').
    { subst one. intros v'. destruct (a_skip_deser a) eqn:Es; [now intros [= <-]|]. destruct (a_extra a) eqn:Ee.
      - destruct t as [ |it| | | |t|t|n t|te|ts|e|e|gs]; try discriminate.
        destruct w as [b|z|b|b|s| |w|us|m|us]; try discriminate.
        destruct (patch_extra_loop (patch be te) (default_of te) names ms m) as [m' e] eqn:El. intros [= <- ->].
        split; [congruence|]. eapply patch_extra_valid; [exact (proj2 IH1 te eq_refl Hw1 Hd3)|now apply default_validated|apply Hv1|exact El].
      - destruct (a_flatten a) eqn:Ef.
        + intros Ex. split; [congruence|]. eapply (proj1 IH1 Hw1 Hd3); [apply Hv1|exact Ex].
        + unfold patch_field. destruct (resolve_field_name ms a) as [n|]; [|now intros [= <-]].
          assert (Htv : forall jj, then_validate a (patch be t jj w) = (v', None) -> field_validated validated (a, t) v').
          { intros jj Ex. eapply field_valid_step; [symmetry; exact Ex|]. intros x Hx. eapply (proj1 IH1 Hw1 Hd3); [apply Hv1|exact Hx]. }
          destruct (is_null (at_field ms n)), (a_default a) as [d|] eqn:Ed; try apply Htv. intros [= <-]. now apply Hd2. }
    destruct one as [v' [e|]]; [discriminate|]. specialize (H1 v' eq_refl).
    destruct (patch_members (patch be) names ms fs ws) as [r' e] eqn:Er. injection E as <- ->. cbn [all2]. split; [exact H1|].
    eapply IHfs; eassumption.
Qed.

End WithBackend.
