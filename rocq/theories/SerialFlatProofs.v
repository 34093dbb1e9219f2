(** Extra fields of flattened structs take the members of the outer struct. *)
From Coq Require Import List NArith Arith Bool Lia.
From Verif Require Import Base SerialModel SerialSpec SerialBaseProofs SerialKeyProofs SerialFieldProofs SerialRoundProofs SerialFlatSpec.
Import ListNotations.

Lemma extra_loop_key f d names ms m k : extra_loop f d names ms [] = (m, None) ->
  In k (map fst ms) -> ~ In k names -> In k (map fst m).
Proof.
  rewrite extra_loop_filter. intros H Hk Hn. destruct (map_loop_collects _ _ _ _ _ H I) as [_ H2].
  destruct (H2 k) as [H3 _]. cbn [map_find] in H3. rewrite find_filter in H3.
  apply in_set_false in Hn. rewrite Hn in H3. destruct (find_member k ms) as [j|] eqn:E.
  - apply (in_map fst) with (x := (k, fst (f j d))). apply map_find_in. exact H3.
  - apply find_member_none in E. contradiction.
Qed.

Lemma members_cons f names ms a t fs v vs : deser_members f names ms ((a, t) :: fs) (v :: vs) =
  let '(v', e) :=
    if a_skip_deser a then (v, None)
    else if a_extra a then
      match t with
      | TMap te => let '(m, e) := extra_loop (f te) (default_of te) names ms [] in (VMap m, e)
      | _ => (v, Some EStuck)
      end
    else if a_flatten a then f t (JObj ms) v
    else read_field a (f t) ms v in
  match e with
  | None => let '(r, e') := deser_members f names ms fs vs in (v' :: r, e')
  | Some _ => (v' :: vs, e)
  end.
Proof. reflexivity. Qed.

Lemma members_nth f names ms fs : forall vs r, deser_members f names ms fs vs = (r, None) ->
  forall i a t, nth_error fs i = Some (a, t) -> a_skip_deser a = false ->
  exists v v', nth_error r i = Some v' /\
    (if a_extra a then
       match t with
       | TMap te => exists m, extra_loop (f te) (default_of te) names ms [] = (m, None) /\ v' = VMap m
       | _ => False
       end
     else if a_flatten a then f t (JObj ms) v = (v', None) else True).
Proof.
  induction fs as [|[a0 t0] fs IH]; intros vs r H i a t Hi Hs; [destruct i; discriminate|].
  destruct vs as [|v0 vs]; [discriminate|]. rewrite members_cons in H.
  match type of H with (let '(_, _) := ?X in _) = _ => destruct X as [v' e] eqn:E end.
  destruct e as [e|]; [discriminate|].
  destruct (deser_members f names ms fs vs) as [r' e'] eqn:E'. injection H as <- ->. destruct i as [|i]; cbn [nth_error] in Hi |- *.
  - injection Hi as -> ->. exists v0, v'. split; [reflexivity|]. rewrite Hs in E.
    destruct (a_extra a).
    + destruct t; try discriminate. destruct (extra_loop _ _ _ _ _) as [m e] eqn:Em. injection E as <- ->. exists m. auto.
    + destruct (a_flatten a); [exact E|exact I].
  - exact (IH vs r' E' i a t Hi Hs).
Qed.

Lemma names_incl fs i a u : nth_error fs i = Some (a, u) -> a_extra a = false -> a_flatten a = true ->
  incl (all_names u) (all_names (TRec fs)).
Proof.
  intros Hi He Hf. cbn [all_names]. revert i Hi. induction fs as [|[a0 u0] fs IH]; intros [|i] Hi; cbn in Hi; try discriminate.
  - injection Hi as -> ->. cbn [all_names_of]. rewrite He, Hf. intros x Hx. apply in_or_app. left. exact Hx.
  - cbn [all_names_of]. intros x Hx. apply in_or_app. right. exact (IH i Hi x Hx).
Qed.

Lemma nth_in {A} (l : list A) i x : nth_error l i = Some x -> In x l.
Proof. apply nth_error_In. Qed.

Section WithBackend.
Context (be : backend) (skip : bool).

Lemma deser_rec fs ms w r : deser be (TRec fs) (JObj ms) w = (r, None) ->
  exists vs vs' names, r = VRec vs' /\ reserved_field_names fs = Ok names /\
    deser_members (deser be) names ms fs vs = (vs', None).
Proof.
  cbn [deser]. destruct w as [| | | | | | | | |vs]; try discriminate. destruct (reserved_field_names fs) as [names| |]; try discriminate.
  destruct (deser_members (deser be) names ms fs vs) as [r0 e] eqn:E. intros H. injection H as <- ->.
  exists vs, r0, names. auto.
Qed.

(** What is read. *)
Lemma read_takes p : forall t ms w v k, extra_path t p -> deser be t (JObj ms) w = (v, None) ->
  In k (map fst ms) -> ~ In k (all_names t) -> exists m, at_path v p = Some (VMap m) /\ In k (map fst m).
Proof.
  induction p as [|i p IH]; intros t ms w v k Hp H Hk Hn; [destruct Hp|].
  destruct t as [| | | | | | | | | | | |fs]; try (destruct p; destruct Hp; fail).
  destruct (deser_rec _ _ _ _ H) as (ws & vs & names & -> & En & Hm).
  destruct p as [|i2 p].
  - destruct Hp as (a & te & Hi & Ha & Hd & _).
    destruct (members_nth _ _ _ _ _ _ Hm i a _ Hi Hd) as (x & v' & Hv & F). rewrite Ha in F. destruct F as (m & Em & ->).
    exists m. cbn [at_path]. rewrite Hv. split; [reflexivity|].
    apply reserved_ok in En; [|apply (any_in fs a (TMap te) (nth_error_In _ _ Hi)); auto]. destruct En as [-> _].
    exact (extra_loop_key _ _ _ _ _ _ Em Hk Hn).
  - destruct Hp as (a & u & Hi & Ha & Hf & Hd & _ & Hp).
    destruct (members_nth _ _ _ _ _ _ Hm i a _ Hi Hd) as (x & v' & Hv & F). rewrite Ha, Hf in F.
    destruct (IH u ms x v' k Hp F Hk) as (m & Em & Hin).
    { intros Hin. apply Hn. exact (names_incl _ _ _ _ Hi Ha Hf _ Hin). }
    exists m. split; [|exact Hin]. change (at_path (VRec vs) (i :: i2 :: p)) with
      (match nth_error vs i with Some x => at_path x (i2 :: p) | None => None end). rewrite Hv. exact Em.
Qed.

Lemma ser_nth names fs : forall vs ms, ser_fields skip (ser be skip) names fs vs = Ok ms ->
  forall i f, nth_error fs i = Some f -> exists v ms1, nth_error vs i = Some v /\ field_members be skip names f v = Ok ms1 /\ incl ms1 ms.
Proof.
  induction fs as [|f fs IH]; intros vs ms H i g Hi; [destruct i; discriminate|].
  destruct vs as [|v vs]; [destruct f; discriminate|]. apply ser_fields_cons in H.
  destruct H as (ms1 & ms2 & H1 & H2 & ->). destruct i as [|i]; cbn [nth_error] in *.
  - injection Hi as <-. exists v, ms1. split; [reflexivity|]. split; [exact H1|]. intros x Hx. apply in_or_app. auto.
  - destruct (IH vs ms2 H2 i g Hi) as (x & ms3 & Hx & E & Hs). exists x, ms3. split; [exact Hx|]. split; [exact E|].
    intros y Hy. apply in_or_app. right. exact (Hs y Hy).
Qed.

Lemma omitted_small a v : a_skip_ser a = false -> omitted skip a v = true -> v = VNone \/ v = VStr [] \/ v = VSeq [] \/ v = VMap [].
Proof.
  unfold omitted, skip_serialized_field, skip_null_field, skip_empty_field, skip_null_value. intros -> H. cbn [orb] in H.
  apply orb_true_iff in H. destruct H as [H|H].
  - left. assert (X : is_null_value v = true).
    { destruct (a_emit_null a); [discriminate|]. destruct (a_skip_if_null a); [exact H|]. apply andb_true_iff in H. apply H. }
    destruct v; try discriminate. reflexivity.
  - right. destruct (a_skip_if_empty a); [|discriminate].
    destruct v as [| | | | [|] | | | [|] | [|] |]; try discriminate; auto.
Qed.

(** What is written. *)
Lemma written_refuses p : forall t names v j k m, extra_path t p -> ser be skip t (Some names) v = Ok j ->
  In k names -> at_path v p = Some (VMap m) -> ~ In k (map fst m).
Proof.
  induction p as [|i p IH]; intros t names v j k m Hp H Hk Hm; [destruct Hp|].
  destruct t as [| | | | | | | | | | | |fs]; try (destruct p; destruct Hp; fail).
  cbn [at_path] in Hm. destruct v as [| | | | | | | | |vs]; try discriminate.
  destruct (ser_rec be skip names _ _ _ _ H eq_refl) as (ms & _ & Hs).
  destruct p as [|i2 p].
  - destruct Hp as (a & te & Hi & Ha & _ & Hsk). destruct (ser_nth _ _ _ _ Hs i _ Hi) as (x & ms1 & Hx & E & _).
    rewrite Hx in Hm. cbn [at_path] in Hm. injection Hm as ->. unfold field_members in E.
    destruct (omitted skip a (VMap m)) eqn:Eo.
    + destruct (omitted_small _ _ Hsk Eo) as [X|[X|[X|X]]]; try discriminate. injection X as ->. intros [].
    + rewrite Ha in E. apply extra_members_map in E. destruct E as [E _]. intros Hin. apply in_map_iff in Hin.
      destruct Hin as (kv & <- & Hin). exact (E kv Hin Hk).
  - destruct Hp as (a & u & Hi & Ha & Hf & _ & Hsk & Hp). destruct (ser_nth _ _ _ _ Hs i _ Hi) as (x & ms1 & Hx & E & _).
    rewrite Hx in Hm. unfold field_members in E. destruct (omitted skip a x) eqn:Eo.
    + destruct (omitted_small _ _ Hsk Eo) as [X|[X|[X|X]]]; subst x; discriminate.
    + rewrite Ha, Hf in E. destruct u; try discriminate. apply obind_ok in E. destruct E as (j1 & E & _).
      exact (IH _ _ _ _ _ _ Hp E Hk Hm).
Qed.

Lemma outer_name_apart fs : forall i l a u ap tp, NoDup (all_names_of all_names fs) ->
  nth_error fs i = Some (a, u) -> a_extra a = false -> a_flatten a = true ->
  nth_error fs l = Some (ap, tp) -> a_extra ap = false -> a_flatten ap = false ->
  ~ In (serialized_name ap) (all_names u) /\ In (serialized_name ap) (all_names_of all_names fs).
Proof.
  assert (IN : forall fs l ap tp, nth_error fs l = Some (ap, tp) -> a_extra ap = false -> a_flatten ap = false ->
    In (serialized_name ap) (all_names_of all_names fs)).
  { intros gs. induction gs as [|[a0 u0] gs IH]; intros [|l] ap tp Hl He Hf; cbn in Hl; try discriminate; cbn [all_names_of]; apply in_or_app.
    - injection Hl as -> ->. rewrite He, Hf. left. left. reflexivity.
    - right. exact (IH l ap tp Hl He Hf). }
  intros i l a u ap tp ND Hi He Hf Hl Hpe Hpf. split; [|exact (IN fs l ap tp Hl Hpe Hpf)].
  revert i l ND Hi Hl. induction fs as [|[a0 u0] fs IH]; intros i l ND Hi Hl; [destruct i; discriminate|].
  cbn [all_names_of] in ND. apply NoDup_app in ND. destruct ND as (N1 & N2 & N3).
  destruct i as [|i], l as [|l]; cbn in Hi, Hl.
  - congruence.
  - injection Hi as -> ->. rewrite He, Hf in N3. intros Hin. exact (N3 _ Hin (IN _ _ _ _ Hl Hpe Hpf)).
  - injection Hl as -> ->. rewrite Hpe, Hpf in N3. intros Hin. apply (N3 (serialized_name ap)); [left; reflexivity|].
    exact (names_incl fs i a u Hi He Hf _ Hin).
  - exact (IH i l N2 Hi Hl).
Qed.

Lemma flattened_never fs i p l ap tp vs vl j w v :
  p <> [] -> extra_path (TRec fs) (i :: p) ->
  nth_error fs l = Some (ap, tp) -> a_extra ap = false -> a_flatten ap = false ->
  nth_error vs l = Some vl -> omitted skip ap vl = false ->
  serialize be skip (TRec fs) (VRec vs) = Ok j -> deser be (TRec fs) j w = (v, None) ->
  exists m, at_path v (i :: p) = Some (VMap m) /\ In (serialized_name ap) (map fst m) /\
    (forall m0, at_path (VRec vs) (i :: p) = Some (VMap m0) -> ~ In (serialized_name ap) (map fst m0)) /\ v <> VRec vs.
Proof.
  intros Hne Hp Hl Hpe Hpf Hvl Ho Hs Hd. destruct p as [|i2 p]; [congruence|].
  pose proof Hp as Hp0. destruct Hp as (a & u & Hi & Ha & Hf & Hsd & Hss & Hp).
  unfold serialize in Hs. assert (En : exists names, reserved_field_names fs = Ok names).
  { cbn [ser] in Hs. destruct (reserved_field_names fs); cbn in Hs; try discriminate. eauto. }
  destruct En as [names En]. destruct (ser_rec be skip names _ _ _ _ Hs En) as (ms & -> & Hf').
  apply reserved_ok in En; [|apply (any_in fs a u (nth_error_In _ _ Hi)); auto]. destruct En as [-> [ND _]].
  destruct (outer_name_apart fs i l a u ap tp ND Hi Ha Hf Hl Hpe Hpf) as [Hout Hin].
  assert (Hk : In (serialized_name ap) (map fst ms)).
  { destruct (ser_nth _ _ _ _ Hf' l _ Hl) as (x & ms1 & Hx & E & Hincl). rewrite Hvl in Hx. injection Hx as <-.
    unfold field_members in E. rewrite Ho, Hpe, Hpf in E. apply obind_ok in E. destruct E as (j & _ & E). injection E as <-.
    apply (in_map fst) with (x := (serialized_name ap, j)). apply Hincl. left. reflexivity. }
  destruct (deser_rec _ _ _ _ Hd) as (ws & vs' & names' & -> & _ & Hm).
  destruct (members_nth _ _ _ _ _ _ Hm i a _ Hi Hsd) as (x & v' & Hv & F). rewrite Ha, Hf in F.
  destruct (read_takes _ u ms x v' _ Hp F Hk Hout) as (m & Em & Hm').
  assert (R : at_path (VRec vs') (i :: i2 :: p) = Some (VMap m)).
  { change (at_path (VRec vs') (i :: i2 :: p)) with (match nth_error vs' i with Some x => at_path x (i2 :: p) | None => None end).
    rewrite Hv. exact Em. }
  assert (W : forall m0, at_path (VRec vs) (i :: i2 :: p) = Some (VMap m0) -> ~ In (serialized_name ap) (map fst m0)).
  { intros m0 E0. change (at_path (VRec vs) (i :: i2 :: p)) with
      (match nth_error vs i with Some x => at_path x (i2 :: p) | None => None end) in E0.
    destruct (ser_nth _ _ _ _ Hf' i _ Hi) as (y & ms1 & Hy & E & _). rewrite Hy in E0. unfold field_members in E.
    destruct (omitted skip a y) eqn:Eo.
    - destruct (omitted_small _ _ Hss Eo) as [X|[X|[X|X]]]; subst y; destruct p; discriminate.
    - rewrite Ha, Hf in E. destruct u; try discriminate. apply obind_ok in E. destruct E as (j1 & E & _).
      exact (written_refuses _ _ _ _ _ _ _ Hp E Hin E0). }
  exists m. split; [exact R|]. split; [exact Hm'|]. split; [exact W|]. intros E. rewrite E in R. exact (W m R Hm').
Qed.
End WithBackend.
