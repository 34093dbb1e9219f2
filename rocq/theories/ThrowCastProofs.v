From Coq Require Import List Arith Bool Lia.
From Verif Require Import ThrowModel ThrowSpec ThrowProofs.
Import ListNotations.

Section Objects.
Context {V I : Type}.
Implicit Types (o : obj V I).

Ltac parts K := apply with_parts in K as [(-> & _ & ->)|[(?q & -> & K)|[(-> & _ & ->)|(-> & _ & ->)]]].

(** The place of a part of [e] is not one of the library's own. *)
Lemma lifted_not_own e q u d : library e -> ~ has Info e -> part e q u d ->
  lifted e q <> at_info /\ lifted e q <> at_base /\ lifted e q <> whole.
Proof.
  intros L N K. pose proof (no_carrier e _ _ _ L N K) as C. pose proof (part_says _ _ _ _ (lifted_part _ _ _ _ K)) as X.
  split; [|split]; intros W; rewrite W in X; apply C; cbn in X; rewrite X; unfold carrier; tauto.
Qed.

Theorem get_info_with e o p S : library e -> throwable e = true -> o_class o = with_class e ->
  sound (mkref o p S) -> polymorphic S = true ->
  get_exception_info (mkref o p S) = if visible (with_class e) p then To at_info else Null.
Proof.
  intros L T O [u K] M. apply throwable_iff in T as (_ & N & _). cbn [r_obj r_place r_type] in K. rewrite O in K.
  unfold get_exception_info. cbn [r_type]. rewrite M. unfold dyn_cast. cbn [r_obj r_place r_type]. rewrite M, O.
  pose proof (fun q => proj2 (visible_part (with_class e) q)) as Vis.
  pose proof (proj2 (upcast_only Info (with_class e) at_info) (only_info_with e L N)) as Up.
  parts K.
  - rewrite (proj2 (base_of_has _ _) (has_info_with e)), Up.
    rewrite (Vis whole) by (exists (with_class e); constructor). reflexivity.
  - assert (B : base_of Info S = false).
    { destruct (base_of Info S) eqn:B; [|reflexivity]. apply base_of_has in B. exfalso. apply N. exact (has_trans _ _ _ _ _ K B). }
    rewrite B, derived_nil, Up; [reflexivity|].
    intros q' u' d K' E u2 d2 W. parts K'; try discriminate E.
    + exfalso. apply N. now exists q0, u', d.
    + apply no_bases_part_at in W as (W & _ & _); [|reflexivity]. now apply (lifted_not_own e q u S L N K) in W.
  - rewrite (Vis at_base) by (exists info_base_class; apply base_part). reflexivity.
  - rewrite (Vis at_info) by (exists info_class; apply info_part). reflexivity.
Qed.

(** Objects that carry no information. *)
Theorem get_info_without o p S : ~ has Info (o_class o) -> sound (mkref o p S) -> polymorphic S = true ->
  get_exception_info (mkref o p S) = Null.
Proof.
  intros N [u K] M. cbn [r_obj r_place r_type] in K. unfold get_exception_info. cbn [r_type]. rewrite M.
  unfold dyn_cast. cbn [r_obj r_place r_type]. rewrite M.
  destruct (base_of Info S) eqn:B.
  { apply base_of_has in B. exfalso. apply N. exact (has_trans _ _ _ _ _ K B). }
  rewrite derived_nil.
  - destruct (upcast (o_class o) Info) as [q|] eqn:U; [|now destruct visible].
    apply upcast_only in U as [(d & K' & E) _]. exfalso. apply N. now exists q, true, d.
  - intros q' u' d K' E. exfalso. apply N. now exists q', u', d.
Qed.

(** * What is copied *)

Lemma thrown_info (fresh : place -> datum V I) (r : reference V I) x : throwable (r_type r) = true -> library (r_type r) ->
  with_data fresh r x at_info = Value x /\ with_data fresh r x at_base = Of_type (c_name (r_type r)).
Proof.
  intros T L. apply throwable_iff in T as (_ & N & _). unfold with_data. cbn [p_root at_info at_base p_path rev app].
  assert (E : name_eqb Info_base (c_name (r_type r)) = false).
  { destruct (name_eqb _ _) eqn:E; [|reflexivity]. apply name_eqb_true in E. exfalso.
    apply (no_carrier _ _ _ _ L N (part_self (r_type r))). right; left. now rewrite E. }
  rewrite E. now split.
Qed.

(** Where the parts of the thrown object come from. *)
Lemma thrown_copied (fresh : place -> datum V I) (r : reference V I) x path :
  with_data fresh r x (lifted (r_type r) (mkplace None path)) = o_data (r_obj r) (absolute r (mkplace None path)).
Proof.
  unfold with_data, lifted, absolute. cbn [p_root p_path]. rewrite rev_app_distr. cbn [rev app].
  now rewrite name_eqb_refl, rev_involutive.
Qed.
Lemma thrown_fresh (fresh : place -> datum V I) (r : reference V I) x n path :
  with_data fresh r x (lifted (r_type r) (mkplace (Some n) path)) = fresh (mkplace (Some n) path).
Proof. reflexivity. Qed.

(** * Descriptions *)

Definition reached (c : cast) : Prop := exists p, c = To p.

Lemma find_part c p d u : part c p u d -> exists d', class_at c p = Some d' /\ (exists u', part c p u' d').
Proof.
  intros K. unfold class_at. destruct (find _ _) as [s|] eqn:F.
  - apply find_some in F as [F E]. apply place_eqb_true in E. apply in_all in F. rewrite E in F. cbn. eauto.
  - exfalso. apply in_all' in K. apply (find_none _ _ F) in K. cbn in K.
    rewrite (proj2 (place_eqb_true p p) eq_refl) in K. discriminate.
Qed.

Lemma cast_base_with e o p S : library e -> throwable e = true -> o_class o = with_class e ->
  sound (mkref o p S) -> polymorphic S = true -> visible (with_class e) p = true ->
  dyn_cast (mkref o p S) Info_base = To at_base.
Proof.
  intros L T O [u K] M Vis. apply throwable_iff in T as (_ & N & _). cbn [r_obj r_place r_type] in K. rewrite O in K.
  unfold dyn_cast. cbn [r_obj r_place r_type]. rewrite M, O, Vis.
  assert (Up : upcast (with_class e) Info_base = Some at_base).
  { apply upcast_only, (only_public_with e Info_base _ L N). right; right; now left. }
  parts K.
  - assert (B : base_of Info_base (with_class e) = true).
    { apply base_of_has. exists at_base, true, info_base_class. split; [apply base_part | reflexivity]. }
    now rewrite B, Up.
  - assert (B : base_of Info_base S = false).
    { destruct (base_of Info_base S) eqn:B; [|reflexivity]. apply base_of_has in B. exfalso.
      destruct (has_trans _ _ _ _ _ K B) as (q' & u' & d' & K' & E').
      apply (no_carrier e _ _ _ L N K'). right; now left. }
    rewrite B, derived_nil, Up; [reflexivity|].
    intros q' u' d K' E u2 d2 W. parts K'; try discriminate E.
    + exfalso. apply (no_carrier e _ _ _ L N K'). right; now left.
    + apply part_at_first in W as [(W & _)|(k & b & B' & W)].
      * now apply (lifted_not_own e q u S L N K) in W.
      * cbn in B'. destruct B' as [[= <- <-]|[]]. apply no_bases_part_at in W as (W & _ & _); [|reflexivity].
        now apply (lifted_not_own e q u S L N K) in W.
  - reflexivity.
  - change (base_of Info_base info_class) with false. cbv iota.
    assert (D : derived (with_class e) Info_base at_info = [at_base]).
    { unfold derived. apply NoDup_single; [apply distinct_NoDup|]. intros y. rewrite distinct_In, in_map_iff. split.
      - intros (s & <- & F). apply filter_In in F as [F G]. apply andb_true_iff in G as [G _]. apply name_eqb_true in G.
        apply in_all in F. destruct s as [sp su sc]. cbn in F, G |- *. parts F; try discriminate G; [|reflexivity].
        exfalso. apply (no_carrier e _ _ _ L N F). right; now left.
      - intros ->. exists (mksub at_base true info_base_class). split; [reflexivity|]. apply filter_In.
        split; [apply in_all', base_part | reflexivity]. }
    now rewrite D.
Qed.

(** [what]: the static type derives from [std::exception], or the class that was thrown does. *)
Lemma cast_std o p S : standard (o_class o) -> sound (mkref o p S) -> polymorphic S = true ->
  dyn_cast (mkref o p S) Std =
  if base_of Std S then match upcast S Std with Some q => To (absolute (mkref o p S) q) | None => Ill_formed end
  else if visible (o_class o) p then match upcast (o_class o) Std with Some q => To q | None => Null end else Null.
Proof.
  intros St [u K] M. cbn [r_obj r_place r_type] in K. unfold dyn_cast. cbn [r_obj r_place r_type]. rewrite M.
  destruct (base_of Std S) eqn:B; [reflexivity|]. rewrite derived_nil; [reflexivity|].
  intros q u' d K' E u2 d2 W. apply no_bases_part_at in W as (W & _ & _); [|exact (proj1 (St _ _ _ K' E))]. subst q.
  apply part_says in K as X. apply part_says in K' as Y.
  assert (base_of Std S = true); [|congruence]. apply base_of_has. exists whole, true, S. split; [constructor | congruence].
Qed.

Lemma standard_with e : standard e -> standard (with_class e).
Proof. intros St p u d K E. parts K; try discriminate E. exact (St _ _ _ K E). Qed.

Lemma upcast_with_std e : library e -> ~ has Info e ->
  upcast (with_class e) Std = option_map (lifted e) (upcast e Std).
Proof.
  intros L N. destruct (upcast e Std) as [q|] eqn:U; cbn.
  - apply upcast_only, (only_public_with e Std _ L N). left. exists q. split; [reflexivity|]. now apply upcast_only.
  - apply upcast_none. intros (p & H). apply (only_public_with e Std p L N) in H.
    destruct H as [(q & _ & H)|[(E & _)|[(E & _)|(E & _)]]]; try discriminate E. apply upcast_only in H. congruence.
Qed.

Theorem describe_with fresh (r0 : reference V I) x p S :
  let e := r_type r0 in
  let o := mkobj (with_class e) (with_data fresh r0 x) in
  library e -> standard e -> throwable e = true ->
  sound (mkref o p S) -> open (mkref o p S) -> polymorphic S = true -> (has Std S -> exists q, only_public Std S q) ->
  exists w, describe (mkref o p S) = Some (mkdescription (Some (c_name e)) w (Some (Value x))) /\
    (w = true <-> has Std S \/ exists q, only_public Std e q).
Proof.
  intros e o L St T So Op M Am.
  assert (Vis : visible (with_class e) p = true) by now apply visible_part.
  pose proof (proj1 (throwable_iff e) T) as (_ & N & _).
  unfold describe. cbn [r_obj r_place r_type]. rewrite M.
  rewrite (cast_base_with e o p S L T eq_refl So M Vis).
  pose proof (get_info_with e o p S L T eq_refl So M) as G. rewrite Vis in G. unfold get_exception_info in G.
  cbn [r_type] in G. rewrite M in G. rewrite G.
  rewrite (cast_std o p S (standard_with e St) So M).
  cbn [o_class o]. rewrite Vis, (upcast_with_std e L N).
  destruct (thrown_info fresh r0 x T L) as [D1 D2]. change (with_data fresh r0 x) with (o_data o) in D1, D2. clearbody o.
  destruct (base_of Std S) eqn:B.
  - apply base_of_has in B. destruct (Am B) as (q & A). apply upcast_only in A. rewrite A. exists true. rewrite D1, D2.
    split; [reflexivity|]. split; [now left | reflexivity].
  - assert (B' : ~ has Std S) by (intros H; apply base_of_has in H; congruence).
    destruct (upcast e Std) as [q|] eqn:U; cbn [option_map].
    + exists true. rewrite D1, D2. split; [reflexivity|]. split; [|reflexivity]. intros _. right. exists q. now apply upcast_only.
    + exists false. rewrite D1, D2. split; [reflexivity|]. split; [discriminate|]. intros [H|H]; [tauto|].
      apply upcast_none in U. tauto.
Qed.

Theorem describe_pointer_with fresh (r0 : reference V I) x :
  let e := r_type r0 in
  let o := mkobj (with_class e) (with_data fresh r0 x) in
  library e -> standard e -> throwable e = true ->
  exists w, describe_pointer o = Some (mkdescription (Some (c_name e)) w (Some (Value x))) /\
    (w = true <-> exists q, only_public Std e q).
Proof.
  intros e o L St T. pose proof (proj1 (throwable_iff e) T) as (_ & N & _).
  assert (B : bind o Info = Some (mkref o at_info info_class)).
  { unfold bind. cbn [o_class o with_class c_name]. change (name_eqb (With (c_name e)) Info) with false. cbv iota.
    change (Cls _ _ _) with (with_class e).
    rewrite (proj2 (upcast_only Info (with_class e) at_info) (only_info_with e L N)).
    destruct (find_part _ _ _ _ (info_part e)) as (d' & F & u' & K). rewrite F.
    apply part_says in K as E. apply with_parts in K as [(X & _ & _)|[(q & _ & K)|[(X & _ & _)|(_ & _ & ->)]]];
      try discriminate X; [|reflexivity].
    exfalso. apply (no_carrier e _ _ _ L N K). left. exact E. }
  unfold describe_pointer. rewrite B.
  destruct (describe_with fresh r0 x at_info info_class L St T) as (w & D & W).
  - exists true. apply info_part.
  - exists info_class. apply info_part.
  - reflexivity.
  - intros H. apply base_of_has in H. discriminate H.
  - exists w. split; [exact D|]. rewrite W. split; [|now right]. intros [H|H]; [|exact H]. apply base_of_has in H. discriminate H.
Qed.

(** Without information: what derives from [std::exception] is described by its type, others not at all. *)
Theorem describe_pointer_without o :
  ~ has Info (o_class o) -> library (o_class o) -> standard (o_class o) -> c_name (o_class o) <> Std ->
  (forall q, only_public Std (o_class o) q ->
     describe_pointer o = Some (mkdescription (Some (c_name (o_class o))) true None)) /\
  ((~ exists q, only_public Std (o_class o) q) -> describe_pointer o = Some (mkdescription None false None)).
Proof.
  intros N L St Ns.
  assert (NB : ~ has Info_base (o_class o)).
  { intros (p & u & d & K & E). apply N, (has_trans _ _ _ _ _ K), (L _ _ _ K). now left. }
  assert (B : bind o Info = None).
  { unfold bind. destruct (name_eqb (c_name (o_class o)) Info) eqn:E.
    - apply name_eqb_true in E. exfalso. apply N. exists whole, true, (o_class o). split; [constructor | exact E].
    - destruct (upcast (o_class o) Info) as [q|] eqn:U; [|reflexivity].
      apply upcast_only in U as [(d & K & E') _]. exfalso. apply N. now exists q, true, d. }
  unfold describe_pointer. rewrite B. unfold bind.
  destruct (name_eqb (c_name (o_class o)) Std) eqn:E; [apply name_eqb_true in E; congruence|]. split.
  - intros q H. pose proof H as [(d & K & En) U]. apply upcast_only in H. rewrite H.
    destruct (find_part _ _ _ _ K) as (d' & F & u' & K'). rewrite F. cbn [option_map].
    assert (En' : c_name d' = Std) by (rewrite (part_says _ _ _ _ K'), <- (part_says _ _ _ _ K); exact En).
    destruct (St _ _ _ K' En') as [Nb Vf].
    assert (M : polymorphic d' = true).
    { apply polymorphic_part. exists whole, true, d'. split; [constructor | exact Vf]. }
    assert (So : sound (mkref o q d')) by (exists u'; exact K').
    unfold describe. cbn [r_type r_obj r_place]. rewrite M.
    pose proof (get_info_without o q d' N So M) as G. unfold get_exception_info in G. cbn [r_type] in G. rewrite M in G. rewrite G.
    rewrite (cast_std o q d' St So M).
    assert (Bs : base_of Std d' = true).
    { apply base_of_has. exists whole, true, d'. split; [constructor | exact En']. }
    rewrite Bs.
    assert (Us : upcast d' Std = Some whole).
    { apply upcast_only. split; [exists d'; split; [constructor | exact En']|]. intros q' u2 d2 K2 _.
      now apply (part_no_bases d') in K2 as (-> & _). }
    rewrite Us.
    assert (C : dyn_cast (mkref o q d') Info_base = Null).
    { unfold dyn_cast. cbn [r_obj r_place r_type]. rewrite M.
      destruct (base_of Info_base d') eqn:Bi.
      { apply base_of_has in Bi. exfalso. apply NB. exact (has_trans _ _ _ _ _ K' Bi). }
      rewrite derived_nil.
      - destruct (upcast (o_class o) Info_base) as [q2|] eqn:U2; [|now destruct visible].
        apply upcast_only in U2 as [(d2 & K2 & E2) _]. exfalso. apply NB. now exists q2, true, d2.
      - intros q2 u2 d2 K2 E2. exfalso. apply NB. now exists q2, u2, d2. }
    rewrite C. reflexivity.
  - intros H. apply upcast_none in H. now rewrite H.
Qed.
End Objects.

(** * In terms of what was thrown *)

Section Thrown.
Context {V I : Type} (fresh : place -> datum V I).

Lemma throw_some (r : reference V I) x o : throw_with_info fresh r x = Some o ->
  throwable (r_type r) = true /\ o = mkobj (with_class (r_type r)) (with_data fresh r x).
Proof. unfold throw_with_info. destruct (throwable (r_type r)); [|discriminate]. now intros [= <-]. Qed.

Lemma thrown_compiles (r : reference V I) x :
  (exists o, throw_with_info fresh r x = Some o) <->
  t_final (c_traits (r_type r)) = false /\ ~ has Info (r_type r) /\
  (forall u n d, part (r_type r) (mkplace (Some n) []) u d -> t_default (c_traits d) = true).
Proof.
  rewrite <- throwable_iff. unfold throw_with_info. destruct (throwable (r_type r)); split; eauto; [intros (o & E); discriminate | discriminate].
Qed.

Lemma thrown_caught (r : reference V I) x o t : library (r_type r) -> proper (r_type r) ->
  throw_with_info fresh r x = Some o ->
  (catches t (o_class o) = true <-> takes t (r_type r) \/ carrier (r_type r) t).
Proof. intros L P T. apply throw_some in T as [T ->]. rewrite catches_takes. now apply takes_with. Qed.

Lemma thrown_same_handler (r : reference V I) x o hs : library (r_type r) -> proper (r_type r) ->
  throw_with_info fresh r x = Some o -> (forall t, In (Some t) hs -> ~ carrier (r_type r) t) ->
  handler_for hs (o_class o) = handler_for hs (r_type r).
Proof. intros L P T H. apply throw_some in T as [T ->]. now apply same_handler. Qed.

Lemma whole_part c u d : part c whole u d -> d = c.
Proof.
  intros K. inversion K as [|p pub d' k b H B E]; [reflexivity|].
  unfold base_place in E. destruct (k_virtual k); discriminate E.
Qed.

Lemma rethrown_whole (r : reference V I) x o : library (r_type r) -> proper (r_type r) ->
  sound r -> r_place r = whole -> throw_with_info fresh r x = Some o ->
  forall t, takes t (o_class (r_obj r)) -> takes t (o_class o).
Proof.
  intros L P [u K] W T t H. rewrite W in K. apply whole_part in K. rewrite <- K in H.
  apply catches_takes, (thrown_caught r x o t L P T). now left.
Qed.

Lemma info_found (r : reference V I) x o p S : library (r_type r) -> throw_with_info fresh r x = Some o ->
  sound (mkref o p S) -> polymorphic S = true ->
  (open (mkref o p S) -> get_exception_info (mkref o p S) = To at_info /\ o_data o at_info = Value x) /\
  (~ open (mkref o p S) -> get_exception_info (mkref o p S) = Null).
Proof.
  intros L T So M. apply throw_some in T as [T ->]. set (o := mkobj _ _) in *.
  pose proof (get_info_with (r_type r) o p S L T eq_refl So M) as G. split.
  - intros Op. apply visible_part in Op. cbn [r_obj r_place] in Op. change (o_class o) with (with_class (r_type r)) in Op.
    rewrite Op in G. split; [exact G|]. exact (proj1 (thrown_info fresh r x T L)).
  - intros Op. rewrite G. destruct (visible _ _) eqn:Vi; [|reflexivity]. apply visible_part in Vi. now destruct Op.
Qed.

Lemma bind_open (o : obj V I) t r : bind o t = Some r -> sound r /\ open r /\ r_obj r = o /\ c_name (r_type r) = t.
Proof.
  unfold bind. destruct (name_eqb _ _) eqn:E.
  - intros [= <-]. apply name_eqb_true in E. split; [exists true; constructor|]. split; [exists (o_class o); constructor|]. now split.
  - destruct (upcast (o_class o) t) as [p|] eqn:U; [|discriminate]. apply upcast_only in U as [(d & K & En) _].
    destruct (find_part _ _ _ _ K) as (d' & F & u' & K'). rewrite F. intros [= <-].
    split; [exists u'; exact K'|]. split; [exists d; exact K|]. split; [reflexivity|]. cbn.
    now rewrite (part_says _ _ _ _ K'), <- (part_says _ _ _ _ K).
Qed.

Lemma bind_catches (o : obj V I) t : (exists r, bind o t = Some r) <-> catches t (o_class o) = true.
Proof.
  unfold bind, catches. destruct (name_eqb _ _); cbn [orb]; [split; eauto|].
  destruct (upcast (o_class o) t) as [p|] eqn:U; [|split; [intros (r & E); discriminate | discriminate]].
  split; [reflexivity|]. intros _. apply upcast_only in U as [(d & K & En) _].
  destruct (find_part _ _ _ _ K) as (d' & F & _). rewrite F. cbn. eauto.
Qed.

Lemma handlers_reach_info (r : reference V I) x o t r' : library (r_type r) -> throw_with_info fresh r x = Some o ->
  bind o t = Some r' -> polymorphic (r_type r') = true ->
  exists p, get_exception_info r' = To p /\ o_data o p = Value x.
Proof.
  intros L T B M. apply bind_open in B as (So & Op & E & _). destruct r' as [o' p S]. cbn in E, M. subst o'.
  exists at_info. now apply (info_found r x o p S L T So M).
Qed.

Lemma contents_copied (r : reference V I) x o p u d : throw_with_info fresh r x = Some o -> part (r_type r) p u d ->
  part (o_class o) (lifted (r_type r) p) u d /\
  o_data o (lifted (r_type r) p) = match p_root p with None => o_data (r_obj r) (absolute r p) | Some _ => fresh p end.
Proof.
  intros T K. apply throw_some in T as [T ->]. split; [now apply lifted_part|].
  destruct p as [[n|] path]; [reflexivity | apply thrown_copied].
Qed.

Lemma contents_kept (r : reference V I) x o : no_virtual (r_type r) -> throw_with_info fresh r x = Some o ->
  forall p u d, part (r_type r) p u d -> o_data o (lifted (r_type r) p) = o_data (r_obj r) (absolute r p).
Proof.
  intros N T p u d K. destruct (contents_copied r x o p u d T K) as [_ E]. now rewrite (N _ _ _ K) in E.
Qed.

Lemma describe_thrown (r : reference V I) x o p S : library (r_type r) -> standard (r_type r) ->
  throw_with_info fresh r x = Some o ->
  sound (mkref o p S) -> open (mkref o p S) -> polymorphic S = true -> (has Std S -> exists q, only_public Std S q) ->
  exists w, describe (mkref o p S) = Some (mkdescription (Some (c_name (r_type r))) w (Some (Value x))) /\
    (w = true <-> has Std S \/ exists q, only_public Std (r_type r) q).
Proof. intros L St T So Op M A. apply throw_some in T as [T ->]. now apply (describe_with fresh r x p S). Qed.

Lemma describe_thrown_pointer (r : reference V I) x o : library (r_type r) -> standard (r_type r) ->
  throw_with_info fresh r x = Some o ->
  exists w, describe_pointer o = Some (mkdescription (Some (c_name (r_type r))) w (Some (Value x))) /\
    (w = true <-> exists q, only_public Std (r_type r) q).
Proof. intros L St T. apply throw_some in T as [T ->]. now apply (describe_pointer_with fresh r x). Qed.
End Thrown.

Theorem describe_bare V I (o : obj V I) p S : (forall q u d, part S q u d -> t_virtual_functions (c_traits d) = false) ->
  describe (mkref o p S) = Some (mkdescription (Some (c_name S)) false None) /\ get_exception_info (mkref o p S) = Ill_formed.
Proof.
  intros H. assert (N : polymorphic S = false).
  { apply not_true_iff_false. intros E. apply existsb_exists in E as (s & Hs & E). destruct s as [q u d].
    apply in_all' in Hs. cbn in E. rewrite (H q u d Hs) in E. discriminate. }
  unfold describe, get_exception_info. cbn [r_type]. now rewrite N.
Qed.
