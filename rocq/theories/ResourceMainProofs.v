(** The properties of histories of requests. *)
From Coq Require Import List NArith ZArith Arith Bool Lia.
From Verif Require Import Base PathModel PathSpec PathProofs TrackerModel TrackerSpec EnumModel EnumProofs
  SerialModel SerialSpec SerialBaseProofs SerialTypeProofs SerialDumpProofs SerialPatchProofs
  ResourceModel ResourceSpec ResourceBaseProofs ResourcePathProofs ResourceOpProofs ResourceCaseProofs ResourceFrameProofs.
From Verif Require TrackerProofs TextModel TextSpec TextProofs.
Import ListNotations.

Local Notation str := (list N) (only parsing).

Lemma shows_fun p l : shows p l -> forall l', shows p l' -> l = l'.
Proof.
  revert p. induction l as [|s l IH]; intros p H [|s' l'] H'.
  - reflexivity.
  - pose proof (shows_size _ _ H). pose proof (shows_size _ _ H'). cbn in *. lia.
  - pose proof (shows_size _ _ H). pose proof (shows_size _ _ H'). cbn in *. lia.
  - destruct (shows_cons _ _ _ H) as [F (q & D & S)]. destruct (shows_cons _ _ _ H') as [F' (q' & D' & S')].
    rewrite F in F'. injection F' as <-. rewrite D in D'. injection D' as <-. f_equal. eauto.
Qed.

Lemma denotes_fun p l l' : denotes p l -> denotes p l' -> l = l'.
Proof. intros H H'. apply denotes_shows in H, H'. exact (shows_fun p l H l' H'). Qed.

Section WithEnv.
Context (E : env).

(* ------------------------------------------------------------------ *)
(** ** get *)

Lemma get_reached skip t r p segs tr t1 n1 v1 : typed t (value r) -> denotes p segs ->
  reaches t NRoot (value r) segs tr t1 n1 v1 ->
  get E skip t r p = match serialize (conv E) skip t1 v1 with
                     | Ok j => Answer s_ok (accept j)
                     | Throws => Escapes XOther
                     | UB => Escapes XUB
                     end.
Proof.
  intros Ht D R. unfold get. destruct (visit_path t (value r) p segs Ht D) as [(tr' & t' & n' & v' & rest & R' & ->)|[_ H]].
  - destruct (reaches_fun _ _ _ _ _ _ _ _ R Ht _ _ _ _ R') as (-> & -> & -> & ->). cbn [pl_ty pl_val].
    pose proof (dump_lemma (conv E) skip t1 v1) as Hd. destruct (serialize (conv E) skip t1 v1) as [j| |].
    + now rewrite Hd.
    + destruct (dump (conv E) skip t1 v1) as [es o]. cbn [snd] in Hd. now subst o.
    + destruct (dump (conv E) skip t1 v1) as [es o]. cbn [snd] in Hd. now subst o.
  - exfalso. exact (H _ _ _ _ R).
Qed.

Lemma get_unreached skip t r p segs : typed t (value r) -> denotes p segs ->
  (forall tr t1 n1 v1, ~ reaches t NRoot (value r) segs tr t1 n1 v1) -> get E skip t r p = Answer s_not_found [].
Proof.
  intros Ht D H. unfold get. destruct (visit_path t (value r) p segs Ht D) as [(tr' & t' & n' & v' & rest & R' & _)|[[-> | ->] _]]; auto.
  exfalso. exact (H _ _ _ _ R').
Qed.

Lemma reaches_dec t v p segs : typed t v -> denotes p segs ->
  (exists tr t1 n1 v1, reaches t NRoot v segs tr t1 n1 v1) \/ (forall tr t1 n1 v1, ~ reaches t NRoot v segs tr t1 n1 v1).
Proof.
  intros Ht D. destruct (visit_path t v p segs Ht D) as [(tr' & t' & n' & v' & rest & R' & _)|[_ H]]; eauto 6.
Qed.

(* ------------------------------------------------------------------ *)
(** ** What a request does *)

Lemma perform_cases t r q segs r' a : schema t -> typed t (value r) -> at_path q segs -> perform E t r q = (r', a) ->
  (modifying q /\ success a = true /\ exists pre whole tr t1 n1 v1 x, replaced E t r pre whole tr t1 n1 v1 x r' /\
     at_or_above pre segs /\
     (whole = false -> scalar t1 \/ exists te, t1 = TOpt te /\ x = VNone /\
        (scalar te \/ exists p, q = Delete p /\ pre = segs /\
           match te with TOpt _ | TMap _ | TSeq _ | TArr _ _ => True | _ => False end)) /\
     (segs = pre \/ exists s p, segs = pre ++ [s] /\ q = Delete p)) \/
  (r' = r /\ (modifying q -> success a = false) /\ (sound_env E -> a <> Escapes XUB)).
Proof.
  intros Hsch Ht D. unfold at_path in D. destruct q as [skip p|p j|p j|p j|p]; cbn [path_of perform modifying] in *.
  - intros [= <- <-]. right. split; [reflexivity|]. split; [tauto|]. intros _.
    destruct (reaches_dec t (value r) p segs Ht D) as [(tr & t1 & n1 & v1 & R)|H].
    + rewrite (get_reached skip t r p segs tr t1 n1 v1 Ht D R).
      destruct (reaches_get _ _ _ _ _ _ _ _ R Ht) as [_ Ht1]. destruct (root_fits _ _ _ _ _ _ _ Hsch R) as (Hw1 & _ & _).
      pose proof (proj1 (ser_defined (conv E) skip t1 Hw1 None v1 Ht1)) as Hd. unfold serialize.
      destruct (ser (conv E) skip t1 None v1); congruence.
    + rewrite (get_unreached skip t r p segs Ht D H). discriminate.
  - intros H. destruct (put_cases E _ t r p segs j r' a Hsch Ht D (deser_good E) H) as [(tr & t1 & n1 & v1 & x & Hr & Hx & ->)|(H1 & H2 & H3)]; [left|right; auto].
    repeat split; auto. exists segs, (has_addressable_descendants t1), tr, t1, n1, v1, x. split; [exact Hr|].
    split; [exists []; now rewrite app_nil_r|]. split; [|now left]. intros Hw. left. destruct t1; try discriminate Hw; exact I.
  - intros H. destruct (post_cases E t r p segs j r' a Hsch Ht D H) as [(tr & te & n1 & vs & c & Hr & _ & _ & ->)|(H1 & H2 & H3)]; [left|right; auto].
    repeat split; auto. do 7 eexists. split; [exact Hr|]. split; [exists []; now rewrite app_nil_r|]. split; [discriminate|now left].
  - intros H. destruct (put_cases E _ t r p segs j r' a Hsch Ht D (patch_good E) H) as [(tr & t1 & n1 & v1 & x & Hr & Hx & ->)|(H1 & H2 & H3)]; [left|right; auto].
    repeat split; auto. exists segs, (has_addressable_descendants t1), tr, t1, n1, v1, x. split; [exact Hr|].
    split; [exists []; now rewrite app_nil_r|]. split; [|now left]. intros Hw. left. destruct t1; try discriminate Hw; exact I.
  - intros H. destruct (del_cases E t r p segs r' a Hsch Ht D H) as [[-> [H1|H1]]|(H1 & H2 & H3)]; [left|left|right; auto].
    + destruct H1 as (tr & te & n1 & v1 & Hr). repeat split; auto. do 7 eexists. split; [exact Hr|].
      split; [exists []; now rewrite app_nil_r|]. split; [|now left]. intros Hw. right. exists te. repeat split; auto.
      destruct te; try discriminate Hw; try (left; exact I); right; exists p; repeat split; exact I.
    + destruct H1 as (pre & s & tr & t1 & n1 & v1 & v2 & -> & Hr & _ & _). repeat split; auto. do 7 eexists. split; [exact Hr|].
      split; [exists [s]; reflexivity|]. split; [discriminate|]. right. exists s, p. auto.
Qed.

(** C39 *)
Lemma failed_unchanged t r q r' a : schema t -> typed t (value r) -> well_formed q ->
  perform E t r q = (r', a) -> success a = false -> r' = r.
Proof.
  intros Hsch Ht [segs D] H Hf. destruct (perform_cases t r q segs r' a Hsch Ht D H) as [(_ & Hs & _)|(-> & _)]; congruence.
Qed.

Lemma never_undefined t r q r' a : schema t -> sound_env E -> typed t (value r) -> well_formed q ->
  perform E t r q = (r', a) -> a <> Escapes XUB.
Proof.
  intros Hsch He Ht [segs D] H. destruct (perform_cases t r q segs r' a Hsch Ht D H) as [(_ & Hs & _)|(_ & _ & Hu)]; [|auto].
  intros ->. discriminate.
Qed.

Lemma replaced_typed t r pre whole tr t1 n1 v1 x r' : typed t (value r) -> replaced E t r pre whole tr t1 n1 v1 x r' -> typed t (value r').
Proof.
  intros Ht (R & _ & _ & Hx & _ & (p & m & g & _ & _ & ->)). cbn. exact (reaches_set_typed _ _ _ _ _ _ _ _ _ R Ht Hx).
Qed.

Lemma perform_typed t r q r' a : schema t -> typed t (value r) -> well_formed q -> perform E t r q = (r', a) -> typed t (value r').
Proof.
  intros Hsch Ht [segs D] H. destruct (perform_cases t r q segs r' a Hsch Ht D H) as [(_ & _ & (pre & whole & tr & t1 & n1 & v1 & x & Hr & _))|(-> & _)];
    [exact (replaced_typed _ _ _ _ _ _ _ _ _ _ Ht Hr)|exact Ht].
Qed.

(** C40 *)
Lemma success_valid t r q r' a : schema t -> typed t (value r) -> well_formed q -> perform E t r q = (r', a) ->
  modifying q -> success a = true -> valid E t (value r').
Proof.
  intros Hsch Ht Hq H Hm Hs. pose proof (perform_typed _ _ _ _ _ Hsch Ht Hq H) as Ht'. destruct Hq as [segs D].
  destruct (perform_cases t r q segs r' a Hsch Ht D H) as [(_ & _ & (pre & whole & tr & t1 & n1 & v1 & x & Hr & _))|(_ & Hf & _)].
  - apply validate_tree_none; auto. destruct Hr as (_ & _ & _ & _ & Hv & (p & m & g & _ & _ & ->)). exact Hv.
  - rewrite (Hf Hm) in Hs. discriminate.
Qed.

Lemma perform_valid t r q r' a : schema t -> typed t (value r) -> well_formed q -> perform E t r q = (r', a) ->
  valid E t (value r) -> valid E t (value r').
Proof.
  intros Hsch Ht Hq H Hv. pose proof (perform_typed _ _ _ _ _ Hsch Ht Hq H) as Ht'. destruct Hq as [segs D].
  destruct (perform_cases t r q segs r' a Hsch Ht D H) as [(_ & _ & (pre & whole & tr & t1 & n1 & v1 & x & Hr & _))|(-> & _)]; [|exact Hv].
  apply validate_tree_none; auto. destruct Hr as (_ & _ & _ & _ & Hv' & (p & m & g & _ & _ & ->)). exact Hv'.
Qed.

Lemma history_valid t qs : schema t -> Forall well_formed qs -> forall r r' answers, typed t (value r) -> valid E t (value r) ->
  perform_all E t r qs = (r', answers) -> typed t (value r') /\ valid E t (value r').
Proof.
  intros Hsch F. induction F as [|q qs Hq F IH]; intros r r' answers Ht Hv; cbn [perform_all].
  - intros [= <- _]. auto.
  - destruct (perform E t r q) as [r1 a] eqn:E1. destruct (perform_all E t r1 qs) as [r2 l] eqn:E2. intros [= <- _].
    apply (IH r1 r2 l); [exact (perform_typed _ _ _ _ _ Hsch Ht Hq E1)|exact (perform_valid _ _ _ _ _ Hsch Ht Hq E1 Hv)|exact E2].
Qed.

(* ------------------------------------------------------------------ *)
(** ** Pollers *)

Lemma scalar_stops t n v s segs tr t' n' v' : scalar t -> ~ reaches t n v (s :: segs) tr t' n' v'.
Proof.
  intros Hs R. inversion R; subst; try contradiction Hs.
  all: match goal with G : elements _ _ |- _ => destruct G as [-> | [? ->]]; contradiction Hs end.
Qed.

(** A path that does not lead to the target or through it reads as before. *)
Lemma replaced_elsewhere t r pre whole tr t1 n1 v1 x r' skip p l :
  schema t -> steady t -> exactly_named t -> typed t (value r) -> canonical pre ->
  replaced E t r pre whole tr t1 n1 v1 x r' ->
  denotes p l -> canonical l -> ~ at_or_above l pre -> ~ at_or_above pre l -> get E skip t r p = get E skip t r' p.
Proof.
  intros Hsch St Xt Ht Cp Hr D Cl Hna Hnb. pose proof (replaced_typed _ _ _ _ _ _ _ _ _ _ Ht Hr) as Ht'.
  destruct Hr as (R & Hro & Hp & Hx & _ & (p0 & m & g & _ & _ & Er')). pose proof (writable_unlocked _ _ Hro) as Hu.
  assert (Ev : value r' = set_at (value r) (map snd tr) x) by now rewrite Er'.
  pose proof (stable_self _ _ _ _ _ _ _ _ R St Ht Hu Hp Hx) as R'. rewrite <- Ev in R'.
  destruct (reaches_get _ _ _ _ _ _ _ _ R Ht) as [Hg Ht1].
  assert (Hback : value r = set_at (value r') (map snd tr) v1) by (rewrite Ev, set_twice; symmetry; now apply set_back).
  destruct (reaches_dec t (value r) p l Ht D) as [(tr2 & t2 & n2 & v2 & R2)|H].
  + assert (H1 : ~ inside (map snd tr2) (map snd tr)).
    { intros Hi. destruct (inside_prefix _ _ _ _ _ _ _ _ R I St I Xt Ht Cp _ _ _ _ _ R2 Cl Hi) as [rest ->]. apply Hnb. now exists rest. }
    assert (H2 : ~ inside (map snd tr) (map snd tr2)).
    { intros Hi. destruct (inside_prefix _ _ _ _ _ _ _ _ R2 I St I Xt Ht Cl _ _ _ _ _ R Cp Hi) as [rest ->]. apply Hna. now exists rest. }
    pose proof (stable_other _ _ _ _ _ _ _ x _ _ _ _ _ R St Ht Hu Hp Hx R2 H1 H2) as R2'. rewrite <- Ev in R2'.
    now rewrite (get_reached skip t r p l _ _ _ _ Ht D R2), (get_reached skip t r' p l _ _ _ _ Ht' D R2').
  + destruct (reaches_dec t (value r') p l Ht' D) as [(tr2 & t2 & n2 & v2 & R2)|H'].
    * exfalso. assert (H1 : ~ inside (map snd tr2) (map snd tr)).
      { intros Hi. destruct (inside_prefix _ _ _ _ _ _ _ _ R' I St I Xt Ht' Cp _ _ _ _ _ R2 Cl Hi) as [rest ->]. apply Hnb. now exists rest. }
      assert (H2 : ~ inside (map snd tr) (map snd tr2)).
      { intros Hi. destruct (inside_prefix _ _ _ _ _ _ _ _ R2 I St I Xt Ht' Cl _ _ _ _ _ R' Cp Hi) as [rest ->]. apply Hna. now exists rest. }
      rewrite preserves_sym in Hp. pose proof (stable_other _ _ _ _ _ _ _ v1 _ _ _ _ _ R' St Ht' Hu Hp Ht1 R2 H1 H2) as R2'.
      rewrite <- Hback in R2'. exact (H _ _ _ _ R2').
    * now rewrite (get_unreached skip t r p l Ht D H), (get_unreached skip t r' p l Ht' D H').
Qed.

Lemma replaced_unseen t r pre whole tr t1 n1 v1 x r' skip p l :
  schema t -> steady t -> exactly_named t -> typed t (value r) -> canonical pre ->
  replaced E t r pre whole tr t1 n1 v1 x r' ->
  (whole = false -> scalar t1 \/ exists te, t1 = TOpt te /\ x = VNone /\ scalar te) ->
  denotes p l -> canonical l -> ~ concerns (mkevent pre whole) l -> get E skip t r p = get E skip t r' p.
Proof.
  intros Hsch St Xt Ht Cp Hr Hw D Cl Hc. pose proof Hr as Hr0. pose proof (replaced_typed _ _ _ _ _ _ _ _ _ _ Ht Hr) as Ht'.
  destruct Hr as (R & Hro & Hp & Hx & _ & (p0 & m & g & _ & _ & Er')). pose proof (writable_unlocked _ _ Hro) as Hu.
  assert (Ev : value r' = set_at (value r) (map snd tr) x) by now rewrite Er'.
  pose proof (stable_self _ _ _ _ _ _ _ _ R St Ht Hu Hp Hx) as R'. rewrite <- Ev in R'.
  destruct (reaches_get _ _ _ _ _ _ _ _ R Ht) as [Hg Ht1].
  assert (Hna : ~ at_or_above l pre) by (intros H; apply Hc; now left).
  destruct (TrackerProofs.is_prefix pre l) eqn:Ip.
  - apply TrackerProofs.is_prefix_spec in Ip. destruct whole; [exfalso; apply Hc; right; auto|].
    destruct Ip as [rest ->]. destruct rest as [|s rest]; [exfalso; apply Hna; exists []; now rewrite !app_nil_r|].
    assert (N : forall r0 v0, typed t (value r0) -> reaches t NRoot (value r0) pre tr t1 n1 v0 ->
      (scalar t1 \/ exists te, t1 = TOpt te /\ scalar te) ->
      forall tr2 t2 n2 v2, ~ reaches t NRoot (value r0) (pre ++ s :: rest) tr2 t2 n2 v2).
    { intros r0 v0 Ht0 R0 Hs tr2 t2 n2 v2 R2. destruct (reaches_split _ _ _ _ _ _ _ _ _ R2) as (tra & trb & ta & na & va & -> & Ra & Rb).
      destruct (reaches_fun _ _ _ _ _ _ _ _ R0 Ht0 _ _ _ _ Ra) as (-> & -> & -> & ->).
      destruct Hs as [Hs|(te & -> & Hs)]; [exact (scalar_stops _ _ _ _ _ _ _ _ _ Hs Rb)|].
      inversion Rb; subst; try no_elements. eapply scalar_stops; [exact Hs|eassumption]. }
    assert (Hs : scalar t1 \/ exists te, t1 = TOpt te /\ scalar te).
    { destruct (Hw eq_refl) as [H|(te & -> & _ & H)]; [now left|right; eauto]. }
    rewrite (get_unreached skip t r p _ Ht D (N r v1 Ht R Hs)). symmetry. exact (get_unreached skip t r' p _ Ht' D (N r' x Ht' R' Hs)).
  - assert (Hnb : ~ at_or_above pre l) by (intros H; apply TrackerProofs.is_prefix_spec in H; congruence).
    exact (replaced_elsewhere _ _ _ _ _ _ _ _ _ _ skip p l Hsch St Xt Ht Cp Hr0 D Cl Hna Hnb).
Qed.

Lemma canonical_app a b : canonical (a ++ b) -> canonical a.
Proof. intros H s Hs. apply H, in_or_app. now left. Qed.

Definition rinv (t : ty) (r : resource) (h : list TrackerSpec.event) : Prop := typed t (value r) /\ TrackerProofs.tinv (modifications r) h.

Lemma perform_seen t r q r' a h : schema t -> steady t -> exactly_named t -> rinv t r h -> canonical_request q ->
  ~ resets_collection t (value r) q -> (N.of_nat (length h) + 2 < gen_modulus)%N -> perform E t r q = (r', a) ->
  exists evs, rinv t r' (h ++ evs) /\ length evs <= 1 /\
    forall skip p l, denotes p l -> canonical l -> get E skip t r p <> get E skip t r' p -> exists e, In e evs /\ concerns e l.
Proof.
  intros Hsch St Xt [Ht Hi] (segs & D & Cs) Hnr Hlt H.
  destruct (perform_cases t r q segs r' a Hsch Ht D H) as [(_ & _ & (pre & whole & tr & t1 & n1 & v1 & x & Hr & Hpre & Hw & Hseg))|(-> & _)].
  - exists [mkevent pre whole]. pose proof (replaced_typed _ _ _ _ _ _ _ _ _ _ Ht Hr) as Ht'.
    assert (Hw' : whole = false -> scalar t1 \/ exists te, t1 = TOpt te /\ x = VNone /\ scalar te).
    { intros Ew. destruct (Hw Ew) as [Hs|(te & -> & -> & [Hs|(p & -> & -> & Hm)])]; [now left|right; eauto|].
      exfalso. apply Hnr. destruct Hr as (R & _). exists p, segs, (map snd tr), te, v1. repeat split; auto. exists tr, n1. auto. }
    assert (Cp : canonical pre) by (destruct Hpre as [rest ->]; exact (canonical_app _ _ Cs)).
    split; [split; [exact Ht'|]|split; [auto|]].
    + destruct Hr as (_ & _ & _ & _ & _ & (p0 & m & g & D0 & Hn & ->)). cbn [modifications].
      destruct (TrackerProofs.notify_spec (modifications r) h p0 (mkevent pre whole) Hi (TrackerProofs.denotes_prefixes _ _ D0) Hlt) as (m' & Hm & Hi').
      cbn [TrackerSpec.where_ TrackerSpec.whole] in Hm. rewrite Hn in Hm. injection Hm as -> _. exact Hi'.
    + intros skip p l Dl Cl Hne. exists (mkevent pre whole). split; [now left|].
      assert (Hdec : concerns (mkevent pre whole) l \/ ~ concerns (mkevent pre whole) l).
      { unfold concerns. cbn [TrackerSpec.where_ TrackerSpec.whole]. destruct (TrackerProofs.is_prefix l pre) eqn:I1.
        - left. left. now apply TrackerProofs.is_prefix_spec.
        - destruct whole; [|right; intros [Hx|[Hx _]]; [apply TrackerProofs.is_prefix_spec in Hx; congruence|discriminate]].
          destruct (TrackerProofs.is_prefix pre l) eqn:I2; [left; right; split; [reflexivity|now apply TrackerProofs.is_prefix_spec]|].
          right. intros [Hx|[_ Hx]]; apply TrackerProofs.is_prefix_spec in Hx; congruence. }
      destruct Hdec as [Hc|Hc]; [exact Hc|]. exfalso. apply Hne.
      exact (replaced_unseen _ _ _ _ _ _ _ _ _ _ skip p l Hsch St Xt Ht Cp Hr Hw' Dl Cl Hc).
  - exists []. rewrite app_nil_r. split; [split; assumption|split; [cbn; lia|]]. intros skip p l _ _ Hne. now elim Hne.
Qed.

Lemma answer_dec (a b : answer) : a = b \/ a <> b.
Proof.
  assert (He : forall x y : SerialModel.event, {x = y} + {x <> y}).
  { decide equality; try apply (list_eq_dec N.eq_dec); try apply Bool.bool_dec; try apply Z.eq_dec; apply N.eq_dec. }
  destruct a as [s l|e], b as [s' l'|e']; try (right; discriminate).
  - destruct (list_eq_dec He l l') as [->|Hn]; [|right; congruence]. destruct s, s'; (now left) || (right; discriminate).
  - destruct e, e'; (now left) || (right; discriminate).
Qed.

Lemma history_seen t qs : schema t -> steady t -> exactly_named t -> Forall canonical_request qs ->
  forall r h r' answers, rinv t r h -> keeps_collections E t r qs ->
  (N.of_nat (length h + length qs) + 1 < gen_modulus)%N -> perform_all E t r qs = (r', answers) ->
  exists evs, rinv t r' (h ++ evs) /\ length evs <= length qs /\
    forall skip p l, denotes p l -> canonical l -> get E skip t r p <> get E skip t r' p -> exists e, In e evs /\ concerns e l.
Proof.
  intros Hsch St Xt F. induction F as [|q qs Hq F IH]; intros r h r' answers Hi Hk Hlt; cbn [perform_all].
  - intros [= <- _]. exists []. rewrite app_nil_r. split; [exact Hi|split; [cbn; lia|]]. intros skip p l _ _ Hne. now elim Hne.
  - destruct (perform E t r q) as [r1 a] eqn:E1. destruct (perform_all E t r1 qs) as [r2 al] eqn:E2. intros [= <- _].
    cbn [keeps_collections length] in *. destruct Hk as [Hk1 Hk2]. rewrite E1 in Hk2. cbn [fst] in Hk2.
    destruct (perform_seen t r q r1 a h Hsch St Xt Hi Hq Hk1 ltac:(lia) E1) as (ev1 & Hi1 & L1 & S1).
    destruct (IH r1 (h ++ ev1) r2 al Hi1 Hk2) as (ev2 & Hi2 & L2 & S2); [rewrite app_length; lia|exact E2|].
    exists (ev1 ++ ev2). rewrite app_assoc. split; [exact Hi2|]. split; [rewrite app_length; lia|].
    intros skip p l D C Hne. destruct (answer_dec (get E skip t r p) (get E skip t r1 p)) as [Ea|Hd].
    + destruct (S2 skip p l D C) as (e & He & Hc); [congruence|]. exists e. split; [apply in_or_app; now right|exact Hc].
    + destruct (S1 skip p l D C Hd) as (e & He & Hc). exists e. split; [apply in_or_app; now left|exact Hc].
Qed.

(** C42 *)
Lemma pollers_notified t v0 qs0 r answers0 qs r' answers : schema t -> steady t -> exactly_named t -> typed t v0 ->
  Forall canonical_request qs0 -> keeps_collections E t (make_resource v0) qs0 ->
  perform_all E t (make_resource v0) qs0 = (r, answers0) ->
  Forall canonical_request qs -> keeps_collections E t r qs -> perform_all E t r qs = (r', answers) ->
  (N.of_nat (length qs0 + length qs) + 1 < gen_modulus)%N ->
  forall skip p l, denotes p l -> canonical l -> get E skip t r p <> get E skip t r' p ->
  changed_since (modifications r') p (current (modifications r)) = Ok true.
Proof.
  intros Hsch St Xt Ht F0 K0 P0 F K P Hlt skip p l D C Hne.
  assert (Hi0 : rinv t (make_resource v0) []) by (split; [exact Ht|apply TrackerProofs.tinv_init]).
  destruct (history_seen t qs0 Hsch St Xt F0 _ _ _ _ Hi0 K0 ltac:(cbn [length]; lia) P0) as (h & Hi & Lh & _). cbn [app] in Hi.
  destruct (history_seen t qs Hsch St Xt F _ _ _ _ Hi K ltac:(lia) P) as (evs & Hi' & Le & S).
  destruct (S skip p l D C Hne) as (e & He & Hc). apply In_nth_error in He. destruct He as [i Hn].
  destruct (TrackerProofs.changed_since_spec (modifications r') (h ++ evs) p l (current (modifications r)) (proj2 Hi')
              (TrackerProofs.denotes_prefixes _ _ D)) as (b & -> & Hb).
  f_equal. apply Hb. exists (length h + i), e. split; [|split; [exact Hc|]].
  - rewrite nth_error_app2 by lia. now replace (length h + i - length h) with i by lia.
  - unfold current. destruct Hi as [_ (_ & -> & _)]. unfold generation_of. lia.
Qed.

End WithEnv.
