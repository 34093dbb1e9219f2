(** Customizations that come in pairs keep what the library guarantees. *)
From Coq Require Import List NArith ZArith Arith Bool Lia.
From Verif Require Import Base PathModel ScalarModel SerialModel SerialSpec SerialSamples SerialBaseProofs SerialKeyProofs SerialDumpProofs SerialRoundProofs.
From Verif Require Import CustomModel CustomSpec CustomProofs.
Import ListNotations.
Local Open Scope outcome_scope.
Local Notation str := (list N) (only parsing).

Lemma same_writes s d : same_output s d <-> forall v, writes (s v) accept (d v).
Proof. reflexivity. Qed.

Lemma each_writes fs ds : Forall2 same_output fs ds -> forall vs, writes (each_ser fs vs) (flat_map accept) (each_dump ds vs).
Proof.
  induction 1 as [|f d fs ds H _ IH]; intros [|v vs]; cbn [each_ser each_dump]; try reflexivity.
  apply writes_bind with (k1 := accept) (k2 := fun a r => flat_map accept (tl r)).
  - apply H.
  - intros a _. specialize (IH vs). destruct (each_ser fs vs); cbn [obind writes] in *; auto.
  - intros a b _ Hb. destruct (each_ser fs vs); cbn in Hb; try discriminate. now injection Hb as <-.
Qed.

Lemma fields_writes skip fs ds : Forall2 same_output fs ds -> forall ns vs,
  writes (fields_ser skip ns fs vs) members_events (fields_dump skip ns ds vs).
Proof.
  induction 1 as [|f d fs ds H _ IH]; intros [|n ns] [|v vs]; cbn [fields_ser fields_dump]; try reflexivity.
  specialize (IH ns vs). destruct (skip_null_value skip v).
  - unfold wnil. apply (writes_pre _ members_events _ []); [exact IH|reflexivity].
  - apply writes_bind with (k1 := fun j => EvKey n :: accept j) (k2 := fun a r => members_events (tl r)).
    + apply (writes_pre _ accept _ [EvKey n]); [apply H|reflexivity].
    + intros a _. destruct (fields_ser skip ns fs vs); cbn [obind writes] in *; auto.
    + intros a b _ Hb. destruct (fields_ser skip ns fs vs); cbn in Hb; try discriminate. now injection Hb as <-.
Qed.

Lemma resolve_all {A B C} (P : C -> Prop) (f : C -> option A) (g : C -> option B) (R : A -> B -> Prop) l :
  Forall (fun c => P c -> forall a, f c = Some a -> exists b, g c = Some b /\ R a b) l -> Forall P l ->
  forall xs, all_some (map f l) = Some xs -> exists ys, all_some (map g l) = Some ys /\ Forall2 R xs ys.
Proof.
  intros H HP. induction H as [|c l Hc _ IH]; intros xs E; cbn in E.
  - injection E as <-. exists []. split; [reflexivity|constructor].
  - inversion HP; subst. destruct (f c) as [a|] eqn:Ea; [|discriminate]. destruct (all_some (map f l)) as [as'|]; [|discriminate].
    injection E as <-. destruct (Hc ltac:(assumption) a eq_refl) as (b & Eb & Hab). destruct (IH ltac:(assumption) as' eq_refl) as (bs & Ebs & Hbs).
    exists (b :: bs). cbn. rewrite Eb, Ebs. split; [reflexivity|]. now constructor.
Qed.

Lemma dump_pairs_lemma be skip table t : dumps_in_pairs table t -> forall s, r_ser be skip table t = Some s ->
  exists d, r_dump be skip table t = Some d /\ same_output s d.
Proof.
  induction t as [t|t IH|t IH|t IH|ts IH|fs IH|k own IH] using cty_ind1; cbn [dumps_in_pairs r_ser r_dump]; intros H s Es.
  - injection Es as <-. eexists. split; [reflexivity|]. intros v. pose proof (dump_lemma be skip t v) as D. exact D.
  - apply over_some in Es as (x & Ex & ->). destruct (IH H x Ex) as (d & -> & Hd). eexists. split; [reflexivity|].
    intros []; try reflexivity. apply Hd.
  - apply over_some in Es as (x & Ex & ->). destruct (IH H x Ex) as (d & -> & Hd). eexists. split; [reflexivity|].
    apply same_writes. intros []; try reflexivity. cbn [seq_ser seq_dump]. unfold wev.
    apply writes_omap with (k := fun js => EvStartArr :: flat_map accept js ++ [EvEndArr]); [|reflexivity].
    apply writes_pre with (k := fun js => flat_map accept js ++ [EvEndArr]); [|reflexivity].
    eapply writes_post; [|reflexivity]. apply writes_mapm. intros y _. apply Hd.
  - apply over_some in Es as (x & Ex & ->). destruct (IH H x Ex) as (d & -> & Hd). eexists. split; [reflexivity|].
    apply same_writes. intros []; try reflexivity. cbn [map_ser map_dump].
    apply writes_omap with (k := fun ms => EvStartObj :: members_events ms ++ [EvEndObj]); [|reflexivity].
    apply writes_pre with (k := fun ms => members_events ms ++ [EvEndObj]); [|reflexivity].
    eapply writes_post; [|reflexivity]. apply writes_map. intros y _. apply Hd.
  - apply over_some in Es as (x & Ex & ->). apply all1_Forall in H.
    destruct (resolve_all _ _ _ same_output ts IH H x Ex) as (ds & -> & Hd). eexists. split; [reflexivity|].
    apply same_writes. intros []; try reflexivity. cbn [tup_ser tup_dump]. unfold wev.
    apply writes_omap with (k := fun js => EvStartArr :: flat_map accept js ++ [EvEndArr]); [|reflexivity].
    apply writes_pre with (k := fun js => flat_map accept js ++ [EvEndArr]); [|reflexivity].
    eapply writes_post; [|reflexivity]. now apply each_writes.
  - apply over_some in Es as (x & Ex & ->). apply all1_Forall in H.
    destruct (resolve_all _ _ _ same_output fs IH H x Ex) as (ds & -> & Hd). eexists. split; [reflexivity|].
    apply same_writes. intros []; try reflexivity. cbn [rec_ser rec_dump].
    apply writes_omap with (k := fun ms => EvStartObj :: members_events ms ++ [EvEndObj]); [|reflexivity].
    apply writes_pre with (k := fun ms => members_events ms ++ [EvEndObj]); [|reflexivity].
    eapply writes_post; [|reflexivity]. now apply fields_writes.
  - destruct (z_ser (table k)) as [zs|], (z_dump (table k)) as [zd|]; try contradiction; cbn [prefer] in *.
    + injection Es as <-. eauto.
    + destruct (adl_ser (table k)) as [os|], (adl_dump (table k)) as [od|]; try contradiction.
      * destruct H as [Ht Hs]. destruct own as [t|]; cbn [overload] in *.
        -- rewrite <- Ht. destruct (templated os); [discriminate|]. injection Es as <-. eauto.
        -- injection Es as <-. eauto.
      * destruct own as [t|]; cbn [overload] in *; [|discriminate]. destruct (IH t eq_refl H s Es) as (d & -> & Hd). eauto.
Qed.

(* ---------- round trip ---------- *)

Lemma fields_ser_names skip ns : forall fs vs ms, fields_ser skip ns fs vs = Ok ms -> incl (map fst ms) ns /\ (NoDup ns -> NoDup (map fst ms)).
Proof.
  induction ns as [|n ns IH]; intros [|f fs] [|v vs] ms E; cbn in E; try discriminate.
  - injection E as <-. split; [intros ? []|constructor].
  - destruct (skip_null_value skip v).
    + destruct (IH _ _ _ E) as [I N]. split; [intros x Hx; right; auto|]. intros D. inversion D; auto.
    + apply obind_ok in E as (j & _ & E). apply obind_ok in E as (ms' & E' & [= <-]). destruct (IH _ _ _ E') as [I N]. cbn. split.
      * intros x [<-|Hx]; [now left|right; auto].
      * intros D. inversion D; subst. constructor; auto.
Qed.


Definition inverse_on (skip : bool) (s : val -> outcome json) (d : json -> val -> dres) (v w : val) : Prop :=
  reads_back s d v w /\ (skip_null_value skip v = true -> d JNull w = (v, None)).

Lemma fields_rt skip all ns : forall fs gs vs ws ms, NoDup ns -> fields_ser skip ns fs vs = Ok ms ->
  (forall n j, In (n, j) ms -> find_member n all = Some j) ->
  (forall n, In n ns -> ~ In n (map fst ms) -> find_member n all = None) ->
  all3 (fun fg v w => inverse_on skip (fst fg) (snd fg) v w) (combine fs gs) vs ws -> length fs = length gs ->
  fields_deser all ns gs ws = (vs, None).
Proof.
  induction ns as [|n ns IH]; intros [|f fs] [|g gs] [|v vs] [|w ws] ms D E Hf Hn H L; cbn [fields_ser] in E; cbn in H, L; try discriminate; try contradiction.
  - reflexivity.
  - destruct H as [[Hr Hk] H]. inversion D; subst. cbn [fst snd] in *. cbn [fields_deser].
    destruct (skip_null_value skip v) eqn:Esk.
    + assert (F : find_member n all = None).
      { apply Hn; [now left|]. destruct (fields_ser_names _ _ _ _ _ E) as [I _]. intros X. apply I in X. contradiction. }
      unfold at_field at 1. rewrite F. rewrite (Hk eq_refl). rewrite (IH fs gs vs ws ms); auto.
      intros n' I' N'. apply Hn; [now right|exact N'].
    + apply obind_ok in E as (j & Ej & E). apply obind_ok in E as (ms' & E' & [= <-]).
      unfold at_field at 1. rewrite (Hf n j (or_introl eq_refl)). rewrite (Hr j Ej). rewrite (IH fs gs vs ws ms'); auto.
      * intros n' j' I'. apply Hf. now right.
      * intros n' I' N'. apply Hn; [now right|]. cbn. intros [->|X]; contradiction.
Qed.

Lemma each_rt pre : forall fs gs vs ws js, each_ser fs vs = Ok js ->
  all3 (fun fg v w => reads_back (fst fg) (snd fg) v w) (combine fs gs) vs ws -> length fs = length gs ->
  each_deser (pre ++ js) gs (length pre) ws = (vs, None).
Proof.
  intros fs. revert pre. induction fs as [|f fs IH]; intros pre [|g gs] [|v vs] [|w ws] js E H L; cbn [each_ser] in E; cbn in H, L; try discriminate; try contradiction.
  - reflexivity.
  - destruct H as [Hr H]. apply obind_ok in E as (j & Ej & E). apply obind_ok in E as (js' & E' & [= <-]).
    cbn [each_deser]. rewrite at_index_app. cbn [fst snd] in Hr. rewrite (Hr j Ej).
    specialize (IH (pre ++ [j]) gs vs ws js' E' H (f_equal pred L)). rewrite <- app_assoc in IH. cbn [app] in IH. rewrite app_length in IH. cbn [length] in IH.
    rewrite Nat.add_1_r in IH. now rewrite IH.
Qed.

Lemma each_ser_length fs : forall vs js, each_ser fs vs = Ok js -> length js = length fs.
Proof.
  induction fs as [|f fs IH]; intros [|v vs] js E; cbn in E; try discriminate.
  - now injection E as <-.
  - apply obind_ok in E as (j & _ & E). apply obind_ok in E as (js' & E' & [= <-]). cbn. f_equal. eauto.
Qed.

Lemma kept_all {C} (l : list C) (P : C -> val -> val -> Prop) (f : C -> option (val -> outcome json)) (g : C -> option (json -> val -> dres))
    (R : (val -> outcome json) * (json -> val -> dres) -> val -> val -> Prop) :
  Forall (fun c => forall v w, P c v w -> forall s d, f c = Some s -> g c = Some d -> R (s, d) v w) l ->
  forall ss ds vs ws, all_some (map f l) = Some ss -> all_some (map g l) = Some ds -> all3 P l vs ws ->
  length ss = length ds /\ all3 R (combine ss ds) vs ws.
Proof.
  induction 1 as [|c l Hc _ IH]; intros ss ds vs ws Es Ed H; cbn in Es, Ed.
  - injection Es as <-. injection Ed as <-. destruct vs, ws; cbn in *; try contradiction. auto.
  - destruct (f c) as [s|] eqn:Es'; [|discriminate]. destruct (all_some (map f l)) as [ss'|]; [|discriminate]. injection Es as <-.
    destruct (g c) as [d|] eqn:Ed'; [|discriminate]. destruct (all_some (map g l)) as [ds'|]; [|discriminate]. injection Ed as <-.
    destruct vs as [|v vs], ws as [|w ws]; cbn in H; try contradiction. destruct H as [Hv H].
    destruct (IH ss' ds' vs ws eq_refl eq_refl H) as [L A]. cbn. split; [congruence|]. split; [|exact A]. eapply Hc; eauto.
Qed.

Lemma kept_lemma be skip table t : forall v w, kept be skip table t v w -> forall s d,
  r_ser be skip table t = Some s -> r_deser be table t = Some d -> reads_back s d v w.
Proof.
  induction t as [t|t IH|t IH|t IH|ts IH|fs IH|k own IH] using cty_ind1; cbn [kept r_ser r_deser]; intros v w H s d Es Ed j Ej.
  - injection Es as <-. injection Ed as <-. destruct H as (Hw & Ht & Hr). eapply round_trip_lemma; eauto.
  - apply over_some in Es as (x & Ex & ->). apply over_some in Ed as (y & Ey & ->). unfold opt_deser.
    destruct v; try contradiction; cbn [opt_ser] in Ej.
    + injection Ej as <-. reflexivity.
    + destruct H as [Hn H]. assert (is_null j = false) as ->.
      { destruct j; try reflexivity. exfalso. now apply (Hn x Ex). }
      now rewrite (IH _ _ H _ _ Ex Ey j Ej).
  - apply over_some in Es as (x & Ex & ->). apply over_some in Ed as (y & Ey & ->). destruct v; try contradiction. cbn [seq_ser] in Ej.
    apply omap_ok in Ej as (js & Ejs & ->). cbn [seq_deser]. apply all1_Forall in H. rewrite Forall_forall in H.
    rewrite (seq_loop_rt y (c_default table t) x vs js [] Ejs); [reflexivity|]. intros v' j' I Ej'. eapply IH; eauto.
  - apply over_some in Es as (x & Ex & ->). apply over_some in Ed as (y & Ey & ->). destruct v; try contradiction. cbn [map_ser] in Ej.
    apply omap_ok in Ej as (ms & Ems & ->). cbn [map_deser]. destruct H as [Hs H]. apply all1_Forall in H. rewrite Forall_forall in H.
    erewrite (map_loop_rt skip y (c_default table t) x _ ms [] Ems); [reflexivity| |exact Hs]. intros kv I. destruct (H kv I) as [Hk Hv].
    split; [exact Hk|]. intros j' Ej'. eapply IH; eauto.
  - apply over_some in Es as (x & Ex & ->). apply over_some in Ed as (y & Ey & ->). destruct v; try contradiction. destruct w; try contradiction.
    cbn [tup_ser] in Ej. apply omap_ok in Ej as (js & Ejs & ->). cbn [tup_deser].
    destruct (kept_all ts _ _ _ (fun fg v w => reads_back (fst fg) (snd fg) v w) IH x y _ _ Ex Ey H) as [L A].
    rewrite (each_ser_length _ _ _ Ejs), L, Nat.ltb_irrefl. pose proof (each_rt [] x y _ _ js Ejs A L) as R. cbn [app length] in R. now rewrite R.
  - apply over_some in Es as (x & Ex & ->). apply over_some in Ed as (y & Ey & ->). destruct v; try contradiction. destruct w; try contradiction.
    cbn [rec_ser] in Ej. apply omap_ok in Ej as (ms & Ems & ->). cbn [rec_deser]. destruct H as [D H].
    edestruct (kept_all fs (fun f v w => kept be skip table (snd f) v w /\ (skip_null_value skip v = true -> may_be_absent (snd f)))
      (fun f => r_ser be skip table (snd f)) (fun f => r_deser be table (snd f))
      (fun fg v w => inverse_on skip (fst fg) (snd fg) v w)) as [L A]; [|exact Ex|exact Ey|exact H|].
    { eapply Forall_impl; [|exact IH]. intros [n t] It v w [Hk Ha] s' d' Es' Ed'. split.
      - intros j' Ej'. eapply It; eauto.
      - intros Sk. specialize (Ha Sk). unfold skip_null_value in Sk. apply andb_true_iff in Sk as [_ Sk]. cbn [snd fst] in *.
        assert (v = VNone) as -> by (destruct v; try discriminate; reflexivity).
        destruct t as [[]|t| | | | |]; try contradiction; cbn [r_deser] in Ed'.
        + injection Ed' as <-. reflexivity.
        + apply over_some in Ed' as (z & _ & ->). reflexivity. }
    destruct (fields_ser_names _ _ _ _ _ Ems) as [_ N].
    erewrite (fields_rt skip ms (map fst fs) x y _ _ ms D Ems); [reflexivity| | |exact A|exact L].
    + intros n j' I. apply find_member_nodup; auto.
    + intros n _ I. now apply find_member_none.
  - destruct (z_ser (table k)) as [zs|], (z_deser (table k)) as [zd|]; try contradiction; cbn [prefer] in *.
    + injection Es as <-. injection Ed as <-. now apply H.
    + destruct (adl_ser (table k)) as [os|], (adl_deser (table k)) as [od|]; try contradiction.
      * destruct own as [t|]; cbn [overload] in *.
        -- destruct (templated os); [discriminate|]. destruct (templated od); [discriminate|]. injection Es as <-. injection Ed as <-. now apply H.
        -- injection Es as <-. injection Ed as <-. now apply H.
      * destruct own as [t|]; cbn [overload] in *; [|discriminate]. eapply (IH t); eauto.
Qed.

(* ---------- patching never overwrites a customized value by its deserializer unnoticed ---------- *)

Lemma all_some_in {A B} (f : B -> option A) l xs b : all_some (map f l) = Some xs -> In b l -> exists x, f b = Some x.
Proof.
  revert xs. induction l as [|c l IH]; intros xs E I; [contradiction|]. cbn in E. destruct (f c) as [a|] eqn:Ea; [|discriminate].
  destruct (all_some (map f l)) as [as'|]; [|discriminate]. destruct I as [<-|I]; eauto.
Qed.

Lemma patched_lemma be table t k : patched_in table t k -> forall p, r_patch be table t = Some p ->
  z_deser (table k) <> None -> z_patch (table k) <> None.
Proof.
  induction 1 as [k own|t k _ IH|n t fs k I _ IH|k' t k Hz Ha _ IH|k' n t fs k Hz Ha I _ IH]; intros p E D.
  - cbn [r_patch] in E. unfold patch_compatible in E. destruct (z_patch (table k)); [discriminate|]. destruct (z_deser (table k)); [|contradiction].
    discriminate.
  - cbn [r_patch] in E. apply over_some in E as (x & Ex & _). eauto.
  - cbn [r_patch] in E. destruct (r_deser be table (CRec fs)); [|discriminate]. apply over_some in E as (xs & Ex & _).
    destruct (all_some_in _ _ _ (n, t) Ex I) as (x & Ex'). eauto.
  - cbn [r_patch] in E. rewrite Hz, Ha in E. destruct (patch_compatible (table k')); [|discriminate]. cbn [overload] in E.
    apply over_some in E as (x & Ex & _). eauto.
  - cbn [r_patch] in E. rewrite Hz, Ha in E. destruct (patch_compatible (table k')); [|discriminate]. cbn [overload] in E.
    destruct (r_deser be table (CUser k' (Some (CRec fs)))); [|discriminate]. apply over_some in E as (xs & Ex & _).
    destruct (all_some_in _ _ _ (n, t) Ex I) as (x & Ex'). eauto.
Qed.
