(** Proofs about customized types. *)
From Coq Require Import List NArith ZArith Arith Bool Lia.
From Verif Require Import Base PathModel ScalarModel SerialModel SerialSpec SerialSamples SerialBaseProofs SerialDumpProofs SerialRoundProofs.
From Verif Require Import CustomModel CustomSpec.
Import ListNotations.
Local Open Scope outcome_scope.
Local Notation str := (list N) (only parsing).

Lemma cty_ind1 (P : cty -> Prop) :
  (forall t, P (CBase t)) -> (forall t, P t -> P (COpt t)) -> (forall t, P t -> P (CSeq t)) -> (forall t, P t -> P (CMap t)) ->
  (forall ts, Forall P ts -> P (CTup ts)) -> (forall fs, Forall (fun f => P (snd f)) fs -> P (CRec fs)) ->
  (forall k own, (forall t, own = Some t -> P t) -> P (CUser k own)) -> forall t, P t.
Proof.
  intros HB HO HS HM HT HR HU. fix IH 1. intros [t|t|t|t|ts|fs|k own].
  - apply HB.
  - apply HO, IH.
  - apply HS, IH.
  - apply HM, IH.
  - apply HT. induction ts as [|t ts IHts]; constructor; [apply IH|apply IHts].
  - apply HR. induction fs as [|[n t] fs IHfs]; constructor; [apply IH|apply IHfs].
  - apply HU. destruct own as [t|]; [|discriminate]. intros t' E. injection E as <-. apply IH.
Qed.

Lemma over_some {A B} (f : A -> B) o g : over f o = Some g -> exists x, o = Some x /\ g = f x.
Proof. destruct o as [x|]; cbn; [|discriminate]. intros [= <-]. eauto. Qed.

Lemma all_some_forall {A} (l : list (option A)) xs : all_some l = Some xs <-> Forall2 (fun o x => o = Some x) l xs.
Proof.
  revert xs. induction l as [|[x|] l IH]; intros xs; cbn.
  - split; [intros [= <-]; constructor | now inversion 1].
  - split.
    + destruct (all_some l) as [ys|] eqn:E; [|discriminate]. intros [= <-]. constructor; [reflexivity|]. now apply IH.
    + inversion 1 as [|? ? ? ys E1 E2]; subst. apply IH in E2. rewrite E2. congruence.
  - split; [discriminate|]. now inversion 1.
Qed.

Lemma all_some_map {A B} (f : B -> option A) l xs : all_some (map f l) = Some xs -> Forall2 (fun b x => f b = Some x) l xs.
Proof.
  intros H. apply all_some_forall in H. revert xs H. induction l as [|b l IH]; intros xs H; inversion H; subst; constructor; auto.
Qed.

(* ---------- types without customizations ---------- *)

Definition at_plain (n : str) (t : ty) : attrs * ty := (plain n (default_of t), t).

Lemma no_extra (l : list (str * ty)) : any_extra_or_flatten (map (fun f => at_plain (fst f) (snd f)) l) = false.
Proof. induction l; cbn; auto. Qed.

Lemma no_reserved (l : list (str * ty)) : reserved_field_names (map (fun f => at_plain (fst f) (snd f)) l) = Ok [].
Proof. unfold reserved_field_names. now rewrite no_extra. Qed.

Lemma count_plain (l : list (str * ty)) : sequence_field_count (map (fun f => at_plain (fst f) (snd f)) l) = length l.
Proof. unfold sequence_field_count. induction l; cbn; auto. Qed.

Lemma described_rec fs : described (CRec fs) =
  TRec (map (fun f => at_plain (fst f) (snd f)) (map (fun f => (fst f, described (snd f))) fs)).
Proof. cbn [described]. rewrite map_map. reflexivity. Qed.

Lemma default_plain table t : plain_type t -> c_default table t = default_of (described t).
Proof.
  induction t as [t|t _|t _|t _|ts IH|fs IH|k own _] using cty_ind1; cbn [plain_type c_default described default_of]; intros H; try reflexivity.
  - f_equal. rewrite map_map. apply map_ext_in. intros t Ht. rewrite Forall_forall in IH. apply IH; [exact Ht|]. apply all1_Forall in H.
    rewrite Forall_forall in H. auto.
  - f_equal. rewrite map_map. apply map_ext_in. intros f Hf. cbn [fst snd a_init plain]. rewrite Forall_forall in IH. apply IH; [exact Hf|].
    apply all1_Forall in H. rewrite Forall_forall in H. auto.
  - contradiction.
Qed.

Lemma mapm_ext {A B} (f g : A -> outcome B) l : (forall x, f x = g x) -> mapm f l = mapm g l.
Proof. intros H. induction l as [|x l IH]; cbn; [reflexivity|]. now rewrite H, IH. Qed.

Lemma map_members_ext skip f g l : (forall x, f x = g x) -> map_members skip f l = map_members skip g l.
Proof. intros H. induction l as [|[k x] l IH]; cbn; [reflexivity|]. now rewrite H, IH. Qed.

Lemma each_ser_plain be skip ts fs : Forall2 (fun t f => forall v, f v = serialize be skip t v) ts fs ->
  forall vs, each_ser fs vs = ser_tuple (fun t v => ser be skip t None v) ts vs.
Proof.
  induction 1 as [|t f ts fs H _ IH]; intros [|v vs]; cbn; try reflexivity. rewrite H, IH. reflexivity.
Qed.

Lemma fields_ser_plain be skip l fs : Forall2 (fun f g => forall v, g v = serialize be skip (snd f) v) l fs ->
  forall names vs, fields_ser skip (map fst l) fs vs = ser_fields skip (ser be skip) names (map (fun f => at_plain (fst f) (snd f)) l) vs.
Proof.
  intros H names. induction H as [|[n t] g l fs H _ IH]; intros [|v vs]; cbn [map fields_ser ser_fields fst snd at_plain]; try reflexivity.
  cbn [a_skip_ser plain a_extra a_flatten]. unfold skip_serialized_field, skip_null_field, skip_empty_field, serialized_name.
  cbn [a_emit_null a_skip_if_null a_skip_if_empty a_rename a_name plain]. rewrite orb_false_r. cbn [orb].
  destruct (skip_null_value skip v); [apply IH|]. rewrite H. cbn [snd]. unfold serialize. destruct (ser be skip t None v); cbn [obind]; try reflexivity.
  rewrite IH. reflexivity.
Qed.

Lemma ser_plain be skip table t : plain_type t -> exists f, r_ser be skip table t = Some f /\ forall v, f v = serialize be skip (described t) v.
Proof.
  induction t as [t|t IH|t IH|t IH|ts IH|fs IH|k own _] using cty_ind1; cbn [plain_type r_ser described]; intros H.
  - eexists. split; reflexivity.
  - destruct (IH H) as (f & -> & Hf). eexists. split; [reflexivity|]. intros []; try reflexivity. apply Hf.
  - destruct (IH H) as (f & -> & Hf). eexists. split; [reflexivity|]. intros []; try reflexivity. unfold serialize. cbn. f_equal. now apply mapm_ext.
  - destruct (IH H) as (f & -> & Hf). eexists. split; [reflexivity|]. intros []; try reflexivity. unfold serialize. cbn. f_equal. now apply map_members_ext.
  - assert (X : exists gs, all_some (map (r_ser be skip table) ts) = Some gs /\ Forall2 (fun t f => forall v, f v = serialize be skip t v) (map described ts) gs).
    { apply all1_Forall in H. clear -IH H. induction IH as [|t ts It _ IH]; cbn; [eexists; split; [reflexivity|constructor]|].
      inversion H; subst. destruct (It ltac:(assumption)) as (f & -> & Hf). destruct (IH ltac:(assumption)) as (gs & -> & Hg).
      eexists. split; [reflexivity|]. now constructor. }
    destruct X as (gs & -> & Hg). eexists. split; [reflexivity|]. intros []; try reflexivity. unfold serialize. cbn. f_equal. now apply each_ser_plain.
  - assert (X : exists gs, all_some (map (fun f => r_ser be skip table (snd f)) fs) = Some gs /\
      Forall2 (fun f g => forall v, g v = serialize be skip (snd f) v) (map (fun f => (fst f, described (snd f))) fs) gs).
    { apply all1_Forall in H. clear -IH H. induction IH as [|t ts It _ IH]; cbn; [eexists; split; [reflexivity|constructor]|].
      inversion H; subst. destruct (It ltac:(assumption)) as (f & -> & Hf). destruct (IH ltac:(assumption)) as (gs & -> & Hg).
      eexists. split; [reflexivity|]. now constructor. }
    destruct X as (gs & -> & Hg). eexists. split; [reflexivity|]. intros v.
    change (TRec _) with (described (CRec fs)). rewrite described_rec. destruct v; try reflexivity. unfold serialize. cbn [ser rec_ser].
    rewrite no_reserved. cbn [obind]. f_equal. rewrite <- (fields_ser_plain _ _ _ _ Hg [] vs). now rewrite map_map.
  - contradiction.
Qed.

Lemma wall_ext {A} (f g : A -> written) l : (forall x, f x = g x) -> wall f l = wall g l.
Proof. intros H. induction l as [|x l IH]; cbn; [reflexivity|]. now rewrite H, IH. Qed.

Lemma each_dump_plain be skip ts fs : Forall2 (fun t f => forall v, f v = dump be skip t v) ts fs ->
  forall vs, each_dump fs vs = dump_tuple (fun t v => dmp be skip t None v) ts vs.
Proof.
  induction 1 as [|t f ts fs H _ IH]; intros [|v vs]; cbn; try reflexivity. rewrite H, IH. reflexivity.
Qed.

Lemma fields_dump_plain be skip l fs : Forall2 (fun f g => forall v, g v = dump be skip (snd f) v) l fs ->
  forall names vs, fields_dump skip (map fst l) fs vs = dump_fields skip (dmp be skip) names (map (fun f => at_plain (fst f) (snd f)) l) vs.
Proof.
  intros H names. induction H as [|[n t] g l fs H _ IH]; intros [|v vs]; cbn [map fields_dump dump_fields fst snd at_plain]; try reflexivity.
  cbn [a_skip_ser plain a_extra a_flatten]. unfold skip_serialized_field, skip_null_field, skip_empty_field, serialized_name.
  cbn [a_emit_null a_skip_if_null a_skip_if_empty a_rename a_name plain]. rewrite orb_false_r. cbn [orb].
  rewrite H, IH. reflexivity.
Qed.

Lemma dump_plain be skip table t : plain_type t -> exists f, r_dump be skip table t = Some f /\ forall v, f v = dump be skip (described t) v.
Proof.
  induction t as [t|t IH|t IH|t IH|ts IH|fs IH|k own _] using cty_ind1; cbn [plain_type r_dump described]; intros H.
  - eexists. split; reflexivity.
  - destruct (IH H) as (f & -> & Hf). eexists. split; [reflexivity|]. intros []; try reflexivity. apply Hf.
  - destruct (IH H) as (f & -> & Hf). eexists. split; [reflexivity|]. intros []; try reflexivity. cbn [over seq_dump]. unfold dump. cbn [dmp].
    rewrite (wall_ext _ (dmp be skip (described t) None) vs); [reflexivity|exact Hf].
  - destruct (IH H) as (f & -> & Hf). eexists. split; [reflexivity|]. intros []; try reflexivity. cbn [over map_dump]. unfold dump. cbn [dmp].
    do 2 f_equal. apply wall_ext. intros [k v]. cbn [fst snd]. now rewrite Hf.
  - assert (X : exists gs, all_some (map (r_dump be skip table) ts) = Some gs /\ Forall2 (fun t f => forall v, f v = dump be skip t v) (map described ts) gs).
    { apply all1_Forall in H. clear -IH H. induction IH as [|t ts It _ IH]; cbn; [eexists; split; [reflexivity|constructor]|].
      inversion H; subst. destruct (It ltac:(assumption)) as (f & -> & Hf). destruct (IH ltac:(assumption)) as (gs & -> & Hg).
      eexists. split; [reflexivity|]. now constructor. }
    destruct X as (gs & -> & Hg). eexists. split; [reflexivity|]. intros []; try reflexivity. cbn [over tup_dump]. unfold dump. cbn [dmp].
    now rewrite (each_dump_plain _ _ _ _ Hg).
  - assert (X : exists gs, all_some (map (fun f => r_dump be skip table (snd f)) fs) = Some gs /\
      Forall2 (fun f g => forall v, g v = dump be skip (snd f) v) (map (fun f => (fst f, described (snd f))) fs) gs).
    { apply all1_Forall in H. clear -IH H. induction IH as [|t ts It _ IH]; cbn; [eexists; split; [reflexivity|constructor]|].
      inversion H; subst. destruct (It ltac:(assumption)) as (f & -> & Hf). destruct (IH ltac:(assumption)) as (gs & -> & Hg).
      eexists. split; [reflexivity|]. now constructor. }
    destruct X as (gs & -> & Hg). eexists. split; [reflexivity|]. intros v.
    change (TRec _) with (described (CRec fs)). rewrite described_rec. destruct v; try reflexivity. unfold dump. cbn [dmp over rec_dump].
    rewrite no_reserved. cbn [wout]. rewrite <- (fields_dump_plain _ _ _ _ Hg [] vs). now rewrite map_map.
  - contradiction.
Qed.

Lemma seq_loop_ext f g d js : (forall j v, f j v = g j v) -> forall out, seq_loop f d js out = seq_loop g d js out.
Proof. intros H. induction js as [|j js IH]; intros out; cbn; [reflexivity|]. rewrite H. destruct (g j d) as [v []]; auto. Qed.

Lemma map_loop_ext f g d ms : (forall j v, f j v = g j v) -> forall out, map_loop f d ms out = map_loop g d ms out.
Proof. intros H. induction ms as [|[k j] ms IH]; intros out; cbn; [reflexivity|]. rewrite H. destruct (g j d) as [v []]; auto. Qed.

Lemma each_deser_plain be ts fs js : Forall2 (fun t f => forall j v, f j v = deser be t j v) ts fs ->
  forall i vs, each_deser js fs i vs = deser_tuple (deser be) js ts i vs.
Proof.
  induction 1 as [|t f ts fs H _ IH]; intros i [|v vs]; cbn; try reflexivity. rewrite H. destruct (deser be t (at_index js i) v) as [v' []]; [reflexivity|].
  now rewrite IH.
Qed.

Lemma each_deser_fields be l fs js : Forall2 (fun f g => forall j v, g j v = deser be (snd f) j v) l fs ->
  forall i vs, each_deser js fs i vs = deser_elements (deser be) js (map (fun f => at_plain (fst f) (snd f)) l) i vs.
Proof.
  induction 1 as [|[n t] f ts fs H _ IH]; intros i [|v vs]; cbn [each_deser deser_elements map]; try reflexivity. unfold at_plain at 1. cbn [fst snd].
  cbn [a_skip_deser plain a_extra a_flatten orb]. rewrite H. cbn [snd]. destruct (deser be t (at_index js i) v) as [v' []]; cbn [then_validate a_validators plain validate].
  - reflexivity.
  - now rewrite IH.
Qed.

Lemma fields_deser_plain be l fs ms : Forall2 (fun f g => forall j v, g j v = deser be (snd f) j v) l fs ->
  forall names vs, fields_deser ms (map fst l) fs vs = deser_members (deser be) names ms (map (fun f => at_plain (fst f) (snd f)) l) vs.
Proof.
  intros H names. induction H as [|[n t] f ts fs H _ IH]; intros [|v vs]; cbn [fields_deser deser_members map]; try reflexivity. unfold at_plain at 1. cbn [fst snd].
  cbn [a_skip_deser plain a_extra a_flatten orb]. rewrite H. cbn [snd].
  assert (E : read_field (plain n (default_of t)) (deser be t) ms v = deser be t (at_field ms n) v).
  { unfold read_field, resolve_field_name, serialized_name, at_field, has_field. cbn [a_rename a_name a_aliases a_default a_allow_missing plain find].
    destruct (find_member n ms) as [j|] eqn:Ej.
    - rewrite ?Ej. destruct (is_null j); unfold then_validate; cbn [a_validators plain]; destruct (deser be t j v) as [v' []]; reflexivity.
    - unfold then_validate; cbn [a_validators plain]; rewrite ?Ej; destruct (deser be t JNull v) as [v' []]; reflexivity. }
  rewrite E. destruct (deser be t (at_field ms n) v) as [v' []]; [reflexivity|]. now rewrite IH.
Qed.

Lemma deser_plain be table t : plain_type t -> exists f, r_deser be table t = Some f /\ forall j v, f j v = deser be (described t) j v.
Proof.
  induction t as [t|t IH|t IH|t IH|ts IH|fs IH|k own _] using cty_ind1; cbn [plain_type r_deser described]; intros H.
  - eexists. split; reflexivity.
  - destruct (IH H) as (f & -> & Hf). eexists. split; [reflexivity|]. intros j v. cbn [over deser]. unfold opt_deser. rewrite Hf, (default_plain table t H). reflexivity.
  - destruct (IH H) as (f & -> & Hf). eexists. split; [reflexivity|]. intros j v. cbn [over deser]. unfold seq_deser. rewrite (default_plain table t H).
    destruct j; try reflexivity. now rewrite (seq_loop_ext _ _ _ _ Hf).
  - destruct (IH H) as (f & -> & Hf). eexists. split; [reflexivity|]. intros j v. cbn [over deser]. unfold map_deser. rewrite (default_plain table t H).
    destruct j; try reflexivity. now rewrite (map_loop_ext _ _ _ _ Hf).
  - assert (X : exists gs, all_some (map (r_deser be table) ts) = Some gs /\ Forall2 (fun t f => forall j v, f j v = deser be t j v) (map described ts) gs).
    { apply all1_Forall in H. clear -IH H. induction IH as [|t ts It _ IH]; cbn; [eexists; split; [reflexivity|constructor]|].
      inversion H; subst. destruct (It ltac:(assumption)) as (f & -> & Hf). destruct (IH ltac:(assumption)) as (gs & -> & Hg).
      eexists. split; [reflexivity|]. now constructor. }
    destruct X as (gs & -> & Hg). eexists. split; [reflexivity|]. intros j v. cbn [over deser]. unfold tup_deser.
    rewrite <- (Forall2_len _ _ _ Hg). destruct j; try reflexivity. destruct v; try reflexivity. now rewrite (each_deser_plain _ _ _ _ Hg).
  - assert (X : exists gs, all_some (map (fun f => r_deser be table (snd f)) fs) = Some gs /\
      Forall2 (fun f g => forall j v, g j v = deser be (snd f) j v) (map (fun f => (fst f, described (snd f))) fs) gs).
    { apply all1_Forall in H. clear -IH H. induction IH as [|t ts It _ IH]; cbn; [eexists; split; [reflexivity|constructor]|].
      inversion H; subst. destruct (It ltac:(assumption)) as (f & -> & Hf). destruct (IH ltac:(assumption)) as (gs & -> & Hg).
      eexists. split; [reflexivity|]. now constructor. }
    destruct X as (gs & -> & Hg). eexists. split; [reflexivity|]. intros j v.
    change (TRec _) with (described (CRec fs)). rewrite described_rec. cbn [over rec_deser deser]. unfold rec_deser.
    destruct j; try reflexivity; destruct v; try reflexivity.
    + rewrite count_plain, <- (Forall2_len _ _ _ Hg). now rewrite (each_deser_fields _ _ _ _ Hg).
    + rewrite no_reserved. rewrite <- (fields_deser_plain _ _ _ _ Hg [] vs). now rewrite map_map.
  - contradiction.
Qed.

Lemma fields_patch_plain be l fs ms : Forall2 (fun f g => forall j v, g j v = patch be (snd f) j v) l fs ->
  forall names vs, fields_patch ms (map fst l) fs vs = patch_members (patch be) names ms (map (fun f => at_plain (fst f) (snd f)) l) vs.
Proof.
  intros H names. induction H as [|[n t] f ts fs H _ IH]; intros [|v vs]; cbn [fields_patch patch_members map]; try reflexivity. unfold at_plain at 1. cbn [fst snd].
  cbn [a_skip_deser plain a_extra a_flatten orb]. rewrite H. cbn [snd].
  assert (E : patch_field (plain n (default_of t)) (patch be t) ms v = if has_field ms n then patch be t (at_field ms n) v else (v, None)).
  { unfold patch_field, resolve_field_name, serialized_name. cbn [a_rename a_name a_aliases a_default plain find].
    destruct (has_field ms n) eqn:Ej; [|reflexivity].
    destruct (is_null (at_field ms n)); unfold then_validate; cbn [a_validators plain]; destruct (patch be t (at_field ms n) v) as [v' []]; reflexivity. }
  rewrite E. destruct (if has_field ms n then patch be t (at_field ms n) v else (v, None)) as [v' []]; [reflexivity|]. now rewrite IH.
Qed.

Lemma patch_plain be table t : plain_type t -> exists f, r_patch be table t = Some f /\ forall j v, f j v = patch be (described t) j v.
Proof.
  induction t as [t|t IH|t IH|t IH|ts IH|fs IH|k own _] using cty_ind1; intros H.
  - eexists. split; reflexivity.
  - cbn [plain_type r_patch described] in *. destruct (IH H) as (f & -> & Hf). eexists. split; [reflexivity|]. intros j v. cbn [over patch]. unfold opt_patch.
    rewrite (default_plain table t H). destruct (is_null j); [reflexivity|]. destruct v; rewrite ?Hf; reflexivity.
  - cbn [r_patch]. destruct (deser_plain be table _ H) as (f & -> & Hf). eauto.
  - cbn [r_patch]. destruct (deser_plain be table _ H) as (f & -> & Hf). eauto.
  - cbn [r_patch]. destruct (deser_plain be table _ H) as (f & -> & Hf). eauto.
  - destruct (deser_plain be table _ H) as (whole & Ew & Hw). cbn [r_patch]. rewrite Ew.
    assert (X : exists gs, all_some (map (fun f => r_patch be table (snd f)) fs) = Some gs /\
      Forall2 (fun f g => forall j v, g j v = patch be (snd f) j v) (map (fun f => (fst f, described (snd f))) fs) gs).
    { cbn [plain_type] in H. apply all1_Forall in H. clear -IH H. induction IH as [|t ts It _ IH]; cbn; [eexists; split; [reflexivity|constructor]|].
      inversion H; subst. destruct (It ltac:(assumption)) as (f & -> & Hf). destruct (IH ltac:(assumption)) as (gs & -> & Hg).
      eexists. split; [reflexivity|]. now constructor. }
    destruct X as (gs & -> & Hg). eexists. split; [reflexivity|]. intros j v. rewrite described_rec in *. cbn [over rec_patch patch]. unfold rec_patch.
    destruct j; try apply Hw. destruct v; try (symmetry; rewrite <- Hw; reflexivity); try (rewrite <- Hw).
    all: try (destruct (deser_plain be table _ H) as (w2 & E2 & Hw2)).
    all: try (rewrite no_reserved; rewrite <- (fields_patch_plain _ _ _ _ Hg [] vs); now rewrite map_map).
    all: cbn [r_deser] in Ew; apply over_some in Ew as (x & _ & ->); reflexivity.
  - contradiction.
Qed.
