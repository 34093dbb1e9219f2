(** The outcomes of each operation. *)
From Coq Require Import List NArith ZArith Arith Bool Lia.
From Verif Require Import Base PathModel PathSpec PathProofs TrackerModel TrackerSpec EnumModel EnumProofs
  SerialModel SerialSpec SerialBaseProofs SerialTypeProofs SerialDumpProofs
  ResourceModel ResourceSpec ResourceBaseProofs ResourcePathProofs ResourceOpProofs.
From Verif Require TrackerProofs TextModel TextSpec TextProofs.
Import ListNotations.

Local Notation str := (list N) (only parsing).

(** The node of an element found by its key is a struct with that key. *)
Definition node_fits (n : nkind) (t : ty) : Prop :=
  match n with
  | NField a => keys_ok a t
  | NElem (Some k) => exists fs, t = TRec fs /\ k < length fs
  | _ => True
  end.

Lemma key_name_in cks vs s ck i : key_name cks vs s ck i -> In ck cks.
Proof. intros (b & a & -> & _). apply in_or_app. right. now left. Qed.

Lemma reaches_fits t n v segs tr t1 n1 v1 : reaches t n v segs tr t1 n1 v1 -> wf t -> every_field keys_ok t -> node_fits n t ->
  wf t1 /\ every_field keys_ok t1 /\ node_fits n1 t1.
Proof.
  induction 1 as [t n v|fs n vs i a t v segs tr t' n' v' Hf Hv Hb H IH|t n v s segs tr t' n' v' H IH
    |t n m s v segs tr t' n' v' Hin H IH|t te n vs s i v segs tr t' n' v' He Hk Hi Hv H IH
    |t te n vs s ck i v segs tr t' n' v' He Hk Hv H IH]; intros Hw He' Hn.
  - auto.
  - destruct (every_field_in _ _ _ _ _ He' Hf) as [K1 K2]. apply IH; auto.
    cbn [wf] in Hw. destruct Hw as [Hw _]. apply all1_Forall in Hw. rewrite Forall_forall in Hw.
    exact (Hw (a, t) (nth_error_In _ _ Hf)).
  - apply IH; auto. exact I.
  - apply IH; auto. exact I.
  - destruct He as [-> | [k ->]]; apply IH; auto; exact I.
  - assert (node_fits (NElem (Some (ck_member ck))) te).
    { pose proof (key_name_in _ _ _ _ _ Hk) as Hin. destruct n as [|a|k]; cbn in Hin; try contradiction.
      destruct Hn as [Hn|(fs & Hel & Hm)]; [rewrite Hn in Hin; contradiction|].
      cbn. assert (te = TRec fs) as -> by (eapply elements_fun; eassumption).
      exists fs. split; [reflexivity|]. destruct (Hm ck Hin) as (f & Hf & _). apply nth_error_Some. congruence. }
    destruct He as [-> | [k ->]]; apply IH; auto.
Qed.

Lemma root_fits t v segs tr t1 n1 v1 : schema t -> reaches t NRoot v segs tr t1 n1 v1 ->
  wf t1 /\ every_field keys_ok t1 /\ node_fits n1 t1.
Proof. intros [H1 H2] R. exact (reaches_fits _ _ _ _ _ _ _ _ R H1 H2 I). Qed.

(** Collections and optionals are never named by a key of their own. *)
Lemma fits_preserves n t v x : node_fits n t -> match t with TRec _ => False | _ => True end -> preserves_identity n v x = true.
Proof. destruct n as [|a|[k|]]; cbn; auto. intros (fs & -> & _) []. Qed.

Lemma child_read_only_node c n : is_child_node_read_only c n = false -> is_node_read_only c n = false.
Proof. unfold is_child_node_read_only. now intros [H _]%orb_false_iff. Qed.

Lemma caught_fails e : success (caught e) = false.
Proof. destruct e; reflexivity. Qed.
Lemma caught_del_fails e : success (caught_del e) = false.
Proof. destruct e; reflexivity. Qed.
Lemma caught_get_fails e : success (caught_get e) = false.
Proof. destruct e; reflexivity. Qed.

Section WithEnv.
Context (E : env).

Lemma change_cases t r loc new back h w p l whole s old :
  get_at (value r) loc = Some old -> back new = old -> w = Ok p -> denotes p l ->
  (validate_tree E t (set_at (value r) loc new) = None /\
   exists m g, notify_changed (modifications r) p whole = Ok (m, g) /\
     change E t r loc new back h w whole s = (mkresource (set_at (value r) loc new) m, Answer s [])) \/
  (exists e, validate_tree E t (set_at (value r) loc new) = Some e /\ change E t r loc new back h w whole s = (r, h e)).
Proof.
  intros Hg Hb -> D. unfold change. destruct (validate_tree E t (set_at (value r) loc new)) as [e|] eqn:Ev.
  - right. exists e. split; [reflexivity|]. rewrite (get_set _ _ _ _ Hg), Hb, set_twice, (set_back _ _ _ Hg). now destruct r.
  - left. split; [reflexivity|]. destruct (notify_total (modifications r) p l whole D) as (m & g & Hm).
    exists m, g. rewrite Hm. auto.
Qed.

(** The value at [tr] was replaced by [x], the tree is valid, and the change was
    announced at [pre]. *)
Definition replaced t r pre whole tr t1 n1 v1 x r' : Prop :=
  reaches t NRoot (value r) pre tr t1 n1 v1 /\
  is_node_read_only (ctx_along access0 tr) n1 = false /\
  preserves_identity n1 v1 x = true /\ typed t1 x /\
  validate_tree E t (set_at (value r) (map snd tr) x) = None /\
  exists p m g, denotes p pre /\ notify_changed (modifications r) p whole = Ok (m, g) /\
    r' = mkresource (set_at (value r) (map snd tr) x) m.

Definition good_read (read : ty -> json -> val -> dres) : Prop :=
  forall t, wf t -> good (read t) t.

Lemma put_cases read t r p segs j r' a : schema t -> typed t (value r) -> denotes p segs -> good_read read ->
  put_or_patch E read t r p j = (r', a) ->
  (exists tr t1 n1 v1 x, replaced t r segs (has_addressable_descendants t1) tr t1 n1 v1 x r' /\
     read t1 j v1 = (x, None) /\ a = Answer s_ok []) \/
  (r' = r /\ success a = false /\ (sound_env E -> a <> Escapes XUB)).
Proof.
  intros Hsch Ht D Hread. unfold put_or_patch.
  destruct (visit_path t (value r) p segs Ht D) as [(tr & t1 & n1 & v1 & rest & R & ->)|[[-> | ->] _]].
  2,3: intros [= <- <-]; right; repeat split; try discriminate; reflexivity.
  cbn [pl_ctx pl_node pl_ty pl_val pl_loc]. destruct (is_node_read_only (ctx_along access0 tr) n1) eqn:Ero.
  { intros [= <- <-]. right. repeat split; discriminate. }
  destruct (reaches_get _ _ _ _ _ _ _ _ R Ht) as [Hg Ht1]. destruct (root_fits _ _ _ _ _ _ _ Hsch R) as (Hw1 & Hk1 & Hf1).
  destruct (Hread t1 Hw1 j v1 Ht1) as [Hgt Hns]. destruct (read t1 j v1) as [x [e|]] eqn:Er; cbn [fst snd] in *.
  { intros [= <- <-]. right. split; [reflexivity|]. split; [apply caught_fails|]. intros [Hu _].
    destruct e; cbn; try discriminate; [destruct (user_exn E); cbn; congruence|congruence]. }
  destruct (preserves_identity n1 v1 x) eqn:Ep; cbn [negb].
  2: { intros [= <- <-]. right. repeat split; discriminate. }
  destruct (change_cases t r (map snd tr) x (fun _ => v1) caught (Ok p) p segs (has_addressable_descendants t1) s_ok v1
              Hg eq_refl eq_refl D) as [[Hv (m & g & Hm & ->)]|(e & He & ->)]; intros [= <- <-].
  - left. exists tr, t1, n1, v1, x. split; [|auto]. repeat split; auto. exists p, m, g. auto.
  - right. split; [reflexivity|]. split; [apply caught_fails|]. intros [_ Hh].
    pose proof (validate_defined E t Hh NRoot _ (reaches_set_typed _ _ _ _ _ _ _ _ x R Ht Hgt) (proj2 Hsch) I) as Hd.
    unfold validate_tree in He. rewrite He in Hd. destruct e; cbn; congruence.
Qed.

Lemma deser_good : good_read (deser (conv E)).
Proof. intros t Hw. now apply deser_typed. Qed.
Lemma patch_good : good_read (patch (conv E)).
Proof. intros t Hw. now apply patch_typed. Qed.

Lemma all1_app {A} (P : A -> Prop) l l' : all1 P (l ++ l') <-> all1 P l /\ all1 P l'.
Proof. rewrite !all1_Forall. apply Forall_app. Qed.

Lemma duplicate_defined n vs c : check_duplicate_child_key n vs c <> Some XUB.
Proof. apply first_exn_defined. intros ck _. destruct (existsb _ vs); discriminate. Qed.

Lemma post_cases t r p segs j r' a : schema t -> typed t (value r) -> denotes p segs ->
  post E t r p j = (r', a) ->
  (exists tr te n1 vs c, replaced t r segs true tr (TSeq te) n1 (VSeq vs) (VSeq (vs ++ [c])) r' /\
     is_child_node_read_only (ctx_along access0 tr) n1 = false /\
     deser (conv E) te j (default_of te) = (c, None) /\ a = Answer s_created []) \/
  (r' = r /\ success a = false /\ (sound_env E -> a <> Escapes XUB)).
Proof.
  intros Hsch Ht D. unfold post.
  destruct (visit_path t (value r) p segs Ht D) as [(tr & t1 & n1 & v1 & rest & R & ->)|[[-> | ->] _]].
  2,3: intros [= <- <-]; right; repeat split; try discriminate; reflexivity.
  cbn [pl_ctx pl_node pl_ty pl_val pl_loc]. destruct (is_child_node_read_only (ctx_along access0 tr) n1) eqn:Ero.
  { intros [= <- <-]. right. repeat split; discriminate. }
  destruct (reaches_get _ _ _ _ _ _ _ _ R Ht) as [Hg Ht1]. destruct (root_fits _ _ _ _ _ _ _ Hsch R) as (Hw1 & Hk1 & Hf1).
  destruct t1 as [ |it| | | |t1|te|k t1|t1|ts|e|e|fs]; try (intros [= <- <-]; right; repeat split; discriminate).
  destruct v1 as [b|z|b|b|s'| |v|vs|m|vs]; cbn [typed] in Ht1; try contradiction.
  destruct (deser_typed (conv E) te Hw1 j (default_of te) (default_typed te Hw1)) as [Hc Hns].
  destruct (deser (conv E) te j (default_of te)) as [c [e|]] eqn:Er; cbn [fst snd] in *.
  { intros [= <- <-]. right. split; [reflexivity|]. split; [apply caught_fails|]. intros [Hu _].
    destruct e; cbn; try discriminate; [destruct (user_exn E); cbn; congruence|congruence]. }
  destruct (andthen _ _) as [e|] eqn:Ea.
  { intros [= <- <-]. right. split; [reflexivity|]. split; [apply caught_fails|]. intros [_ Hh].
    assert (Hd : e <> XUB).
    { intros ->. revert Ea. apply andthen_defined; [apply duplicate_defined|now apply candidate_defined]. }
    destruct e; cbn; congruence. }
  assert (Htn : typed (TSeq te) (VSeq (vs ++ [c]))) by (cbn [typed]; apply all1_app; cbn; auto).
  assert (Hpop : pop_back (VSeq (vs ++ [c])) = VSeq vs) by (cbn; now rewrite removelast_last).
  destruct (change_cases t r (map snd tr) (VSeq (vs ++ [c])) pop_back caught (Ok p) p segs true s_created (VSeq vs)
              Hg Hpop eq_refl D) as [[Hv (m & g & Hm & ->)]|(e & He & ->)]; intros [= <- <-].
  - left. exists tr, te, n1, vs, c. split; [|auto]. split; [exact R|]. split; [now apply child_read_only_node|].
    split; [now apply (fits_preserves _ (TSeq te))|]. split; [exact Htn|]. split; [exact Hv|]. exists p, m, g. auto.
  - right. split; [reflexivity|]. split; [apply caught_fails|]. intros [_ Hh].
    pose proof (validate_defined E t Hh NRoot _ (reaches_set_typed _ _ _ _ _ _ _ _ _ R Ht Htn) (proj2 Hsch) I) as Hd.
    unfold validate_tree in He. rewrite He in Hd. destruct e; cbn; congruence.
Qed.

Lemma reset_cases t r p segs r' a : schema t -> typed t (value r) -> denotes p segs ->
  reset_optional E t r p = (r', a) ->
  (exists tr te n1 v1, replaced t r segs (is_reflectable te) tr (TOpt te) n1 v1 VNone r' /\ a = Answer s_no_content []) \/
  (r' = r /\ success a = false /\ (sound_env E -> a <> Escapes XUB)).
Proof.
  intros Hsch Ht D. unfold reset_optional.
  destruct (visit_path t (value r) p segs Ht D) as [(tr & t1 & n1 & v1 & rest & R & ->)|[[-> | ->] _]].
  2,3: intros [= <- <-]; right; repeat split; try discriminate; reflexivity.
  cbn [pl_ctx pl_node pl_ty pl_val pl_loc]. destruct (is_node_read_only (ctx_along access0 tr) n1) eqn:Ero.
  { intros [= <- <-]. right. repeat split; discriminate. }
  destruct (reaches_get _ _ _ _ _ _ _ _ R Ht) as [Hg Ht1]. destruct (root_fits _ _ _ _ _ _ _ Hsch R) as (Hw1 & Hk1 & Hf1).
  destruct t1 as [ |it| | | |te|te|k te|t1|ts|e|e|fs]; try (intros [= <- <-]; right; repeat split; discriminate).
  destruct (andthen _ _) as [e|] eqn:Ea.
  { intros [= <- <-]. right. split; [reflexivity|]. split; [apply caught_del_fails|]. intros [_ Hh].
    assert (Hd : e <> XUB).
    { intros ->. revert Ea. apply andthen_defined; [destruct v1; try discriminate; now apply candidate_defined|].
      now apply (candidate_defined E (TOpt te)). }
    destruct e; cbn; congruence. }
  destruct (change_cases t r (map snd tr) VNone (fun _ => v1) caught_del (Ok p) p segs (is_reflectable te) s_no_content v1
              Hg eq_refl eq_refl D) as [[Hv (m & g & Hm & ->)]|(e & He & ->)]; intros [= <- <-].
  - left. exists tr, te, n1, v1. split; [|auto]. split; [exact R|]. split; [exact Ero|].
    split; [now apply (fits_preserves _ (TOpt te))|]. split; [exact I|]. split; [exact Hv|]. exists p, m, g. auto.
  - right. split; [reflexivity|]. split; [apply caught_del_fails|]. intros [_ Hh].
    assert (Htn : typed (TOpt te) VNone) by exact I.
    pose proof (validate_defined E t Hh NRoot _ (reaches_set_typed _ _ _ _ _ _ _ _ _ R Ht Htn) (proj2 Hsch) I) as Hd.
    unfold validate_tree in He. rewrite He in Hd. destruct e; cbn; congruence.
Qed.

(** [v2] is the collection [v1] of type [t1] without the child that the segment
    [s] names at the node [n1]. *)
Definition child_removed (t1 : ty) (n1 : nkind) (v1 : val) (s : str) (v2 : val) : Prop :=
  (exists te m v, t1 = TMap te /\ v1 = VMap m /\ In (s, v) m /\ v2 = VMap (map_erase s m)) \/
  (exists te vs i v n2, t1 = TSeq te /\ v1 = VSeq vs /\ nth_error vs i = Some v /\
     reaches t1 n1 v1 [s] [(n1, SIndex i)] te n2 v /\ v2 = VSeq (remove_nth i vs)).

Lemma all1_remove (P : val -> Prop) i l : all1 P l -> all1 P (remove_nth i l).
Proof. revert i. induction l as [|x l IH]; intros [|i]; cbn; tauto || (intros [H1 H2]; auto). Qed.

Lemma erase_sorted k m : sorted_keys m -> sorted_keys (map_erase k m).
Proof.
  induction m as [|[k' v] m IH]; cbn; [tauto|]. intros [H1 H2]. destruct (negb _); cbn; auto.
  split; [|auto]. intros k2 Hk. apply H1. unfold map_erase in Hk.
  apply in_map_iff in Hk. destruct Hk as ([k3 w] & <- & Hin). apply filter_In in Hin. exact (in_map fst _ _ (proj1 Hin)).
Qed.

Lemma erase_all (P : val -> Prop) k m : all1 (fun kv : str * val => P (snd kv)) m -> all1 (fun kv => P (snd kv)) (map_erase k m).
Proof. rewrite !all1_Forall. apply (incl_Forall (incl_filter _ m)). Qed.

Lemma child_removed_typed t1 n1 v1 s v2 : typed t1 v1 -> child_removed t1 n1 v1 s v2 -> typed t1 v2.
Proof.
  intros Ht [(te & m & v & -> & -> & Hin & ->)|(te & vs & i & v & n2 & -> & -> & Hv & R & ->)]; cbn [typed] in *.
  - destruct Ht. split; [now apply erase_sorted|now apply (erase_all (typed te))].
  - now apply all1_remove.
Qed.

(** The optional the path refers to was reset. *)
Definition optional_reset t r segs r' : Prop :=
  exists tr te n1 v1, replaced t r segs (is_reflectable te) tr (TOpt te) n1 v1 VNone r'.

(** The child the path refers to was removed from its collection. *)
Definition child_deleted t r segs r' : Prop :=
  exists pre s tr t1 n1 v1 v2, segs = pre ++ [s] /\ replaced t r pre true tr t1 n1 v1 v2 r' /\
    is_child_node_read_only (ctx_along access0 tr) n1 = false /\ child_removed t1 n1 v1 s v2.

Lemma erase_cases t r p pre s tr t1 n1 v1 v2 r' a : schema t -> typed t (value r) -> denotes p (pre ++ [s]) ->
  reaches t NRoot (value r) pre tr t1 n1 v1 -> is_child_node_read_only (ctx_along access0 tr) n1 = false ->
  child_removed t1 n1 v1 s v2 -> erase E t r p (map snd tr) v1 v2 = (r', a) ->
  (child_deleted t r (pre ++ [s]) r' /\ a = Answer s_no_content []) \/
  (r' = r /\ success a = false /\ (sound_env E -> a <> Escapes XUB)).
Proof.
  intros Hsch Ht D R Hro Hc. unfold erase. destruct (denotes_drop_back _ _ _ D) as (p' & Hp & D').
  destruct (reaches_get _ _ _ _ _ _ _ _ R Ht) as [Hg Ht1]. destruct (root_fits _ _ _ _ _ _ _ Hsch R) as (Hw1 & Hk1 & Hf1).
  pose proof (child_removed_typed _ _ _ _ _ Ht1 Hc) as Ht2.
  destruct (change_cases t r (map snd tr) v2 (fun _ => v1) caught_del (drop_back p) p' pre true s_no_content v1
              Hg eq_refl Hp D') as [[Hv (m & g & Hm & ->)]|(e & He & ->)]; intros [= <- <-].
  - left. split; [|reflexivity]. exists pre, s, tr, t1, n1, v1, v2. split; [reflexivity|]. split; [|auto].
    split; [exact R|]. split; [now apply child_read_only_node|].
    split; [apply (fits_preserves _ t1); [exact Hf1|]|].
    { destruct Hc as [(te & m0 & v & -> & _)|(te & vs & i & v & n2 & -> & _)]; exact I. }
    split; [exact Ht2|]. split; [exact Hv|]. exists p', m, g. auto.
  - right. split; [reflexivity|]. split; [apply caught_del_fails|]. intros [_ Hh].
    pose proof (validate_defined E t Hh NRoot _ (reaches_set_typed _ _ _ _ _ _ _ _ _ R Ht Ht2) (proj2 Hsch) I) as Hd.
    unfold validate_tree in He. rewrite He in Hd. destruct e; cbn; congruence.
Qed.

Lemma del_cases t r p segs r' a : schema t -> typed t (value r) -> denotes p segs ->
  del E t r p = (r', a) ->
  (a = Answer s_no_content [] /\ (optional_reset t r segs r' \/ child_deleted t r segs r')) \/
  (r' = r /\ success a = false /\ (sound_env E -> a <> Escapes XUB)).
Proof.
  intros Hsch Ht D. unfold del.
  assert (Reset : reset_optional E t r p = (r', a) ->
    (a = Answer s_no_content [] /\ (optional_reset t r segs r' \/ child_deleted t r segs r')) \/
    (r' = r /\ success a = false /\ (sound_env E -> a <> Escapes XUB))).
  { intros H. destruct (reset_cases t r p segs r' a Hsch Ht D H) as [(tr & te & n1 & v1 & Hr & Ha)|H']; [|now right].
    left. split; [exact Ha|]. left. exists tr, te, n1, v1. exact Hr. }
  unfold view_empty. rewrite (denotes_size _ _ D). destruct (length segs =? 0) eqn:El; [exact Reset|].
  apply Nat.eqb_neq in El. assert (Hne : segs <> []) by (intros ->; now apply El).
  destruct (exists_last Hne) as (pre & s & Epre). subst segs. clear Hne El.
  destruct (visit_parent t (value r) p pre s Ht D) as [(tr & t1 & n1 & v1 & rest & R & Hfr & ->)|[[-> | ->] _]].
  2,3: intros [= <- <-]; right; repeat split; try discriminate; reflexivity.
  destruct (reaches_get _ _ _ _ _ _ _ _ R Ht) as [Hg Ht1].
  unfold delete_direct_child. cbn [pl_ctx pl_node pl_ty pl_val pl_loc pl_rest]. rewrite Hfr.
  assert (Nf : forall e, (r, caught_del e) = (r', a) -> e <> XUB ->
    r' = r /\ success a = false /\ (sound_env E -> a <> Escapes XUB)).
  { intros e [= <- <-] Hx. split; [reflexivity|]. split; [apply caught_del_fails|]. intros _. destruct e; cbn; congruence. }
  assert (Na : (r, Answer s_method_not_allowed []) = (r', a) ->
    r' = r /\ success a = false /\ (sound_env E -> a <> Escapes XUB)).
  { intros [= <- <-]. repeat split; discriminate. }
  assert (Er : forall v2, is_child_node_read_only (ctx_along access0 tr) n1 = false -> child_removed t1 n1 v1 s v2 ->
    erase E t r p (map snd tr) v1 v2 = (r', a) ->
    (a = Answer s_no_content [] /\ (optional_reset t r (pre ++ [s]) r' \/ child_deleted t r (pre ++ [s]) r')) \/
    (r' = r /\ success a = false /\ (sound_env E -> a <> Escapes XUB))).
  { intros v2 Hro Hc H. destruct (erase_cases t r p pre s tr t1 n1 v1 v2 r' a Hsch Ht D R Hro Hc H) as [[H1 H2]|H']; auto. }
  assert (Seq : forall vs te, elements t1 te -> v1 = VSeq vs ->
    match
      (let deletable := match t1 with TSeq _ => true | _ => false end in
       match node_child_keys n1 with
       | [] => match TextModel.parse_index s with
               | None => Some (r, caught_del XNotFound)
               | Some i =>
                   if is_child_node_read_only (ctx_along access0 tr) n1 then Some (r, Answer s_method_not_allowed [])
                   else if deletable then
                     match nth_error vs (N.to_nat i) with
                     | None => Some (r, caught_del XNotFound)
                     | Some _ => Some (erase E t r p (map snd tr) (VSeq vs) (VSeq (remove_nth (N.to_nat i) vs)))
                     end
                   else Some (r, Answer s_method_not_allowed [])
               end
       | cks => match find_keyed cks vs s with
                | None => Some (r, caught_del XNotFound)
                | Some (_, i) =>
                    if is_child_node_read_only (ctx_along access0 tr) n1 then Some (r, Answer s_method_not_allowed [])
                    else if deletable then Some (erase E t r p (map snd tr) (VSeq vs) (VSeq (remove_nth i vs)))
                    else Some (r, Answer s_method_not_allowed [])
                end
       end)
    with Some res => res | None => reset_optional E t r p end = (r', a) ->
    (a = Answer s_no_content [] /\ (optional_reset t r (pre ++ [s]) r' \/ child_deleted t r (pre ++ [s]) r')) \/
    (r' = r /\ success a = false /\ (sound_env E -> a <> Escapes XUB))).
  { intros vs te He ->. cbv zeta. destruct (node_child_keys n1) as [|ck0 cks] eqn:Ek.
    - destruct (TextModel.parse_index s) as [i|] eqn:Ei; [|intros H; right; apply (Nf _ H); discriminate].
      destruct (is_child_node_read_only (ctx_along access0 tr) n1) eqn:Ero; [intros H; right; exact (Na H)|].
      destruct He as [-> | [k ->]]; [|intros H; right; exact (Na H)].
      destruct (nth_error vs (N.to_nat i)) as [v|] eqn:Ev; [|intros H; right; apply (Nf _ H); discriminate].
      apply Er; [reflexivity|]. right. exists te, vs, (N.to_nat i), v, (NElem None). repeat split; auto.
      eapply reach_index; [now left|exact Ek| |exact Ev|constructor]. apply index_name_parse. now rewrite N2Nat.id.
    - rewrite <- Ek. destruct (find_keyed (node_child_keys n1) vs s) as [[ck i]|] eqn:Ef; [|intros H; right; apply (Nf _ H); discriminate].
      destruct (is_child_node_read_only (ctx_along access0 tr) n1) eqn:Ero; [intros H; right; exact (Na H)|].
      destruct He as [-> | [k ->]]; [|intros H; right; exact (Na H)].
      pose proof (find_keyed_some _ _ _ _ _ Ef) as K. destruct K as (b & a' & Ec & (e & Hi & Hm) & K2 & K3).
      apply Er; [reflexivity|]. right. exists te, vs, i, e, (NElem (Some (ck_member ck))). repeat split; auto.
      eapply reach_keyed; [now left|exact (find_keyed_some _ _ _ _ _ Ef)|exact Hi|constructor]. }
  destruct t1 as [ |it| | | |te|te|k te|te|ts|e|e|fs]; destruct v1 as [b|z|b|b|s'| |v|vs|m|vs]; cbn [typed] in Ht1; try contradiction;
    try exact Reset.
  - exact (Seq vs te (or_introl eq_refl) eq_refl).
  - exact (Seq vs te (or_intror (ex_intro _ k eq_refl)) eq_refl).
  - destruct (map_find s m) as [v|] eqn:Ef; [|intros H; right; apply (Nf _ H); discriminate].
    destruct (is_child_node_read_only (ctx_along access0 tr) n1) eqn:Ero; [intros H; right; exact (Na H)|].
    apply Er; [reflexivity|]. left. exists te, m, v. repeat split; auto. now apply map_find_in.
Qed.

End WithEnv.
