(** The operations compute the answers specified. *)
From Coq Require Import List NArith ZArith Arith Bool Lia.
From Verif Require Import Base PathModel PathSpec PathProofs TrackerModel TrackerSpec EnumModel EnumProofs
  SerialModel SerialSpec SerialBaseProofs SerialTypeProofs SerialDumpProofs SerialDocSpec SerialDocProofs SerialReadProofs
  ResourceModel ResourceSpec ResourceBaseProofs ResourcePathProofs ResourceOpProofs ResourceCaseProofs ResourceFrameProofs
  ResourceMainProofs ResourceAnswerSpec.
From Verif Require TrackerProofs TextModel TextSpec TextProofs.
Import ListNotations.

Local Notation str := (list N) (only parsing).

(* ------------------------------------------------------------------ *)
(** ** Replacing a part *)

Lemma nth_error_len {A} (pre : list A) y post : nth_error (pre ++ y :: post) (length pre) = Some y.
Proof. rewrite nth_error_app2, Nat.sub_diag by lia. reflexivity. Qed.

Lemma set_nth_len pre y z post : set_nth (length pre) z (pre ++ y :: post) = pre ++ z :: post.
Proof. induction pre as [|x pre IH]; cbn; [reflexivity|now rewrite IH]. Qed.

Lemma map_find_len k (y : val) pre post : ~ In k (map fst pre) -> map_find k (pre ++ (k, y) :: post) = Some y.
Proof.
  induction pre as [|[k' z] pre IH]; cbn; intros H; [now rewrite str_eqb_refl|].
  rewrite (proj2 (str_eqb_false k' k)) by tauto. apply IH. tauto.
Qed.

Lemma map_assign_len k (y z : val) pre post : ~ In k (map fst pre) ->
  map_assign k z (pre ++ (k, y) :: post) = pre ++ (k, z) :: post.
Proof.
  induction pre as [|[k' w] pre IH]; cbn; intros H; [now rewrite str_eqb_refl|].
  rewrite (proj2 (str_eqb_false k' k)) by tauto. rewrite IH by tauto. reflexivity.
Qed.

Lemma map_find_split k m (y : val) : map_find k m = Some y ->
  exists pre post, m = pre ++ (k, y) :: post /\ ~ In k (map fst pre).
Proof.
  induction m as [|[k' z] m IH]; cbn; [discriminate|]. destruct (str_eqb k' k) eqn:E.
  - intros [= ->]. apply str_eqb_true in E. subst k'. exists [], m. auto.
  - intros H. destruct (IH H) as (pre & post & -> & Hn). exists ((k', z) :: pre), post. split; [reflexivity|].
    cbn. intros [-> |Hi]; [rewrite str_eqb_refl in E; discriminate|auto].
Qed.

Lemma updated_set v loc x v' : updated v loc x v' -> v' = set_at v loc x.
Proof.
  induction 1 as [v x|pre y post loc x y' H IH|y loc x y' H IH|pre y post loc x y' H IH|pre k y post loc x y' Hn H IH]; cbn.
  - reflexivity.
  - now rewrite nth_error_len, set_nth_len, <- IH.
  - now rewrite <- IH.
  - now rewrite nth_error_len, set_nth_len, <- IH.
  - now rewrite map_find_len, map_assign_len, <- IH.
Qed.

Lemma set_updated v loc x old : get_at v loc = Some old -> updated v loc x (set_at v loc x).
Proof.
  revert v. induction loc as [|s loc IH]; intros v; cbn; [constructor|].
  destruct s as [i| |i|k], v; cbn; try discriminate.
  - destruct (nth_error vs i) as [y|] eqn:E; [|discriminate]. intros H.
    apply nth_error_split in E. destruct E as (pre & post & -> & <-). rewrite set_nth_len. constructor. auto.
  - intros H. constructor. auto.
  - destruct (nth_error vs i) as [y|] eqn:E; [|discriminate]. intros H.
    apply nth_error_split in E. destruct E as (pre & post & -> & <-). rewrite set_nth_len. constructor. auto.
  - destruct (map_find k kvs) as [y|] eqn:E; [|discriminate]. intros H.
    destruct (map_find_split _ _ _ E) as (pre & post & -> & Hn). rewrite map_assign_len by assumption. constructor; auto.
Qed.

(* ------------------------------------------------------------------ *)
(** ** Protection *)

Lemma locked_true tr n : is_node_read_only (ctx_along access0 tr) n = true <-> locked tr n.
Proof.
  unfold is_node_read_only, locked. destruct (ctx_along_flags access0 tr) as [-> ->].
  cbn [subtree_read_only ctx_node_read_only access0 orb]. rewrite !orb_true_iff, !existsb_exists. split.
  - intros [[H|([m s] & Hin & H)]|([m s] & Hin & H)].
    + left. destruct n as [|a|k]; try discriminate. eauto.
    + right; left. destruct m as [|a|k]; try discriminate. eauto.
    + right; right. unfold immutable_step in H. cbn [fst snd] in H. destruct s as [i| |i|k]; try discriminate.
      destruct m as [|a|[k|]]; try discriminate. cbn in H. apply Nat.eqb_eq in H. subst i. eauto.
  - intros [(a & -> & H)|[(a & s & Hin & H)|(k & Hin)]].
    + left; left. exact H.
    + left; right. eauto.
    + right. eexists. split; [exact Hin|]. cbn. apply Nat.eqb_refl.
Qed.

Lemma locked_false tr n : is_node_read_only (ctx_along access0 tr) n = false <-> ~ locked tr n.
Proof. rewrite <- locked_true. destruct (is_node_read_only _ n); split; congruence. Qed.

Lemma children_locked_true tr n : is_child_node_read_only (ctx_along access0 tr) n = true <-> children_locked tr n.
Proof.
  unfold is_child_node_read_only, children_locked. rewrite orb_true_iff, locked_true.
  enough (node_subtree_attr n = true <-> exists a, n = NField a /\ a_subtree_read_only a = true) by tauto.
  destruct n as [|a|k]; cbn; split; try discriminate; try (intros (b & H & _); discriminate); [eauto|].
  intros (b & [= <-] & H). exact H.
Qed.

Lemma children_locked_false tr n : is_child_node_read_only (ctx_along access0 tr) n = false <-> ~ children_locked tr n.
Proof. rewrite <- children_locked_true. destruct (is_child_node_read_only _ n); split; congruence. Qed.

Lemma identity_true n old new : preserves_identity n old new = true <-> same_identity n old new.
Proof.
  unfold same_identity. destruct n as [|a|[k|]]; cbn; try (split; [intros _ k'; discriminate|reflexivity]).
  rewrite same_key_true. split; [intros H k' [= <-]; exact H|intros H; exact (H k eq_refl)].
Qed.

Lemma identity_false n old new : preserves_identity n old new = false <-> ~ same_identity n old new.
Proof. rewrite <- identity_true. destruct (preserves_identity n old new); split; congruence. Qed.

(* ------------------------------------------------------------------ *)
(** ** Validation *)

Lemma andthen_some a b (e : rexn) : andthen a b = Some e <-> a = Some e \/ (a = None /\ b = Some e).
Proof. destruct a; cbn; split; auto; [intros [H|[H _]]; [exact H|discriminate]|intros [H|[_ H]]; [discriminate|exact H]]. Qed.

Lemma first_exn_app {A} (f : A -> option rexn) l l' : first_exn f (l ++ l') = andthen (first_exn f l) (first_exn f l').
Proof. induction l as [|x l IH]; cbn; [reflexivity|]. rewrite IH. now destruct (f x). Qed.

Lemma first_exn_flat {A B} (f : B -> option rexn) (g : A -> list B) l :
  first_exn f (flat_map g l) = first_exn (fun x => first_exn f (g x)) l.
Proof. induction l as [|x l IH]; cbn; [reflexivity|]. now rewrite first_exn_app, IH. Qed.

Lemma first_exn_ext {A} (f g : A -> option rexn) l : (forall x, In x l -> f x = g x) -> first_exn f l = first_exn g l.
Proof.
  induction l as [|x l IH]; cbn; intros H; [reflexivity|]. rewrite (H x (or_introl eq_refl)), IH; auto.
Qed.

Lemma first_exn_some {A} (f : A -> option rexn) l e : first_exn f l = Some e <->
  exists pre x post, l = pre ++ x :: post /\ (forall y, In y pre -> f y = None) /\ f x = Some e.
Proof.
  induction l as [|x l IH]; cbn [first_exn].
  - split; [discriminate|]. intros (pre & x & post & H & _). destruct pre; discriminate.
  - rewrite andthen_some, IH. split.
    + intros [H|[H (pre & y & post & -> & H1 & H2)]].
      * exists [], x, l. split; [reflexivity|]. split; [intros y []|exact H].
      * exists (x :: pre), y, post. split; [reflexivity|]. split; [|exact H2]. intros z [<-|Hz]; auto.
    + intros ([|z pre] & y & post & [= -> ->] & H1 & H2); [left; exact H2|].
      right. split; [apply H1; now left|]. exists pre, y, post. split; [reflexivity|]. split; [|exact H2].
      intros w Hw. apply H1. now right.
Qed.

Section WithEnv.
Context (E : env).

Definition complaint (x : node) : option rexn :=
  let '(t, n, v) := x in andthen (hook E t v) (validate_unique_child_keys n v).

Lemma fields_flat (g : nkind -> ty -> val -> option rexn) (f : ty -> nkind -> val -> list node) fs : forall vs,
  length fs = length vs ->
  (forall i a t v, nth_error fs i = Some (a, t) -> nth_error vs i = Some v -> g (NField a) t v = first_exn complaint (f t (NField a) v)) ->
  validate_fields g fs vs = first_exn complaint (field_nodes f fs vs).
Proof.
  induction fs as [|[a t] fs IH]; intros [|v vs] Hl H; cbn [validate_fields field_nodes]; try discriminate; [reflexivity|].
  rewrite first_exn_app, (H 0 a t v eq_refl eq_refl), (IH vs); [reflexivity|cbn in Hl; lia|].
  intros i a' t' v' Ha Hv. exact (H (S i) a' t' v' Ha Hv).
Qed.

Lemma andthen_assoc (a b c : option rexn) : andthen a (andthen b c) = andthen (andthen a b) c.
Proof. now destruct a. Qed.

Lemma validate_nodes t : forall n v, typed t v -> validate_node_tree E t n v = first_exn complaint (nodes t n v).
Proof.
  induction t as [ |it| | | |t IH|t IH|k t IH|t IH|ts IH|e|e|fs IH] using ty_ind0; intros n v Ht;
    cbn [validate_node_tree nodes first_exn complaint]; rewrite andthen_assoc; f_equal;
    destruct v as [b|z|b|b|s'| |v|vs|m|vs]; cbn [typed] in Ht; try contradiction; try reflexivity.
  - apply IH, Ht.
  - rewrite first_exn_flat. apply first_exn_ext. intros v Hv. apply IH.
    exact (typed_element (TSeq t) t vs (or_introl eq_refl) Ht v Hv).
  - rewrite first_exn_flat. apply first_exn_ext. intros v Hv. apply IH.
    exact (typed_element (TArr k t) t vs (or_intror (ex_intro _ k eq_refl)) Ht v Hv).
  - rewrite first_exn_flat. apply first_exn_ext. intros [k v] Hin. apply IH. exact (proj1 (typed_entry t m k v Ht Hin)).
  - rewrite Forall_forall in IH. apply fields_flat; [exact (typed_fields_length _ _ Ht)|].
    intros i a t v Ha Hv. exact (IH (a, t) (nth_error_In _ _ Ha) (NField a) v (typed_nth _ _ _ _ _ _ Ht Ha Hv)).
Qed.

Definition node_fine (x : node) : Prop := let '(t, n, v) := x in typed t v /\ node_ok n t.

Lemma fields_fine (f : ty -> nkind -> val -> list node) x fs : forall vs,
  (forall i a t v, nth_error fs i = Some (a, t) -> nth_error vs i = Some v -> In x (f t (NField a) v) -> node_fine x) ->
  In x (field_nodes f fs vs) -> node_fine x.
Proof.
  induction fs as [|[a t] fs IH]; intros [|v vs] H Hx; cbn [field_nodes] in Hx; try destruct Hx.
  apply in_app_or in Hx. destruct Hx as [Hx|Hx]; [exact (H 0 a t v eq_refl eq_refl Hx)|].
  apply (IH vs); [|exact Hx]. intros i a' t' v' Ha Hv. exact (H (S i) a' t' v' Ha Hv).
Qed.

Lemma nodes_fine t : forall n v, typed t v -> every_field keys_ok t -> node_ok n t ->
  forall x, In x (nodes t n v) -> node_fine x.
Proof.
  induction t as [ |it| | | |t IH|t IH|k t IH|t IH|ts IH|e|e|fs IH] using ty_ind0; intros n v Ht Hk Hn x;
    (intros [<-|Hx]; [split; assumption|]);
    destruct v as [b|z|b|b|s'| |v|vs|m|vs]; cbn [typed] in Ht; try contradiction; try destruct Hx.
  - exact (IH (NElem None) v Ht Hk I x Hx).
  - apply in_flat_map in Hx. destruct Hx as (v & Hv & Hx).
    exact (IH (NElem None) v (typed_element (TSeq t) t vs (or_introl eq_refl) Ht v Hv) Hk I x Hx).
  - apply in_flat_map in Hx. destruct Hx as (v & Hv & Hx).
    exact (IH (NElem None) v (typed_element (TArr k t) t vs (or_intror (ex_intro _ k eq_refl)) Ht v Hv) Hk I x Hx).
  - apply in_flat_map in Hx. destruct Hx as ([k v] & Hv & Hx).
    exact (IH (NElem None) v (proj1 (typed_entry t m k v Ht Hv)) Hk I x Hx).
  - rewrite Forall_forall in IH. revert Hx. apply fields_fine. intros i a t v Ha Hv.
    destruct (every_field_in _ _ _ _ _ Hk Ha) as [K1 K2].
    exact (IH (a, t) (nth_error_In _ _ Ha) (NField a) v (typed_nth _ _ _ _ _ _ Ht Ha Hv) K2 K1 x).
Qed.

Lemma unique_keys_some n t v e : node_ok n t -> typed t v ->
  (validate_unique_child_keys n v = Some e <->
   e = XDuplicate /\ exists ck vs, In ck (node_child_keys n) /\ v = VSeq vs /\ ~ distinct_keys (ck_member ck) vs).
Proof.
  intros Hn Ht. unfold validate_unique_child_keys. destruct (node_child_keys n) as [|ck0 cks] eqn:Ek.
  - split; [discriminate|]. intros (_ & ck & vs & [] & _).
  - destruct (keyed_seq n t v Hn Ht) as [vs ->]; [congruence|]. rewrite first_exn_some. split.
    + intros (pre & ck & post & Hl & _ & H). destruct (duplicate_keys (ck_member ck) vs) eqn:Ed; [|discriminate].
      injection H as <-. split; [reflexivity|]. exists ck, vs. split; [rewrite Hl; apply in_or_app; right; now left|].
      split; [reflexivity|]. rewrite <- duplicate_keys_false. congruence.
    + intros (-> & ck & vs' & Hin & [= <-] & Hd). rewrite <- duplicate_keys_false in Hd.
      revert Hin. generalize (ck0 :: cks). intros l. induction l as [|c l IH]; [intros []|]. intros [-> |Hin].
      * exists [], ck, l. split; [reflexivity|]. split; [intros y []|]. destruct (duplicate_keys (ck_member ck) vs); congruence.
      * destruct (duplicate_keys (ck_member c) vs) eqn:Ec.
        { exists [], c, l. split; [reflexivity|]. split; [intros y []|]. now rewrite Ec. }
        destruct (IH Hin) as (pre & x & post & -> & H1 & H2). exists (c :: pre), x, post. split; [reflexivity|].
        split; [|exact H2]. intros y [<-|Hy]; [now rewrite Ec|auto].
Qed.

Lemma complaint_some x e : node_fine x -> (complaint x = Some e <-> complains E x e).
Proof.
  destruct x as [[t n] v]. intros [Ht Hn]. cbn [complaint complains].
  rewrite andthen_some, (unique_keys_some n t v e Hn Ht). tauto.
Qed.

Lemma objection_true t v e : schema t -> typed t v -> (validate_tree E t v = Some e <-> objection E t v e).
Proof.
  intros [_ Hk] Ht. unfold validate_tree, objection. rewrite (validate_nodes t NRoot v Ht), first_exn_some.
  assert (F : forall x, In x (nodes t NRoot v) -> node_fine x) by exact (nodes_fine t NRoot v Ht Hk I).
  split; intros (pre & x & post & Hl & H1 & H2); exists pre, x, post; (split; [exact Hl|]).
  - split.
    + intros y e' Hy Hc. apply complaint_some in Hc; [|apply F; rewrite Hl; apply in_or_app; now left].
      rewrite (H1 y Hy) in Hc. discriminate.
    + apply complaint_some; [apply F; rewrite Hl; apply in_or_app; right; now left|exact H2].
  - split.
    + intros y Hy. destruct (complaint y) as [e'|] eqn:Ec; [|reflexivity]. exfalso. apply (H1 y e' Hy).
      apply complaint_some; [apply F; rewrite Hl; apply in_or_app; now left|exact Ec].
    + apply complaint_some; [apply F; rewrite Hl; apply in_or_app; right; now left|exact H2].
Qed.

Lemma vetoed_true t : forall v e, validate_candidate E t v = Some e <-> vetoed E t v e.
Proof.
  assert (Leaf : forall u v e, (forall t' v', u = TOpt t' -> v <> VSome v') ->
    (andthen (hook E u v) None = Some e <-> vetoed E u v e)).
  { clear t. intros u v e H. rewrite andthen_some. split.
    - intros [H'|[_ H']]; [now constructor|discriminate].
    - intros V. inversion V; subst; [now left|]. now elim (H t v0). }
  induction t as [ |it| | | |t IH|t IH|k t IH|t IH|ts IH|e0|e0|fs IH] using ty_ind0; intros v e; cbn [validate_candidate];
    try (apply Leaf; discriminate).
  destruct v as [b|z|b|b|s'| |v|vs|m|vs]; try (apply Leaf; discriminate).
  rewrite andthen_some, IH. split.
  - intros [H|[H1 H2]]; [now apply veto_here|now apply veto_inside].
  - intros V. inversion V; subst; auto.
Qed.

Lemma unvetoed_true t v : validate_candidate E t v = None <-> unvetoed E t v.
Proof.
  unfold unvetoed. split.
  - intros H e V. apply vetoed_true in V. congruence.
  - intros H. destruct (validate_candidate E t v) as [e|] eqn:Ec; [|reflexivity]. elim (H e). now apply vetoed_true.
Qed.

Lemma taken_true n vs c : existsb (fun ck => existsb (fun e => same_key (ck_member ck) e c) vs) (node_child_keys n) = true <-> taken n vs c.
Proof.
  unfold taken. rewrite existsb_exists. split.
  - intros (ck & Hc & H). apply existsb_exists in H. destruct H as (x & Hx & H). apply same_key_true in H.
    destruct H as (k & H1 & H2). exists ck, x, k. auto.
  - intros (ck & x & k & Hc & Hx & H1 & H2). exists ck. split; [exact Hc|]. apply existsb_exists. exists x.
    split; [exact Hx|]. apply same_key_true. eauto.
Qed.

Lemma check_duplicate_bool n vs c : check_duplicate_child_key n vs c =
  if existsb (fun ck => existsb (fun e => same_key (ck_member ck) e c) vs) (node_child_keys n) then Some XDuplicate else None.
Proof.
  unfold check_duplicate_child_key. induction (node_child_keys n) as [|ck l IH]; cbn [first_exn existsb]; [reflexivity|].
  rewrite IH. now destruct (existsb _ vs).
Qed.

Lemma check_taken n vs c : taken n vs c -> check_duplicate_child_key n vs c = Some XDuplicate.
Proof. intros H. apply taken_true in H. now rewrite check_duplicate_bool, H. Qed.

Lemma check_untaken n vs c : ~ taken n vs c -> check_duplicate_child_key n vs c = None.
Proof. intros H. rewrite <- taken_true in H. rewrite check_duplicate_bool. destruct (existsb _ _); congruence. Qed.

Lemma taken_dec n vs c : taken n vs c \/ ~ taken n vs c.
Proof. rewrite <- taken_true. destruct (existsb _ _); auto. Qed.

(* ------------------------------------------------------------------ *)
(** ** Committing *)

(** The operation's result is the one specified. *)
Definition did (r : resource) (res : result) (out : resource * answer) : Prop :=
  match res with
  | Refused a => out = (r, a)
  | Done s v w whole =>
      exists p m g, denotes p w /\ notify_changed (modifications r) p whole = Ok (m, g) /\ out = (mkresource v m, Answer s [])
  end.

Lemma response_caught e : response false e = Refused (caught e).
Proof. now destruct e. Qed.
Lemma response_caught_del e : response true e = Refused (caught_del e).
Proof. now destruct e. Qed.

Lemma thrown_rexn e : thrown E e = rexn_of E e.
Proof. now destruct e. Qed.

Lemma commit_computes t r loc new back h w p l whole s old deleting res :
  schema t -> get_at (value r) loc = Some old -> back new = old -> w = Ok p -> denotes p l ->
  typed t (set_at (value r) loc new) -> (forall e, response deleting e = Refused (h e)) ->
  committed E t (value r) loc new deleting s l whole res -> did r res (change E t r loc new back h w whole s).
Proof.
  intros Hsch Hg Hb Hw D Ht' Hr C.
  destruct (change_cases E t r loc new back h w p l whole s old Hg Hb Hw D) as [[Hv (m & g & Hm & ->)]|(e' & Hv & ->)];
    destruct C as [v' e U O|v' U V]; apply updated_set in U; subst v'.
  - apply objection_true in O; auto. congruence.
  - cbn [did]. exists p, m, g. auto.
  - apply objection_true in O; auto. rewrite Hv in O. injection O as <-. now rewrite Hr.
  - apply validate_tree_none in V; auto. congruence.
Qed.

Lemma commit_total t r loc new whole s l old deleting : schema t -> get_at (value r) loc = Some old ->
  typed t (set_at (value r) loc new) -> exists res, committed E t (value r) loc new deleting s l whole res.
Proof.
  intros Hsch Hg Ht'. pose proof (set_updated _ _ new _ Hg) as U.
  destruct (validate_tree E t (set_at (value r) loc new)) as [e|] eqn:Ev.
  - exists (response deleting e). apply (commit_refused _ _ _ _ _ _ _ _ _ _ e U). now apply objection_true.
  - exists (Done s (set_at (value r) loc new) l whole). apply (commit_done _ _ _ _ _ _ _ _ _ _ U). now apply validate_tree_none.
Qed.

Lemma visit_reached t v p segs tr t1 n1 v1 : typed t v -> denotes p segs -> reaches t NRoot v segs tr t1 n1 v1 ->
  exists rest, visit_at_path t v p 0 = Visit (mkplace (map snd tr) t1 n1 v1 rest (ctx_along access0 tr)).
Proof.
  intros Ht D R. destruct (visit_path t v p segs Ht D) as [(tr' & t' & n' & v' & rest & R' & ->)|[_ H]].
  - destruct (reaches_fun _ _ _ _ _ _ _ _ R Ht _ _ _ _ R') as (-> & -> & -> & ->). eauto.
  - elim (H _ _ _ _ R).
Qed.

Lemma visit_nowhere t v p segs : typed t v -> denotes p segs -> nowhere t v segs ->
  visit_at_path t v p 0 = Fail XNotFound \/ visit_at_path t v p 0 = Fail XNotTraversable.
Proof.
  intros Ht D N. destruct (visit_path t v p segs Ht D) as [(tr' & t' & n' & v' & rest & R' & _)|[H _]]; [|exact H].
  elim N. exists (map snd tr'), t', v', tr', n'. auto.
Qed.

Lemma resolves_dec t v p segs : typed t v -> denotes p segs ->
  (exists tr t1 n1 v1, reaches t NRoot v segs tr t1 n1 v1) \/ nowhere t v segs.
Proof.
  intros Ht D. destruct (reaches_dec t v p segs Ht D) as [H|H]; [now left|right].
  intros (loc & t' & v' & tr & n' & R & _). exact (H _ _ _ _ R).
Qed.

(* ------------------------------------------------------------------ *)
(** ** GET *)

Lemma got_computes skip t r p segs a : schema t -> typed t (value r) -> denotes p segs ->
  got E skip t (value r) segs a -> get E skip t r p = a.
Proof.
  intros Hsch Ht D G. destruct G as [N|loc t1 v1 j (tr & n1 & R & _) Hd|loc t1 v1 (tr & n1 & R & _) Hd].
  - apply (get_unreached E skip t r p segs Ht D). intros tr t1 n1 v1 R. apply N. exists (map snd tr), t1, v1, tr, n1. auto.
  - rewrite (get_reached E skip t r p segs tr t1 n1 v1 Ht D R).
    destruct (reaches_get _ _ _ _ _ _ _ _ R Ht) as [_ Ht1]. destruct (root_fits _ _ _ _ _ _ _ Hsch R) as (Hw1 & _ & _).
    apply (proj1 (document_lemma (conv E) skip t1 v1 Hw1 Ht1)) in Hd. now rewrite Hd.
  - rewrite (get_reached E skip t r p segs tr t1 n1 v1 Ht D R).
    destruct (reaches_get _ _ _ _ _ _ _ _ R Ht) as [_ Ht1]. destruct (root_fits _ _ _ _ _ _ _ Hsch R) as (Hw1 & _ & _).
    apply (proj2 (document_lemma (conv E) skip t1 v1 Hw1 Ht1)) in Hd. now rewrite Hd.
Qed.

Lemma got_total skip t v p segs : schema t -> typed t v -> denotes p segs -> exists a, got E skip t v segs a.
Proof.
  intros Hsch Ht D. destruct (resolves_dec t v p segs Ht D) as [(tr & t1 & n1 & v1 & R)|N].
  - destruct (reaches_get _ _ _ _ _ _ _ _ R Ht) as [_ Ht1]. destruct (root_fits _ _ _ _ _ _ _ Hsch R) as (Hw1 & _ & _).
    assert (Rf : refers t v segs (map snd tr) t1 v1) by (exists tr, n1; auto).
    destruct (document_lemma (conv E) skip t1 v1 Hw1 Ht1) as [H1 H2].
    pose proof (proj1 (ser_defined (conv E) skip t1 Hw1 None v1 Ht1)) as Hd.
    unfold serialize in H1, H2. destruct (ser (conv E) skip t1 None v1) as [j| |].
    + exists (Answer s_ok (accept j)). apply (got_document _ _ _ _ _ _ _ _ _ Rf). now apply H1.
    + exists (Escapes XOther). apply (got_unwritable _ _ _ _ _ _ _ _ Rf). now apply H2.
    + congruence.
  - exists (Answer s_not_found []). now constructor.
Qed.

(* ------------------------------------------------------------------ *)
(** ** PUT and PATCH *)

Definition reader_exact (read : ty -> json -> val -> dres) (R : ty -> json -> val -> val -> option exn -> Prop) : Prop :=
  forall t j w v e, wf t -> typed t w -> (read t j w = (v, e) <-> R t j w v e).

Lemma whole_bool t whole : (whole = true <-> ~ scalar t) -> whole = has_addressable_descendants t.
Proof.
  intros H. destruct whole, t; cbn in *; try reflexivity; exfalso; try (apply (proj1 H eq_refl); exact I);
    try (assert (false = true) by (apply H; tauto); discriminate).
Qed.

Lemma written_computes read R t r p segs j res : schema t -> typed t (value r) -> denotes p segs ->
  good_read read -> reader_exact read R ->
  written E R t (value r) segs j res -> did r res (put_or_patch E read t r p j).
Proof.
  intros Hsch Ht D Hgood Hx W. unfold put_or_patch. destruct W as [N|tr t1 n1 v1 Re L|tr t1 n1 v1 x e Re L Hr|tr t1 n1 v1 x Re L Hr Hi
    |tr t1 n1 v1 x whole res Re L Hr Hi Hw C].
  { destruct (visit_nowhere t (value r) p segs Ht D N) as [-> | ->]; reflexivity. }
  all: destruct (visit_reached t (value r) p segs tr t1 n1 v1 Ht D Re) as [rest ->]; cbn [pl_ctx pl_node pl_ty pl_val pl_loc];
    destruct (reaches_get _ _ _ _ _ _ _ _ Re Ht) as [Hg Ht1]; destruct (root_fits _ _ _ _ _ _ _ Hsch Re) as (Hw1 & _ & _).
  - apply locked_true in L. rewrite L. reflexivity.
  - apply locked_false in L. rewrite L. apply Hx in Hr; auto. rewrite Hr, response_caught, thrown_rexn. reflexivity.
  - apply locked_false in L. rewrite L. apply Hx in Hr; auto. rewrite Hr. apply identity_false in Hi. rewrite Hi. reflexivity.
  - apply locked_false in L. rewrite L. apply Hx in Hr; auto. rewrite Hr. apply identity_true in Hi. rewrite Hi. cbn [negb].
    apply whole_bool in Hw. subst whole.
    destruct (Hgood t1 Hw1 j v1 Ht1) as [Htx _]. rewrite Hr in Htx. cbn [fst] in Htx.
    refine (commit_computes t r _ _ _ _ _ p segs _ _ v1 false res Hsch Hg eq_refl eq_refl D _ response_caught C).
    exact (reaches_set_typed _ _ _ _ _ _ _ _ x Re Ht Htx).
Qed.

Lemma written_total read R t r p segs j : schema t -> typed t (value r) -> denotes p segs ->
  good_read read -> reader_exact read R -> exists res, written E R t (value r) segs j res.
Proof.
  intros Hsch Ht D Hgood Hx. destruct (resolves_dec t (value r) p segs Ht D) as [(tr & t1 & n1 & v1 & Re)|N].
  2: { eexists. now apply written_nowhere. }
  destruct (reaches_get _ _ _ _ _ _ _ _ Re Ht) as [Hg Ht1]. destruct (root_fits _ _ _ _ _ _ _ Hsch Re) as (Hw1 & _ & _).
  destruct (is_node_read_only (ctx_along access0 tr) n1) eqn:L.
  { apply locked_true in L. eexists. eapply written_locked; eauto. }
  apply locked_false in L. destruct (Hgood t1 Hw1 j v1 Ht1) as [Htx _].
  destruct (read t1 j v1) as [x [e|]] eqn:Er; apply Hx in Er; auto; cbn [fst] in Htx.
  { eexists. eapply written_unreadable; eauto. }
  destruct (preserves_identity n1 v1 x) eqn:Hi.
  2: { apply identity_false in Hi. eexists. eapply written_renamed; eauto. }
  apply identity_true in Hi.
  destruct (commit_total t r (map snd tr) x (has_addressable_descendants t1) s_ok segs v1 false Hsch Hg
              (reaches_set_typed _ _ _ _ _ _ _ _ x Re Ht Htx)) as [res C].
  exists res. eapply written_tried; eauto. destruct t1; cbn; split; intros Hs; try reflexivity; try discriminate; try tauto;
    exfalso; apply Hs; exact I.
Qed.

Lemma deser_exact : reader_exact (deser (conv E)) (reads (conv E)).
Proof. intros t j w v e Hw Ht. exact (proj1 (reading_exact_lemma (conv E) t w j v e Hw Ht)). Qed.
Lemma patch_exact : reader_exact (patch (conv E)) (patched (conv E)).
Proof. intros t j w v e Hw Ht. exact (proj2 (reading_exact_lemma (conv E) t w j v e Hw Ht)). Qed.

(* ------------------------------------------------------------------ *)
(** ** POST *)

Lemma appended_typed te vs c : typed (TSeq te) (VSeq vs) -> typed te c -> typed (TSeq te) (VSeq (vs ++ [c])).
Proof. cbn [typed]. intros H Hc. apply all1_app. cbn. auto. Qed.

Lemma posted_computes t r p segs j res : schema t -> typed t (value r) -> denotes p segs ->
  posted E t (value r) segs j res -> did r res (post E t r p j).
Proof.
  intros Hsch Ht D W. unfold post. destruct W as [N|tr t1 n1 v1 Re L|tr t1 n1 v1 Re Hn|tr te n1 vs c e Re L Hr|tr te n1 vs c Re L Hr T
    |tr te n1 vs c e Re L Hr T V|tr te n1 vs c res Re L Hr T V C].
  { destruct (visit_nowhere t (value r) p segs Ht D N) as [-> | ->]; reflexivity. }
  all: match type of Re with reaches _ _ _ _ _ ?t1 ?n1 ?v1 =>
    destruct (visit_reached t (value r) p segs tr t1 n1 v1 Ht D Re) as [rest ->] end; cbn [pl_ctx pl_node pl_ty pl_val pl_loc];
    destruct (reaches_get _ _ _ _ _ _ _ _ Re Ht) as [Hg Ht1]; destruct (root_fits _ _ _ _ _ _ _ Hsch Re) as (Hw1 & _ & _).
  - apply children_locked_true in L. rewrite L. reflexivity.
  - destruct (is_child_node_read_only _ n1); [reflexivity|]. destruct t1; try reflexivity. now elim (Hn t1).
  - apply children_locked_false in L. rewrite L. apply deser_exact in Hr; [|exact Hw1|now apply default_typed]. rewrite Hr, response_caught, thrown_rexn. reflexivity.
  - apply children_locked_false in L. rewrite L. apply deser_exact in Hr; [|exact Hw1|now apply default_typed]. rewrite Hr, (check_taken _ _ _ T). reflexivity.
  - apply children_locked_false in L. rewrite L. apply deser_exact in Hr; [|exact Hw1|now apply default_typed]. rewrite Hr, (check_untaken _ _ _ T).
    apply vetoed_true in V. cbn [andthen]. rewrite V, response_caught. reflexivity.
  - apply children_locked_false in L. rewrite L. apply deser_exact in Hr; [|exact Hw1|now apply default_typed]. rewrite Hr, (check_untaken _ _ _ T).
    apply unvetoed_true in V. cbn [andthen]. rewrite V.
    destruct (deser_typed (conv E) te Hw1 j (default_of te) (default_typed te Hw1)) as [Hc _]. rewrite Hr in Hc. cbn [fst] in Hc.
    assert (Hpop : pop_back (VSeq (vs ++ [c])) = VSeq vs) by (cbn; now rewrite removelast_last).
    refine (commit_computes t r _ _ _ _ _ p segs _ _ (VSeq vs) false res Hsch Hg Hpop eq_refl D _ response_caught C).
    exact (reaches_set_typed _ _ _ _ _ _ _ _ _ Re Ht (appended_typed te vs c Ht1 Hc)).
Qed.

Lemma posted_total t r p segs j : schema t -> typed t (value r) -> denotes p segs -> exists res, posted E t (value r) segs j res.
Proof.
  intros Hsch Ht D. destruct (resolves_dec t (value r) p segs Ht D) as [(tr & t1 & n1 & v1 & Re)|N].
  2: { eexists. now apply posted_nowhere. }
  destruct (reaches_get _ _ _ _ _ _ _ _ Re Ht) as [Hg Ht1]. destruct (root_fits _ _ _ _ _ _ _ Hsch Re) as (Hw1 & _ & _).
  destruct (is_child_node_read_only (ctx_along access0 tr) n1) eqn:L.
  { apply children_locked_true in L. eexists. eapply posted_locked; eauto. }
  apply children_locked_false in L.
  assert (Hs : (exists te, t1 = TSeq te) \/ forall te, t1 <> TSeq te) by (destruct t1; eauto; right; discriminate).
  destruct Hs as [[te ->]|Hn]; [|eexists; eapply posted_elsewhere; eauto].
  assert (Hv1 : exists vs, v1 = VSeq vs) by (destruct v1; cbn [typed] in Ht1; try contradiction; eauto). destruct Hv1 as [vs ->].
  destruct (deser_typed (conv E) te Hw1 j (default_of te) (default_typed te Hw1)) as [Hc _].
  destruct (deser (conv E) te j (default_of te)) as [c [e|]] eqn:Er;
    (apply deser_exact in Er; [|exact Hw1|now apply default_typed]); cbn [fst] in Hc.
  { eexists. eapply posted_unreadable; eauto. }
  destruct (taken_dec n1 vs c) as [T|T]; [eexists; eapply posted_taken; eauto|].
  destruct (validate_candidate E te c) as [e|] eqn:V.
  { apply vetoed_true in V. eexists. eapply posted_vetoed; eauto. }
  apply unvetoed_true in V.
  destruct (commit_total t r (map snd tr) (VSeq (vs ++ [c])) true s_created segs (VSeq vs) false Hsch Hg
              (reaches_set_typed _ _ _ _ _ _ _ _ _ Re Ht (appended_typed te vs c Ht1 Hc))) as [res C].
  exists res. eapply posted_tried; eauto.
Qed.

(* ------------------------------------------------------------------ *)
(** ** DELETE *)

Lemma visit_parent_reached t v p pre s tr t1 n1 v1 : typed t v -> denotes p (pre ++ [s]) -> reaches t NRoot v pre tr t1 n1 v1 ->
  exists rest, view_front rest = Ok s /\ visit_at_path t v p 1 = Visit (mkplace (map snd tr) t1 n1 v1 rest (ctx_along access0 tr)).
Proof.
  intros Ht D R. destruct (visit_parent t v p pre s Ht D) as [(tr' & t' & n' & v' & rest & R' & Hf & ->)|[_ H]].
  - destruct (reaches_fun _ _ _ _ _ _ _ _ R Ht _ _ _ _ R') as (-> & -> & -> & ->). eauto.
  - elim (H _ _ _ _ R).
Qed.

(** What [del] does when the parent is reached. *)
Lemma del_parent t r p pre s tr t1 n1 v1 : typed t (value r) -> denotes p (pre ++ [s]) ->
  reaches t NRoot (value r) pre tr t1 n1 v1 ->
  exists rest, view_front rest = Ok s /\
    del E t r p = match delete_direct_child E t r p (mkplace (map snd tr) t1 n1 v1 rest (ctx_along access0 tr)) with
                  | Some res => res | None => reset_optional E t r p end.
Proof.
  intros Ht D R. destruct (visit_parent_reached t (value r) p pre s tr t1 n1 v1 Ht D R) as (rest & Hf & Hv).
  exists rest. split; [exact Hf|]. unfold del, view_empty. rewrite (denotes_size _ _ D), app_length, Nat.add_comm. cbn [length Nat.add Nat.eqb].
  now rewrite Hv.
Qed.

Lemma collection_dec t : collection t \/ ~ collection t.
Proof.
  unfold collection, elements. destruct t; try (left; eauto; fail); try (left; right; eauto; fail);
    try (right; intros [[te H]|[te [H|[k H]]]]; discriminate).
Qed.

Lemma not_collection t r p pl : ~ collection (pl_ty pl) -> (exists s, view_front (pl_rest pl) = Ok s) ->
  typed (pl_ty pl) (pl_val pl) -> delete_direct_child E t r p pl = None.
Proof.
  intros Hc [s Hf] _. unfold delete_direct_child. rewrite Hf. cbv zeta. destruct (pl_ty pl) as [ |it| | | |te|te|k te|te|ts|e|e|fs]; try reflexivity.
  - elim Hc. right. exists te. now left.
  - elim Hc. right. exists te. right. eauto.
  - elim Hc. left. eauto.
Qed.

Lemma del_other t r p segs tr t1 n1 v1 : typed t (value r) -> denotes p segs -> ~ child_path t (value r) segs ->
  reaches t NRoot (value r) segs tr t1 n1 v1 -> del E t r p = reset_optional E t r p.
Proof.
  intros Ht D Hc R. destruct segs as [|s0 segs0].
  { unfold del, view_empty. now rewrite (denotes_size _ _ D). }
  assert (Hne : s0 :: segs0 <> []) by discriminate. destruct (exists_last Hne) as (pre & s & Es).
  rewrite Es in *. destruct (reaches_split _ _ _ _ _ _ _ _ _ R) as (tr1 & tr2 & t2 & n2 & v2 & -> & R1 & R2).
  destruct (del_parent t r p pre s tr1 t2 n2 v2 Ht D R1) as (rest & Hf & ->).
  rewrite not_collection; [reflexivity| |cbn; eauto|].
  - cbn [pl_ty]. intros Hcol. apply Hc. exists pre, s, tr1, t2, n2, v2. auto.
  - cbn. exact (proj2 (reaches_get _ _ _ _ _ _ _ _ R1 Ht)).
Qed.

Lemma del_nowhere t r p segs : typed t (value r) -> denotes p segs -> ~ child_path t (value r) segs ->
  nowhere t (value r) segs -> del E t r p = (r, Answer s_not_found []).
Proof.
  intros Ht D Hc N.
  assert (Hreset : reset_optional E t r p = (r, Answer s_not_found [])).
  { unfold reset_optional. destruct (visit_nowhere t (value r) p segs Ht D N) as [-> | ->]; reflexivity. }
  destruct segs as [|s0 segs0].
  { unfold del, view_empty. now rewrite (denotes_size _ _ D). }
  assert (Hne : s0 :: segs0 <> []) by discriminate. destruct (exists_last Hne) as (pre & s & Es). rewrite Es in *.
  destruct (visit_parent t (value r) p pre s Ht D) as [(tr & t1 & n1 & v1 & rest0 & R & _ & _)|[H _]].
  - destruct (del_parent t r p pre s tr t1 n1 v1 Ht D R) as (rest & Hf & ->).
    rewrite not_collection; [exact Hreset| |cbn; eauto|].
    + cbn [pl_ty]. intros Hcol. apply Hc. exists pre, s, tr, t1, n1, v1. auto.
    + cbn. exact (proj2 (reaches_get _ _ _ _ _ _ _ _ R Ht)).
  - unfold del, view_empty. rewrite (denotes_size _ _ D), app_length, Nat.add_comm. cbn [length Nat.add Nat.eqb].
    destruct H as [-> | ->]; reflexivity.
Qed.

Lemma erase_len k (y : val) pre post : ~ In k (map fst pre) -> ~ In k (map fst post) ->
  map_erase k (pre ++ (k, y) :: post) = pre ++ post.
Proof.
  intros H1 H2. unfold map_erase. rewrite filter_app. cbn [filter fst]. rewrite str_eqb_refl. cbn [negb].
  assert (Keep : forall l : list (str * val), ~ In k (map fst l) -> filter (fun kv => negb (str_eqb (fst kv) k)) l = l).
  { clear. induction l as [|[k' v] l IH]; cbn; intros H; [reflexivity|].
    rewrite (proj2 (str_eqb_false k' k)) by tauto. cbn. rewrite IH by tauto. reflexivity. }
  now rewrite !Keep.
Qed.

Lemma remove_len pre y post : remove_nth (length pre) (pre ++ y :: post) = pre ++ post.
Proof. induction pre as [|x pre IH]; cbn; [reflexivity|now rewrite IH]. Qed.

Lemma without_removed t1 n1 v1 s x : typed t1 v1 -> without t1 n1 v1 s x -> child_removed t1 n1 v1 s x.
Proof.
  intros Ht W. destruct W as [te n pre s x post H1 H2|te n pre x post s ck K|te n pre x post s K H].
  - left. exists te, (pre ++ (s, x) :: post), x. repeat split; [apply in_or_app; right; now left|now rewrite erase_len].
  - right. exists te, (pre ++ x :: post), (length pre), x, (NElem (Some (ck_member ck))). repeat split.
    + apply nth_error_len.
    + eapply reach_keyed; [now left|exact K|apply nth_error_len|constructor].
    + now rewrite remove_len.
  - right. exists te, (pre ++ x :: post), (length pre), x, (NElem None). repeat split.
    + apply nth_error_len.
    + eapply reach_index; [now left|exact K|exact H|apply nth_error_len|constructor].
    + now rewrite remove_len.
Qed.

(** The children of a sequence. *)
Definition seq_delete t r path loc n vs (ro deletable : bool) (segment : str) : resource * answer :=
  match node_child_keys n with
  | [] =>
      match TextModel.parse_index segment with
      | None => (r, caught_del XNotFound)
      | Some i =>
          if ro then (r, Answer s_method_not_allowed [])
          else if deletable then
            match nth_error vs (N.to_nat i) with
            | None => (r, caught_del XNotFound)
            | Some _ => erase E t r path loc (VSeq vs) (VSeq (remove_nth (N.to_nat i) vs))
            end
          else (r, Answer s_method_not_allowed [])
      end
  | cks =>
      match find_keyed cks vs segment with
      | None => (r, caught_del XNotFound)
      | Some (_, i) =>
          if ro then (r, Answer s_method_not_allowed [])
          else if deletable then erase E t r path loc (VSeq vs) (VSeq (remove_nth i vs))
          else (r, Answer s_method_not_allowed [])
      end
  end.

Definition map_delete t r path loc m (ro : bool) (segment : str) : resource * answer :=
  match map_find segment m with
  | None => (r, caught_del XNotFound)
  | Some _ => if ro then (r, Answer s_method_not_allowed []) else erase E t r path loc (VMap m) (VMap (map_erase segment m))
  end.

Lemma del_seq t r p pre s tr t1 te n1 vs : typed t (value r) -> denotes p (pre ++ [s]) -> elements t1 te ->
  reaches t NRoot (value r) pre tr t1 n1 (VSeq vs) ->
  del E t r p = seq_delete t r p (map snd tr) n1 vs (is_child_node_read_only (ctx_along access0 tr) n1)
                  (match t1 with TSeq _ => true | _ => false end) s.
Proof.
  intros Ht D He R. destruct (del_parent t r p pre s tr t1 n1 (VSeq vs) Ht D R) as (rest & Hf & ->).
  unfold delete_direct_child, seq_delete. cbn [pl_ctx pl_node pl_ty pl_val pl_loc pl_rest]. rewrite Hf. cbv zeta.
  destruct He as [-> | [k ->]].
  - destruct (node_child_keys n1) as [|ck0 cks].
    + destruct (TextModel.parse_index s) as [i|]; [|reflexivity]. destruct (is_child_node_read_only _ n1); [reflexivity|].
      now destruct (nth_error vs (N.to_nat i)).
    + destruct (find_keyed _ vs s) as [[ck i]|]; [|reflexivity]. now destruct (is_child_node_read_only _ n1).
  - destruct (node_child_keys n1) as [|ck0 cks].
    + destruct (TextModel.parse_index s) as [i|]; [|reflexivity]. now destruct (is_child_node_read_only _ n1).
    + destruct (find_keyed _ vs s) as [[ck i]|]; [|reflexivity]. now destruct (is_child_node_read_only _ n1).
Qed.

Lemma del_map t r p pre s tr te n1 m : typed t (value r) -> denotes p (pre ++ [s]) ->
  reaches t NRoot (value r) pre tr (TMap te) n1 (VMap m) ->
  del E t r p = map_delete t r p (map snd tr) m (is_child_node_read_only (ctx_along access0 tr) n1) s.
Proof.
  intros Ht D R. destruct (del_parent t r p pre s tr (TMap te) n1 (VMap m) Ht D R) as (rest & Hf & ->).
  unfold delete_direct_child, map_delete. cbn [pl_ctx pl_node pl_ty pl_val pl_loc pl_rest]. rewrite Hf. cbv zeta.
  destruct (map_find s m); [|reflexivity]. now destruct (is_child_node_read_only _ n1).
Qed.

Lemma collection_value t1 v1 : collection t1 -> typed t1 v1 ->
  (exists te m, t1 = TMap te /\ v1 = VMap m) \/ (exists te vs, elements t1 te /\ v1 = VSeq vs).
Proof.
  intros [[te ->]|[te He]] Ht.
  - left. destruct v1; cbn [typed] in Ht; try contradiction. eauto.
  - right. exists te. destruct He as [-> | [k ->]]; destruct v1; cbn [typed] in Ht; try contradiction; eexists; split; eauto;
      [now left|right; eauto].
Qed.

Lemma index_found s i : TextModel.parse_index s = Some i -> index_name s (N.to_nat i).
Proof. intros H. apply index_name_parse. now rewrite N2Nat.id. Qed.

Lemma seq_child_name n vs s : child_name n (VSeq vs) s ->
  (node_child_keys n = [] /\ exists i, TextModel.parse_index s = Some i) \/
  (node_child_keys n <> [] /\ exists ck i, find_keyed (node_child_keys n) vs s = Some (ck, i)).
Proof.
  intros [(m & x & [=] & _)|[(vs' & ck & i & [= <-] & K)|(vs' & i & [= <-] & K & Hi)]].
  - right. split; [|exists ck, i; now apply key_name_found]. intros Hn. rewrite Hn in K. exact (key_name_nil _ _ _ _ K).
  - left. split; [exact K|]. apply index_name_parse in Hi. eauto.
Qed.

Lemma deleted_computes t r p segs res : schema t -> typed t (value r) -> denotes p segs ->
  deleted E t (value r) segs res -> did r res (del E t r p).
Proof.
  intros Hsch Ht D W. destruct W as
    [pre s tr t1 n1 v1 -> Re Hc Hn|pre s tr t1 n1 v1 -> Re Hc Hn L|pre s tr te n1 vs i -> Re L Hk Hi Hl|pre s tr t1 n1 v1 x res -> Re L W C
    |Hc N|tr t1 n1 v1 Hc Re L|tr te n1 v1 e Hc Re L V|tr te n1 v1 whole res Hc Re L V1 V2 Hw C].
  - destruct (reaches_get _ _ _ _ _ _ _ _ Re Ht) as [Hg Ht1].
    destruct (collection_value t1 v1 Hc Ht1) as [(te & m & -> & ->)|(te & vs & He & ->)].
    + rewrite (del_map t r p pre s tr te n1 m Ht D Re). unfold map_delete. destruct (map_find s m) as [x|] eqn:Ef; [|reflexivity].
      elim Hn. left. exists m, x. split; [reflexivity|now apply map_find_in].
    + rewrite (del_seq t r p pre s tr t1 te n1 vs Ht D He Re). unfold seq_delete. destruct (node_child_keys n1) as [|ck0 cks] eqn:Ek.
      * destruct (TextModel.parse_index s) as [i|] eqn:Ei; [|reflexivity]. elim Hn. right; right. exists vs, (N.to_nat i).
        auto using index_found.
      * destruct (find_keyed (ck0 :: cks) vs s) as [[ck i]|] eqn:Ef; [|reflexivity]. elim Hn. right; left. exists vs, ck, i.
        split; [reflexivity|]. rewrite Ek. now apply find_keyed_some.
  - destruct (reaches_get _ _ _ _ _ _ _ _ Re Ht) as [Hg Ht1].
    destruct (collection_value t1 v1 Hc Ht1) as [(te & m & -> & ->)|(te & vs & He & ->)].
    + rewrite (del_map t r p pre s tr te n1 m Ht D Re). unfold map_delete.
      destruct L as [L|(k & te' & [=])]. apply children_locked_true in L. rewrite L.
      destruct Hn as [(m' & x & [= <-] & Hin)|[(vs & ck & i & [=] & _)|(vs & i & [=] & _)]].
      rewrite (proj2 (typed_entry te m s x Ht1 Hin)). reflexivity.
    + rewrite (del_seq t r p pre s tr t1 te n1 vs Ht D He Re). unfold seq_delete.
      destruct (seq_child_name _ _ _ Hn) as [[-> [i ->]]|[Hne (ck & i & Hf)]].
      * destruct L as [L|(k & te' & ->)]; [apply children_locked_true in L; now rewrite L|]. now destruct (is_child_node_read_only _ n1).
      * destruct (node_child_keys n1) as [|ck0 cks]; [congruence|]. rewrite Hf.
        destruct L as [L|(k & te' & ->)]; [apply children_locked_true in L; now rewrite L|]. now destruct (is_child_node_read_only _ n1).
  - rewrite (del_seq t r p pre s tr (TSeq te) te n1 vs Ht D (or_introl eq_refl) Re). unfold seq_delete. rewrite Hk.
    apply index_name_parse in Hi. rewrite Hi. apply children_locked_false in L. rewrite L. rewrite Nat2N.id.
    apply nth_error_None in Hl. now rewrite Hl.
  - destruct (reaches_get _ _ _ _ _ _ _ _ Re Ht) as [Hg Ht1]. apply children_locked_false in L.
    pose proof (child_removed_typed _ _ _ _ _ Ht1 (without_removed _ _ _ _ _ Ht1 W)) as Htx.
    destruct (denotes_drop_back _ _ _ D) as (p' & Hp & D').
    assert (Er : did r res (erase E t r p (map snd tr) v1 x)).
    { refine (commit_computes t r _ _ _ _ _ p' pre _ _ v1 true res Hsch Hg eq_refl Hp D' _ response_caught_del C).
      exact (reaches_set_typed _ _ _ _ _ _ _ _ x Re Ht Htx). }
    destruct W as [te n pre0 s x post H1 H2|te n pre0 x post s ck K|te n pre0 x post s K H].
    + rewrite (del_map t r p pre s tr te n _ Ht D Re). unfold map_delete. rewrite (map_find_len _ _ _ _ H1), L.
      now rewrite erase_len.
    + rewrite (del_seq t r p pre s tr (TSeq te) te n _ Ht D (or_introl eq_refl) Re). unfold seq_delete.
      destruct (node_child_keys n) as [|ck0 cks] eqn:Ek; [elim (key_name_nil _ _ _ _ K)|].
      rewrite (key_name_found _ _ _ _ _ K), L, remove_len. exact Er.
    + rewrite (del_seq t r p pre s tr (TSeq te) te n _ Ht D (or_introl eq_refl) Re). unfold seq_delete. rewrite K.
      apply index_name_parse in H. rewrite H, L, Nat2N.id, nth_error_len, remove_len. exact Er.
  - rewrite (del_nowhere t r p segs Ht D Hc N). reflexivity.
  - rewrite (del_other t r p segs tr t1 n1 v1 Ht D Hc Re). unfold reset_optional.
    destruct (visit_reached t (value r) p segs tr t1 n1 v1 Ht D Re) as [rest ->]. cbn [pl_ctx pl_node pl_ty pl_val pl_loc].
    destruct L as [L|L]; [apply locked_true in L; now rewrite L|]. destruct (is_node_read_only _ n1); [reflexivity|].
    destruct t1; try reflexivity. now elim (L t1).
  - rewrite (del_other t r p segs tr (TOpt te) n1 v1 Ht D Hc Re). unfold reset_optional.
    destruct (visit_reached t (value r) p segs tr (TOpt te) n1 v1 Ht D Re) as [rest ->]. cbn [pl_ctx pl_node pl_ty pl_val pl_loc].
    apply locked_false in L. rewrite L.
    assert (Ha : andthen (match v1 with VSome v => validate_candidate E te v | _ => None end) (validate_candidate E (TOpt te) VNone) = Some e).
    { apply andthen_some. destruct V as [(x & -> & V)|[V1 V2]].
      - left. now apply vetoed_true.
      - right. split; [|cbn [validate_candidate]; now rewrite V2]. destruct v1; try reflexivity. apply unvetoed_true. auto. }
    rewrite Ha, response_caught_del. reflexivity.
  - rewrite (del_other t r p segs tr (TOpt te) n1 v1 Ht D Hc Re). unfold reset_optional.
    destruct (visit_reached t (value r) p segs tr (TOpt te) n1 v1 Ht D Re) as [rest ->]. cbn [pl_ctx pl_node pl_ty pl_val pl_loc].
    apply locked_false in L. rewrite L. destruct (reaches_get _ _ _ _ _ _ _ _ Re Ht) as [Hg Ht1].
    assert (Ha : andthen (match v1 with VSome v => validate_candidate E te v | _ => None end) (validate_candidate E (TOpt te) VNone) = None).
    { apply andthen_none. split; [|cbn [validate_candidate]; now rewrite V2]. destruct v1; try reflexivity. apply unvetoed_true. auto. }
    rewrite Ha. assert (whole = is_reflectable te) as ->.
    { destruct whole, te; cbn; try reflexivity; try (destruct (proj1 Hw eq_refl); discriminate).
      apply Hw. eauto. }
    refine (commit_computes t r _ _ _ _ _ p segs _ _ v1 true res Hsch Hg eq_refl eq_refl D _ response_caught_del C).
    refine (reaches_set_typed _ _ _ _ _ _ _ _ VNone Re Ht _). exact I.
Qed.

Lemma deleted_total t r p segs : schema t -> typed t (value r) -> denotes p segs -> exists res, deleted E t (value r) segs res.
Proof.
  intros Hsch Ht D.
  assert (Hdec : child_path t (value r) segs \/ ~ child_path t (value r) segs).
  { destruct segs as [|s0 segs0].
    { right. intros (pre & s & tr & t1 & n1 & v1 & Es & _). destruct pre; discriminate. }
    assert (Hne : s0 :: segs0 <> []) by discriminate. destruct (exists_last Hne) as (pre & s & Es). rewrite Es in *.
    destruct (visit_parent t (value r) p pre s Ht D) as [(tr & t1 & n1 & v1 & rest0 & R & _ & _)|[_ H]].
    - destruct (collection_dec t1) as [Hc|Hc]; [left; exists pre, s, tr, t1, n1, v1; auto|right].
      intros (pre' & s' & tr' & t1' & n1' & v1' & Es' & R' & Hc'). apply app_inj_tail in Es'. destruct Es' as [<- <-].
      destruct (reaches_fun _ _ _ _ _ _ _ _ R Ht _ _ _ _ R') as (-> & -> & -> & ->). auto.
    - right. intros (pre' & s' & tr' & t1' & n1' & v1' & Es' & R' & Hc'). apply app_inj_tail in Es'. destruct Es' as [<- <-].
      exact (H _ _ _ _ R'). }
  destruct Hdec as [(pre & s & tr & t1 & n1 & v1 & -> & Re & Hc)|Hc].
  - destruct (reaches_get _ _ _ _ _ _ _ _ Re Ht) as [Hg Ht1].
    assert (Kept : child_name n1 v1 s -> children_locked tr n1 -> exists res, deleted E t (value r) (pre ++ [s]) res).
    { intros Hn L. eexists. eapply deleted_kept; eauto. }
    assert (Gone : ~ children_locked tr n1 -> forall x, without t1 n1 v1 s x -> exists res, deleted E t (value r) (pre ++ [s]) res).
    { intros L x W. pose proof (child_removed_typed _ _ _ _ _ Ht1 (without_removed _ _ _ _ _ Ht1 W)) as Htx.
      destruct (commit_total t r (map snd tr) x true s_no_content pre v1 true Hsch Hg
                  (reaches_set_typed _ _ _ _ _ _ _ _ x Re Ht Htx)) as [res C].
      exists res. eapply deleted_tried; eauto. }
    assert (Lk : children_locked tr n1 \/ ~ children_locked tr n1).
    { rewrite <- children_locked_true. destruct (is_child_node_read_only _ n1); auto. }
    destruct (collection_value t1 v1 Hc Ht1) as [(te & m & -> & ->)|(te & vs & He & ->)].
    + destruct (map_find s m) as [x|] eqn:Ef.
      * destruct Lk as [L|L]; [apply Kept; [left; exists m, x; split; [reflexivity|now apply map_find_in]|exact L]|].
        destruct (map_find_split _ _ _ Ef) as (a & b & -> & Ha). apply (Gone L (VMap (a ++ b))). constructor; [exact Ha|].
        cbn [typed] in Ht1. destruct Ht1 as [Hs _]. apply sorted_keys_nodup in Hs. rewrite map_app in Hs. cbn [map fst] in Hs.
        apply NoDup_remove_2 in Hs. intros Hb. apply Hs, in_or_app. now right.
      * eexists. eapply (deleted_unnamed E t _ _ pre s); eauto. intros [(m' & x & [= <-] & Hin)|[(vs & ck & i & [=] & _)|(vs & i & [=] & _)]].
        apply map_find_none in Ef. apply Ef. exact (in_map fst _ _ Hin).
    + assert (Named : (exists ck i, find_keyed (node_child_keys n1) vs s = Some (ck, i)) \/
                      (node_child_keys n1 = [] /\ exists i, TextModel.parse_index s = Some i) \/ ~ child_name n1 (VSeq vs) s).
      { destruct (find_keyed (node_child_keys n1) vs s) as [[ck i]|] eqn:Ef; [left; eauto|right].
        destruct (node_child_keys n1) as [|ck0 cks] eqn:Ek.
        - destruct (TextModel.parse_index s) as [i|] eqn:Ei; [left; eauto|right]. intros Hn. apply seq_child_name in Hn.
          destruct Hn as [[_ [i Hi]]|[H _]]; congruence.
        - right. intros Hn. apply seq_child_name in Hn. destruct Hn as [[H _]|[_ (ck & i & H)]]; congruence. }
      destruct Named as [(ck & i & Hf)|[[Hk [i Hi]]|Hn]].
      * pose proof (find_keyed_some _ _ _ _ _ Hf) as K.
        assert (Hcn : child_name n1 (VSeq vs) s) by (right; left; exists vs, ck, i; auto).
        destruct Lk as [L|L]; [now apply Kept|]. destruct He as [-> | [k ->]]; [|eexists; eapply deleted_kept; eauto].
        pose proof K as (b & a & _ & (x & Hx & _) & _). apply nth_error_split in Hx. destruct Hx as (l1 & l2 & -> & <-).
        apply (Gone L (VSeq (l1 ++ l2))). econstructor. exact K.
      * assert (Hcn : child_name n1 (VSeq vs) s) by (right; right; exists vs, (N.to_nat i); auto using index_found).
        destruct Lk as [L|L]; [now apply Kept|]. destruct He as [-> | [k ->]]; [|eexists; eapply deleted_kept; eauto].
        destruct (nth_error vs (N.to_nat i)) as [x|] eqn:Ex.
        -- apply index_found in Hi. apply nth_error_split in Ex. destruct Ex as (l1 & l2 & -> & El). rewrite <- El in Hi.
           apply (Gone L (VSeq (l1 ++ l2))). now constructor.
        -- apply nth_error_None in Ex. eexists. eapply deleted_beyond; eauto using index_found.
      * eexists. eapply (deleted_unnamed E t _ _ pre s); eauto.
  - destruct (resolves_dec t (value r) p segs Ht D) as [(tr & t1 & n1 & v1 & Re)|N]; [|eexists; now apply deleted_nowhere].
    destruct (reaches_get _ _ _ _ _ _ _ _ Re Ht) as [Hg Ht1].
    destruct (is_node_read_only (ctx_along access0 tr) n1) eqn:L.
    { apply locked_true in L. eexists. eapply deleted_locked; eauto. }
    apply locked_false in L.
    assert (Ho : (exists te, t1 = TOpt te) \/ forall te, t1 <> TOpt te) by (destruct t1; eauto; right; discriminate).
    destruct Ho as [[te ->]|Ho]; [|eexists; eapply deleted_locked; eauto].
    destruct (match v1 with VSome v => validate_candidate E te v | _ => None end) as [e|] eqn:V1.
    { destruct v1; try discriminate. apply vetoed_true in V1. eexists. eapply deleted_vetoed; eauto. }
    assert (V1' : forall x, v1 = VSome x -> unvetoed E te x) by (intros x ->; now apply unvetoed_true).
    destruct (hook E (TOpt te) VNone) as [e|] eqn:V2; [eexists; eapply deleted_vetoed; eauto|].
    destruct (commit_total t r (map snd tr) VNone (is_reflectable te) s_no_content segs v1 true Hsch Hg
                (reaches_set_typed _ _ _ _ _ _ _ _ VNone Re Ht I)) as [res C].
    exists res. eapply deleted_reset; eauto. destruct te; cbn; split; intros H; try discriminate; try (destruct H; discriminate); eauto.
Qed.

(* ------------------------------------------------------------------ *)
(** ** All requests *)

(** The tracker was told exactly the events. *)
Definition told (m : tracker) (evs : list TrackerSpec.event) (m' : tracker) : Prop :=
  match evs with
  | [] => m' = m
  | [e] => exists p g, denotes p (TrackerSpec.where_ e) /\ notify_changed m p (TrackerSpec.whole e) = Ok (m', g)
  | _ => False
  end.

Lemma did_left r res r' a : did r res (r', a) -> exists evs, left_with (value r) res a (value r') evs /\ told (modifications r) evs (modifications r').
Proof.
  destruct res as [a0|s v w whole]; cbn [did left_with].
  - intros [= -> ->]. exists []. cbn. auto.
  - intros (p & m & g & D & Hn & [= -> ->]). eexists. split; [auto|]. cbn. eauto.
Qed.

Lemma left_fun v res a v' evs a2 v2 evs2 : left_with v res a v' evs -> left_with v res a2 v2 evs2 -> a = a2 /\ v' = v2 /\ evs = evs2.
Proof. destruct res; cbn; intros (-> & -> & ->) (-> & -> & ->); auto. Qed.

(** What is specified is computed. *)
Lemma settled_computes t r q segs a v' evs : schema t -> typed t (value r) -> at_path q segs ->
  settled E t (value r) q segs a v' evs ->
  exists m', perform E t r q = (mkresource v' m', a) /\ told (modifications r) evs m'.
Proof.
  intros Hsch Ht D S. unfold at_path in D.
  assert (Gen : forall res out, did r res out -> left_with (value r) res a v' evs ->
    exists m', out = (mkresource v' m', a) /\ told (modifications r) evs m').
  { intros res [r' a'] Hd Hl. destruct (did_left r res r' a' Hd) as (evs' & Hl' & Ho).
    destruct (left_fun _ _ _ _ _ _ _ _ Hl Hl') as (-> & -> & ->). exists (modifications r'). split; [now destruct r'|exact Ho]. }
  destruct q as [skip p|p j|p j|p j|p]; cbn [path_of perform settled] in *.
  - destruct S as (G & -> & ->). exists (modifications r). split; [|reflexivity].
    rewrite (got_computes skip t r p segs a Hsch Ht D G). now destruct r.
  - destruct S as (res & W & L). exact (Gen res _ (written_computes _ _ t r p segs j res Hsch Ht D (deser_good E) deser_exact W) L).
  - destruct S as (res & W & L). exact (Gen res _ (posted_computes t r p segs j res Hsch Ht D W) L).
  - destruct S as (res & W & L). exact (Gen res _ (written_computes _ _ t r p segs j res Hsch Ht D (patch_good E) patch_exact W) L).
  - destruct S as (res & W & L). exact (Gen res _ (deleted_computes t r p segs res Hsch Ht D W) L).
Qed.

Lemma left_total v res : exists a v' evs, left_with v res a v' evs.
Proof. destruct res; cbn; eauto 7. Qed.

Lemma settled_total t r q segs : schema t -> typed t (value r) -> at_path q segs ->
  exists a v' evs, settled E t (value r) q segs a v' evs.
Proof.
  intros Hsch Ht D. unfold at_path in D. destruct q as [skip p|p j|p j|p j|p]; cbn [path_of settled] in *.
  - destruct (got_total skip t (value r) p segs Hsch Ht D) as [a G]. exists a, (value r), []. auto.
  - destruct (written_total _ _ t r p segs j Hsch Ht D (deser_good E) deser_exact) as [res W].
    destruct (left_total (value r) res) as (a & v' & evs & L). eauto 8.
  - destruct (posted_total t r p segs j Hsch Ht D) as [res W].
    destruct (left_total (value r) res) as (a & v' & evs & L). eauto 8.
  - destruct (written_total _ _ t r p segs j Hsch Ht D (patch_good E) patch_exact) as [res W].
    destruct (left_total (value r) res) as (a & v' & evs & L). eauto 8.
  - destruct (deleted_total t r p segs Hsch Ht D) as [res W].
    destruct (left_total (value r) res) as (a & v' & evs & L). eauto 8.
Qed.

Lemma request_exact_lemma t r q segs a v' : schema t -> typed t (value r) -> at_path q segs ->
  ((exists r', perform E t r q = (r', a) /\ value r' = v') <-> exists evs, settled E t (value r) q segs a v' evs).
Proof.
  intros Hsch Ht D. split.
  - intros (r' & H & <-). destruct (settled_total t r q segs Hsch Ht D) as (a2 & v2 & evs & S).
    destruct (settled_computes t r q segs a2 v2 evs Hsch Ht D S) as (m' & H' & _). rewrite H in H'. injection H' as -> ->. eauto.
  - intros (evs & S). destruct (settled_computes t r q segs a v' evs Hsch Ht D S) as (m' & H & _). eauto.
Qed.

(* ------------------------------------------------------------------ *)
(** ** Histories *)

Lemma history_total t qs : schema t -> Forall well_formed qs -> forall r, typed t (value r) ->
  exists answers v' evs, history E t (value r) qs answers v' evs.
Proof.
  intros Hsch F. induction F as [|q qs Hq F IH]; intros r Ht.
  - do 3 eexists. constructor.
  - pose proof Hq as [segs D]. destruct (settled_total t r q segs Hsch Ht D) as (a & v1 & ev1 & S).
    destruct (settled_computes t r q segs a v1 ev1 Hsch Ht D S) as (m1 & H & _).
    pose proof (perform_typed E t r q _ a Hsch Ht Hq H) as Ht1.
    destruct (IH _ Ht1) as (l & v2 & ev2 & Hh). do 3 eexists. econstructor; eauto.
Qed.

Lemma told_keeps m h evs m' : TrackerProofs.tinv m h -> (N.of_nat (length h + length evs) + 1 < gen_modulus)%N ->
  told m evs m' -> TrackerProofs.tinv m' (h ++ evs).
Proof.
  intros Hi Hlt. destruct evs as [|e [|e' evs]]; cbn [told]; [intros ->; now rewrite app_nil_r| |intros []].
  intros (p & g & D & Hn).
  destruct (TrackerProofs.notify_spec m h p e Hi (TrackerProofs.denotes_prefixes _ _ D)) as (m2 & Hm & Hi'); [cbn [length] in Hlt; lia|].
  rewrite Hn in Hm. injection Hm as -> _. exact Hi'.
Qed.

Lemma history_computes t v0 qs answers v' evs : schema t -> history E t v0 qs answers v' evs ->
  forall r h, value r = v0 -> typed t v0 -> TrackerProofs.tinv (modifications r) h ->
  (N.of_nat (length h + length evs) + 1 < gen_modulus)%N ->
  exists m', perform_all E t r qs = (mkresource v' m', answers) /\ typed t v' /\ TrackerProofs.tinv m' (h ++ evs).
Proof.
  intros Hsch H. induction H as [v|v q segs a v1 evs qs l v2 evs' D S H IH]; intros r h Hv Ht Hi Hlt.
  - exists (modifications r). cbn [perform_all]. rewrite app_nil_r. subst v. destruct r; auto.
  - subst v. destruct (settled_computes t r q segs a v1 evs Hsch Ht D S) as (m1 & H1 & Ho). rewrite app_length in Hlt.
    assert (Ht1 : typed t v1) by exact (perform_typed E t r q _ a Hsch Ht (ex_intro _ segs D) H1).
    destruct (IH (mkresource v1 m1) (h ++ evs) eq_refl Ht1) as (m2 & H2 & Ht2 & Hi2);
      [apply (told_keeps (modifications r)); [exact Hi|lia|exact Ho]|rewrite app_length; lia|].
    exists m2. cbn [perform_all]. rewrite H1, H2, app_assoc. auto.
Qed.

Lemma history_short t v0 qs answers v' evs : history E t v0 qs answers v' evs -> length evs <= length qs.
Proof.
  induction 1 as [v|v q segs a v1 evs qs l v2 evs' D S H IH]; [auto|]. rewrite app_length. cbn [length].
  enough (length evs <= 1) by lia. assert (L : forall v res, left_with v res a v1 evs -> length evs <= 1).
  { intros w [a0|s x wh b]; cbn; intros (_ & _ & ->); cbn; lia. }
  destruct q; cbn [settled] in S; [destruct S as (_ & _ & ->); cbn; lia|..]; destruct S as (res & _ & Hl); eauto.
Qed.

Lemma history_exact_lemma t v0 qs : schema t -> typed t v0 -> Forall well_formed qs ->
  (N.of_nat (length qs) + 1 < gen_modulus)%N ->
  forall answers v', (exists r', perform_all E t (make_resource v0) qs = (r', answers) /\ value r' = v') <->
    exists evs, history E t v0 qs answers v' evs.
Proof.
  intros Hsch Ht F Hlt answers v'. split.
  - intros (r' & H & <-). destruct (history_total t qs Hsch F (make_resource v0) Ht) as (l & v2 & evs & Hh).
    pose proof (history_short _ _ _ _ _ _ Hh) as Hs.
    destruct (history_computes t v0 qs l v2 evs Hsch Hh (make_resource v0) [] eq_refl Ht TrackerProofs.tinv_init) as (m' & H' & _);
      [cbn [length]; lia|].
    rewrite H in H'. injection H' as -> ->. exists evs. exact Hh.
  - intros (evs & Hh). pose proof (history_short _ _ _ _ _ _ Hh) as Hs.
    destruct (history_computes t v0 qs answers v' evs Hsch Hh (make_resource v0) [] eq_refl Ht TrackerProofs.tinv_init) as (m' & H' & _);
      [cbn [length]; lia|]. eauto.
Qed.

Lemma reports_exact_lemma t v0 qs0 answers0 v1 evs0 qs answers v2 evs : schema t -> typed t v0 ->
  history E t v0 qs0 answers0 v1 evs0 -> history E t v1 qs answers v2 evs ->
  (N.of_nat (length qs0 + length qs) + 1 < gen_modulus)%N ->
  exists r r', perform_all E t (make_resource v0) qs0 = (r, answers0) /\ perform_all E t r qs = (r', answers) /\
    value r = v1 /\ value r' = v2 /\
    forall p l, denotes p l -> exists b,
      changed_since (modifications r') p (current (modifications r)) = Ok b /\ (b = true <-> exists e, In e evs /\ concerns e l).
Proof.
  intros Hsch Ht H0 H1 Hlt. pose proof (history_short _ _ _ _ _ _ H0) as L0. pose proof (history_short _ _ _ _ _ _ H1) as L1.
  destruct (history_computes t v0 qs0 answers0 v1 evs0 Hsch H0 (make_resource v0) [] eq_refl Ht TrackerProofs.tinv_init) as (m1 & P0 & Ht1 & Hi1);
    [cbn [length]; lia|]. cbn [app] in Hi1.
  destruct (history_computes t v1 qs answers v2 evs Hsch H1 (mkresource v1 m1) evs0 eq_refl Ht1 Hi1) as (m2 & P1 & Ht2 & Hi2); [lia|].
  exists (mkresource v1 m1), (mkresource v2 m2). repeat (split; [assumption || reflexivity|]). intros p l D. cbn [modifications].
  destruct (TrackerProofs.changed_since_spec m2 (evs0 ++ evs) p l (current m1) Hi2 (TrackerProofs.denotes_prefixes _ _ D)) as (b & Hb & Hiff).
  exists b. split; [exact Hb|]. rewrite Hiff. destruct Hi1 as (_ & Hc & _). unfold current. rewrite Hc. unfold generation_of. split.
  - intros (i & e & Hn & Hce & Hg). assert (Hi : length evs0 <= i) by lia. rewrite nth_error_app2 in Hn by exact Hi.
    exists e. split; [exact (nth_error_In _ _ Hn)|exact Hce].
  - intros (e & Hin & Hce). apply In_nth_error in Hin. destruct Hin as [i Hn]. exists (length evs0 + i), e.
    rewrite nth_error_app2 by lia. replace (length evs0 + i - length evs0) with i by lia. repeat split; auto. lia.
Qed.

(* ------------------------------------------------------------------ *)
(** ** Where changes are announced *)

Lemma committed_where t v loc x deleting s w whole res a v' evs e : committed E t v loc x deleting s w whole res ->
  left_with v res a v' evs -> In e evs -> TrackerSpec.where_ e = w.
Proof.
  intros C L Hin. destruct C as [v1 x1 _ _|v1 _ _]; [destruct x1, deleting|]; cbn in L; destruct L as (_ & _ & ->); destruct Hin; try contradiction;
    subst; reflexivity.
Qed.

Lemma refused_where v a0 a v' evs (e : TrackerSpec.event) : left_with v (Refused a0) a v' evs -> ~ In e evs.
Proof. cbn. intros (_ & _ & ->). easy. Qed.

Lemma response_where deleting x v a v' evs (e : TrackerSpec.event) : left_with v (response deleting x) a v' evs -> ~ In e evs.
Proof. destruct x, deleting; apply refused_where. Qed.

Lemma settled_where t v q segs a v' evs e : settled E t v q segs a v' evs -> In e evs ->
  modifying q /\ (TrackerSpec.where_ e = segs \/ exists p s, q = Delete p /\ segs = TrackerSpec.where_ e ++ [s]).
Proof.
  destruct q as [skip p|p j|p j|p j|p]; cbn [settled modifying]; intros S Hin.
  - destruct S as (_ & _ & ->). elim Hin.
  - destruct S as (res & W & L). split; [exact I|left].
    destruct W; solve [eapply committed_where; eauto|elim (refused_where _ _ _ _ _ _ L Hin)|elim (response_where _ _ _ _ _ _ _ L Hin)].
  - destruct S as (res & W & L). split; [exact I|left].
    destruct W; solve [eapply committed_where; eauto|elim (refused_where _ _ _ _ _ _ L Hin)|elim (response_where _ _ _ _ _ _ _ L Hin)].
  - destruct S as (res & W & L). split; [exact I|left].
    destruct W; solve [eapply committed_where; eauto|elim (refused_where _ _ _ _ _ _ L Hin)|elim (response_where _ _ _ _ _ _ _ L Hin)].
  - destruct S as (res & W & L). split; [exact I|].
    destruct W as [| | |pre s tr t1 n1 v1 x res -> Re Lk W C| | |tr te n1 v1 x Hc Re Lk V|tr te n1 v1 whole res Hc Re Lk V1 V2 Hw C];
      try (elim (refused_where _ _ _ _ _ _ L Hin)); try (elim (response_where _ _ _ _ _ _ _ L Hin)).
    + right. exists p, s. split; [reflexivity|]. now rewrite (committed_where _ _ _ _ _ _ _ _ _ _ _ _ _ C L Hin).
    + left. eapply committed_where; eauto.
Qed.

Lemma history_where t v qs answers v' evs e : history E t v qs answers v' evs -> In e evs ->
  exists q segs, In q qs /\ at_path q segs /\ modifying q /\
    (TrackerSpec.where_ e = segs \/ exists p s, q = Delete p /\ segs = TrackerSpec.where_ e ++ [s]).
Proof.
  induction 1 as [v|v q segs a v1 evs qs l v2 evs' D S H IH]; intros Hin; [elim Hin|].
  apply in_app_or in Hin. destruct Hin as [Hin|Hin].
  - destruct (settled_where _ _ _ _ _ _ _ _ S Hin) as [Hm Hw]. exists q, segs. repeat split; [now left|exact D|exact Hm|exact Hw].
  - destruct (IH Hin) as (q' & segs' & Hq & Hr). exists q', segs'. split; [now right|exact Hr].
Qed.

Lemma unrelated_lemma t v0 qs0 r answers0 qs r' answers p l : schema t -> typed t v0 ->
  Forall well_formed qs0 -> perform_all E t (make_resource v0) qs0 = (r, answers0) ->
  Forall well_formed qs -> perform_all E t r qs = (r', answers) ->
  (N.of_nat (length qs0 + length qs) + 1 < gen_modulus)%N -> denotes p l ->
  (forall q segs, In q qs -> modifying q -> at_path q segs ->
     ~ TrackerSpec.at_or_above l segs /\ ~ TrackerSpec.at_or_above segs l /\
     (forall p' pre s, q = Delete p' -> segs = pre ++ [s] -> ~ TrackerSpec.at_or_above pre l)) ->
  changed_since (modifications r') p (current (modifications r)) = Ok false.
Proof.
  intros Hsch Ht F0 P0 F P Hlt D Hu.
  destruct (history_total t qs0 Hsch F0 (make_resource v0) Ht) as (l0 & v1 & evs0 & H0).
  assert (Ht1 : typed t v1).
  { pose proof (history_short _ _ _ _ _ _ H0).
    destruct (history_computes t v0 qs0 l0 v1 evs0 Hsch H0 (make_resource v0) [] eq_refl Ht TrackerProofs.tinv_init) as (m' & _ & H' & _);
      [cbn [length]; lia|exact H']. }
  destruct (history_total t qs Hsch F (mkresource v1 (modifications r)) Ht1) as (l1 & v2 & evs & H1). cbn [value] in H1.
  destruct (reports_exact_lemma t v0 qs0 l0 v1 evs0 qs l1 v2 evs Hsch Ht H0 H1 Hlt) as (ra & rb & Pa & Pb & _ & _ & Hrep).
  rewrite P0 in Pa. injection Pa as <- _. rewrite P in Pb. injection Pb as <- _.
  destruct (Hrep p l D) as (b & -> & Hb). destruct b; [|reflexivity]. destruct (proj1 Hb eq_refl) as (e & Hin & Hc).
  destruct (history_where _ _ _ _ _ _ _ H1 Hin) as (q & segs & Hq & Dq & Hm & Hw).
  destruct (Hu q segs Hq Hm Dq) as (U1 & U2 & U3). exfalso. destruct Hc as [Hc|[_ Hc]].
  - destruct Hw as [<-|(p' & s & _ & ->)]; [exact (U1 Hc)|]. apply U1. destruct Hc as [rest ->]. exists (rest ++ [s]). now rewrite app_assoc.
  - destruct Hw as [<-|(p' & s & Hd & Es)]; [exact (U2 Hc)|]. exact (U3 p' _ s Hd Es Hc).
Qed.

End WithEnv.
