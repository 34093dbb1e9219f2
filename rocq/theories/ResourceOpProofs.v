(** Validation, and what each operation does. *)
From Coq Require Import List NArith ZArith Arith Bool Lia.
From Verif Require Import Base PathModel PathSpec PathProofs TrackerModel TrackerSpec EnumModel EnumProofs
  SerialModel SerialSpec SerialBaseProofs SerialTypeProofs SerialDumpProofs
  ResourceModel ResourceSpec ResourceBaseProofs ResourcePathProofs.
From Verif Require TrackerProofs TextModel TextSpec TextProofs.
Import ListNotations.

Local Notation str := (list N) (only parsing).

(* ------------------------------------------------------------------ *)
(** ** Validation *)

Lemma andthen_none a b : andthen a b = None <-> a = None /\ b = None.
Proof. destruct a; cbn; split; [discriminate|intros [? _]; discriminate|auto|tauto]. Qed.

Lemma first_exn_none {A} (f : A -> option rexn) l : first_exn f l = None <-> forall x, In x l -> f x = None.
Proof.
  induction l as [|x l IH]; cbn [first_exn In]; [split; [tauto|reflexivity]|].
  rewrite andthen_none, IH. split; [intros [H1 H2] y [<-|Hy]; auto|auto].
Qed.

Lemma distinct_keys_cons k x vs : distinct_keys k (x :: vs) <->
  (forall y kx, In y vs -> key_of k x = Some kx -> key_of k y <> Some kx) /\ distinct_keys k vs.
Proof.
  split.
  - intros H. split.
    + intros y kx Hy Hx. apply In_nth_error in Hy. destruct Hy as [j Hj].
      exact (H 0 (S j) x y kx ltac:(lia) eq_refl Hj Hx).
    + intros i j a b ka Hij Ha Hb Hk. exact (H (S i) (S j) a b ka ltac:(lia) Ha Hb Hk).
  - intros [H1 H2] [|i] [|j] a b ka Hij Ha Hb Hk; [lia| | |].
    + injection Ha as <-. cbn in Hb. exact (H1 b ka (nth_error_In _ _ Hb) Hk).
    + injection Hb as <-. cbn in Ha. intros E. exact (H1 a ka (nth_error_In _ _ Ha) E Hk).
    + exact (H2 i j a b ka ltac:(lia) Ha Hb Hk).
Qed.

Lemma duplicate_keys_false k vs : duplicate_keys k vs = false <-> distinct_keys k vs.
Proof.
  induction vs as [|x vs IH]; cbn [duplicate_keys].
  - split; [|reflexivity]. intros _ [|i] j a b ka _ Ha; discriminate.
  - rewrite orb_false_iff, IH, distinct_keys_cons. enough (existsb (same_key k x) vs = false <->
      (forall y kx, In y vs -> key_of k x = Some kx -> key_of k y <> Some kx)) by tauto. split.
    + intros H y kx Hy Hx E. assert (existsb (same_key k x) vs = true); [|congruence].
      apply existsb_exists. exists y. split; [exact Hy|]. apply same_key_true. eauto.
    + intros H. destruct (existsb (same_key k x) vs) eqn:E; [|reflexivity]. exfalso.
      apply existsb_exists in E. destruct E as (y & Hy & E). apply same_key_true in E. destruct E as (kx & E1 & E2).
      exact (H y kx Hy E1 E2).
Qed.

Definition node_ok (n : nkind) (t : ty) : Prop := match n with NField a => keys_ok a t | _ => True end.

Definition sound (E : env) (t : ty) (n : nkind) (v : val) : Prop :=
  hook E t v = None /\
  forall ck, In ck (node_child_keys n) -> exists vs, v = VSeq vs /\ distinct_keys (ck_member ck) vs.

Lemma keyed_seq n t v : node_ok n t -> typed t v -> node_child_keys n <> [] -> exists vs, v = VSeq vs.
Proof.
  destruct n as [|a|k]; cbn; try congruence. intros [H|(fs & He & _)] Ht Hn; [congruence|].
  destruct He as [-> | [k ->]]; destruct v; cbn in Ht; try contradiction; eauto.
Qed.

Lemma unique_keys_none n t v : node_ok n t -> typed t v ->
  (validate_unique_child_keys n v = None <->
   forall ck, In ck (node_child_keys n) -> exists vs, v = VSeq vs /\ distinct_keys (ck_member ck) vs).
Proof.
  intros Hn Ht. unfold validate_unique_child_keys. destruct (node_child_keys n) as [|ck0 cks] eqn:Ek.
  - split; [intros _ ck []|reflexivity].
  - destruct (keyed_seq n t v Hn Ht) as [vs ->]; [congruence|]. rewrite first_exn_none. split; intros H ck Hc; specialize (H ck Hc).
    + destruct (duplicate_keys (ck_member ck) vs) eqn:E; [discriminate|]. apply duplicate_keys_false in E. eauto.
    + destruct H as (vs' & [= <-] & H). apply duplicate_keys_false in H. now rewrite H.
Qed.

Lemma unique_keys_defined n t v : node_ok n t -> typed t v -> validate_unique_child_keys n v <> Some XUB.
Proof.
  intros Hn Ht. unfold validate_unique_child_keys. destruct (node_child_keys n) as [|ck0 cks] eqn:Ek; [discriminate|].
  destruct (keyed_seq n t v Hn Ht) as [vs ->]; [congruence|].
  generalize (ck0 :: cks). intros l. induction l as [|ck l IH]; cbn [first_exn]; [discriminate|].
  destruct (duplicate_keys (ck_member ck) vs); cbn; [discriminate|exact IH].
Qed.

Lemma andthen_defined a b : a <> Some XUB -> b <> Some XUB -> andthen a b <> Some XUB.
Proof. destruct a; cbn; auto. Qed.

Lemma first_exn_defined {A} (f : A -> option rexn) l : (forall x, In x l -> f x <> Some XUB) -> first_exn f l <> Some XUB.
Proof.
  induction l as [|x l IH]; cbn [first_exn]; intros H; [discriminate|].
  apply andthen_defined; [apply H; now left|]. apply IH. intros y Hy. apply H. now right.
Qed.

Lemma every_field_in P fs i a t : every_field P (TRec fs) -> nth_error fs i = Some (a, t) -> P a t /\ every_field P t.
Proof.
  cbn [every_field]. intros H Hi. apply all1_Forall in H. rewrite Forall_forall in H.
  exact (H (a, t) (nth_error_In _ _ Hi)).
Qed.

Section WithEnv.
Context (E : env).

Lemma validate_fields_none (f : nkind -> ty -> val -> option rexn) fs : forall vs, length fs = length vs ->
  (validate_fields f fs vs = None <->
   forall i a t v, nth_error fs i = Some (a, t) -> nth_error vs i = Some v -> f (NField a) t v = None).
Proof.
  induction fs as [|[a t] fs IH]; intros [|v vs] Hl; cbn [validate_fields]; try discriminate Hl.
  - split; [|reflexivity]. intros _ [|i]; discriminate.
  - rewrite andthen_none, (IH vs) by (cbn in Hl; lia). split.
    + intros [H1 H2] [|i] a' t' v' Ha Hv; [cbn in *; congruence|]. exact (H2 i a' t' v' Ha Hv).
    + intros H. split; [exact (H 0 a t v eq_refl eq_refl)|]. intros i a' t' v' Ha Hv. exact (H (S i) a' t' v' Ha Hv).
Qed.

Lemma validate_fields_defined (f : nkind -> ty -> val -> option rexn) fs : forall vs, length fs = length vs ->
  (forall i a t v, nth_error fs i = Some (a, t) -> nth_error vs i = Some v -> f (NField a) t v <> Some XUB) ->
  validate_fields f fs vs <> Some XUB.
Proof.
  induction fs as [|[a t] fs IH]; intros [|v vs] Hl H; cbn [validate_fields]; try discriminate.
  apply andthen_defined; [exact (H 0 a t v eq_refl eq_refl)|].
  apply IH; [cbn in Hl; lia|]. intros i a' t' v' Ha Hv. exact (H (S i) a' t' v' Ha Hv).
Qed.

Lemma typed_fields_length fs vs : typed (TRec fs) (VRec vs) -> length fs = length vs.
Proof. cbn [typed]. apply all2_length. Qed.

Lemma typed_nth fs vs i a t v : typed (TRec fs) (VRec vs) -> nth_error fs i = Some (a, t) -> nth_error vs i = Some v -> typed t v.
Proof. intros H Ha Hv. destruct (typed_field _ _ _ _ _ H Ha) as (w & Hw & Ht). congruence. Qed.

Lemma within_leaf t n v t' n' v' : scalar t -> within t n v t' n' v' -> (t', n', v') = (t, n, v).
Proof.
  intros Hs W. inversion W; subst; try reflexivity; try contradiction Hs.
  match goal with G : elements t _ |- _ => destruct G as [-> | [? ->]]; contradiction Hs end.
Qed.

Lemma validate_seq t te n vs : elements t te -> typed t (VSeq vs) -> node_ok n t ->
  (forall v, typed te v -> (validate_node_tree E te (NElem None) v = None <->
     forall t' n' v', within te (NElem None) v t' n' v' -> sound E t' n' v')) ->
  (andthen (hook E t (VSeq vs)) (andthen (validate_unique_child_keys n (VSeq vs))
     (first_exn (validate_node_tree E te (NElem None)) vs)) = None <->
   forall t' n' v', within t n (VSeq vs) t' n' v' -> sound E t' n' v').
Proof.
  intros He Ht Hn IH. rewrite !andthen_none, (unique_keys_none n t _ Hn Ht), first_exn_none. split.
  - intros (H1 & H2 & H3) t' n' v' W. inversion W; subst; [split; assumption|].
    assert (te0 = te) as -> by (eapply elements_fun; eassumption).
    match goal with G : In v vs, W' : within te _ v _ _ _ |- _ =>
      exact (proj1 (IH v (typed_element _ _ _ He Ht v G)) (H3 v G) _ _ _ W') end.
  - intros H. destruct (H _ _ _ (within_self _ _ _)) as [H1 H2]. repeat split; auto.
    intros v Hv. apply IH; [exact (typed_element _ _ _ He Ht v Hv)|]. intros t' n' v' W. apply H. econstructor; eauto.
Qed.

Lemma validate_none t : forall n v, typed t v -> every_field keys_ok t -> node_ok n t ->
  (validate_node_tree E t n v = None <-> forall t' n' v', within t n v t' n' v' -> sound E t' n' v').
Proof.
  assert (Leaf : forall t n v, scalar t -> typed t v -> node_ok n t ->
    (andthen (hook E t v) (andthen (validate_unique_child_keys n v) None) = None <->
     forall t' n' v', within t n v t' n' v' -> sound E t' n' v')).
  { intros u n v Hs Ht Hn. rewrite !andthen_none, (unique_keys_none n u v Hn Ht). split.
    - intros (H1 & H2 & _) t' n' v' W. apply (within_leaf _ _ _ _ _ _ Hs) in W. injection W as -> -> ->. split; assumption.
    - intros H. destruct (H u n v (within_self u n v)). auto. }
  induction t as [ |it| | | |t IH|t IH|k t IH|t IH|ts IH|e|e|fs IH] using ty_ind0; intros n v Ht Hk Hn;
    try (destruct v; cbn [validate_node_tree]; refine (Leaf _ n _ _ Ht Hn); exact I); cbn [validate_node_tree].
  - destruct v as [b|z|b|b|s'| |v|vs|m|vs]; cbn [typed] in Ht; try contradiction.
    + rewrite !andthen_none, (unique_keys_none n (TOpt t) VNone Hn I). split.
      * intros (H1 & H2 & _) t' n' v' W. inversion W; subst; [split; assumption].
      * intros H. destruct (H _ _ _ (within_self _ _ _)). auto.
    + rewrite !andthen_none, (unique_keys_none n (TOpt t) (VSome v) Hn Ht), (IH (NElem None) v Ht Hk I). split.
      * intros (H1 & H2 & H3) t' n' v' W. inversion W; subst; [split; assumption|]. eauto.
      * intros H. destruct (H _ _ _ (within_self _ _ _)) as [H1 H2]. split; [exact H1|]. split; [exact H2|].
        intros t' n' v' W. apply H. now constructor.
  - destruct v as [b|z|b|b|s'| |v|vs|m|vs]; cbn [typed] in Ht; try contradiction.
    apply (validate_seq (TSeq t) t); [now left|exact Ht|exact Hn|]. intros v Hv. apply IH; auto. exact I.
  - destruct v as [b|z|b|b|s'| |v|vs|m|vs]; cbn [typed] in Ht; try contradiction.
    apply (validate_seq (TArr k t) t); [right; eauto|exact Ht|exact Hn|]. intros v Hv. apply IH; auto. exact I.
  - destruct v as [b|z|b|b|s'| |v|vs|m|vs]; cbn [typed] in Ht; try contradiction.
    assert (Htm : typed (TMap t) (VMap m)) by exact Ht.
    rewrite !andthen_none, (unique_keys_none n (TMap t) (VMap m) Hn Htm), first_exn_none. split.
    + intros (H1 & H2 & H3) t' n' v' W. inversion W; subst; [split; assumption|].
      match goal with G : In (k, v) m, W' : within t _ v _ _ _ |- _ =>
        exact (proj1 (IH (NElem None) v (proj1 (typed_entry _ _ _ _ Htm G)) Hk I) (H3 _ G) _ _ _ W') end.
    + intros H. destruct (H _ _ _ (within_self _ _ _)) as [H1 H2]. split; [exact H1|]. split; [exact H2|].
      intros [k v] Hin. cbn [snd]. apply (IH (NElem None) v (proj1 (typed_entry _ _ _ _ Htm Hin)) Hk I).
      intros t' n' v' W. apply H. econstructor; eauto.
  - destruct v as [b|z|b|b|s'| |v|vs|m|vs]; cbn [typed] in Ht; try contradiction.
    assert (Htr : typed (TRec fs) (VRec vs)) by exact Ht.
    rewrite Forall_forall in IH.
    assert (IH' : forall i a t v, nth_error fs i = Some (a, t) -> nth_error vs i = Some v ->
      (validate_node_tree E t (NField a) v = None <-> forall t' n' v', within t (NField a) v t' n' v' -> sound E t' n' v')).
    { intros i a t v Ha Hv. destruct (every_field_in _ _ _ _ _ Hk Ha) as [K1 K2].
      exact (IH (a, t) (nth_error_In _ _ Ha) (NField a) v (typed_nth _ _ _ _ _ _ Htr Ha Hv) K2 K1). }
    rewrite !andthen_none, (unique_keys_none n (TRec fs) (VRec vs) Hn Htr), (validate_fields_none _ fs vs (typed_fields_length _ _ Htr)).
    split.
    + intros (H1 & H2 & H3) t' n' v' W. inversion W; subst; [split; assumption|].
      match goal with A : nth_error fs i = Some (a, t), B : nth_error vs i = Some v, W' : within t _ v _ _ _ |- _ =>
        exact (proj1 (IH' i a t v A B) (H3 i a t v A B) _ _ _ W') end.
    + intros H. destruct (H _ _ _ (within_self _ _ _)) as [H1 H2]. split; [exact H1|]. split; [exact H2|].
      intros i a t v Ha Hv. apply (IH' i a t v Ha Hv). intros t' n' v' W. apply H. econstructor; eauto.
Qed.

Lemma validate_tree_none t v : schema t -> typed t v -> (validate_tree E t v = None <-> valid E t v).
Proof. intros [_ Hk] Ht. exact (validate_none t NRoot v Ht Hk I). Qed.

Lemma validate_defined t : (forall t v, hook E t v <> Some XUB) -> forall n v, typed t v -> every_field keys_ok t -> node_ok n t ->
  validate_node_tree E t n v <> Some XUB.
Proof.
  intros HE. induction t as [ |it| | | |t IH|t IH|k t IH|t IH|ts IH|e|e|fs IH] using ty_ind0; intros n v Ht Hk Hn;
    cbn [validate_node_tree]; (apply andthen_defined; [apply HE|]); (apply andthen_defined; [exact (unique_keys_defined n _ v Hn Ht)|]);
    destruct v as [b|z|b|b|s'| |v|vs|m|vs]; cbn [typed] in Ht; try contradiction; try discriminate.
  - apply IH; auto; exact I.
  - apply first_exn_defined. intros v Hv. apply IH; auto; [|exact I].
    exact (typed_element (TSeq t) t vs (or_introl eq_refl) Ht v Hv).
  - apply first_exn_defined. intros v Hv. apply IH; auto; [|exact I].
    exact (typed_element (TArr k t) t vs (or_intror (ex_intro _ k eq_refl)) Ht v Hv).
  - apply first_exn_defined. intros [k v] Hin. apply IH; auto; [|exact I]. exact (proj1 (typed_entry t m k v Ht Hin)).
  - rewrite Forall_forall in IH. apply validate_fields_defined; [exact (typed_fields_length _ _ Ht)|].
    intros i a t v Ha Hv. destruct (every_field_in _ _ _ _ _ Hk Ha) as [K1 K2].
    exact (IH (a, t) (nth_error_In _ _ Ha) (NField a) v (typed_nth _ _ _ _ _ _ Ht Ha Hv) K2 K1).
Qed.

Lemma candidate_defined t : (forall t v, hook E t v <> Some XUB) -> forall v, validate_candidate E t v <> Some XUB.
Proof.
  intros HE. induction t as [ |it| | | |t IH|t IH|k t IH|t IH|ts IH|e|e|fs IH] using ty_ind0; intros v; cbn [validate_candidate];
    (apply andthen_defined; [apply HE|]); try discriminate. destruct v; try discriminate. apply IH.
Qed.

End WithEnv.
