(** Proofs about the attributes of a field and the checks of field names. *)
From Coq Require Import List NArith Arith Bool Lia.
From Verif Require Import Base PathModel EnumProofs ScalarModel SerialModel SerialSpec ReflectModel ReflectSpec
  ReflectProofs AttrModel AttrSpec.
Import ListNotations.
Local Open Scope outcome_scope.

Local Notation str := (list N) (only parsing).

Lemma bool_eq (a b : bool) (Q : Prop) : (a = true <-> Q) -> (b = true <-> Q) -> a = b.
Proof. intros H1 H2. destruct a, b; try reflexivity; [symmetry|]; [apply H2, H1 | apply H1, H2]; reflexivity. Qed.

Lemma has_asked q f : has q (s_attrs f) = true <-> asked q f.
Proof. apply has_iff. Qed.

(** ** A field and its record *)

Section Described.
Context (f : srcfield) (a : attrs) (W : well_formed f) (D : described f a).

Lemma flag q b : (b = true <-> asked q f) -> has q (s_attrs f) = b.
Proof. intros H. apply (bool_eq _ _ (asked q f)); [apply has_asked | exact H]. Qed.

Lemma first_in q x : first_asked q f x -> In x (s_attrs f) /\ answers q (at_class x).
Proof.
  intros (b & c & E & H & _). split; [|exact H]. rewrite E. apply in_or_app. right. left. reflexivity.
Qed.

Lemma get_present q : has q (s_attrs f) = true -> exists x, get q (s_attrs f) = Some x /\ first_asked q f x.
Proof.
  intros H. destruct (get q (s_attrs f)) as [x|] eqn:E.
  - exists x. split; [reflexivity|]. apply get_iff. exact E.
  - apply get_none in E. congruence.
Qed.

Lemma name_agrees : f_serialized_name f = Ok (serialized_name a).
Proof.
  unfold f_serialized_name, serialized_name. destruct (has CRename (s_attrs f)) eqn:E.
  - destruct (get_present _ E) as (x & -> & Hx). destruct (first_in _ _ Hx) as [Hin Hans].
    destruct (h_rename _ (W x Hin) Hans) as [s Hs]. unfold name_in. rewrite Hs.
    rewrite (proj2 (d_rename _ _ D s)); [reflexivity|]. exists x. split; assumption.
  - destruct (a_rename a) as [s|] eqn:Er.
    + apply (d_rename _ _ D) in Er. destruct Er as (x & Hx & _). apply first_in in Hx.
      assert (has CRename (s_attrs f) = true) by (apply has_asked; exists x; exact Hx). congruence.
    + rewrite (d_name _ _ D). reflexivity.
Qed.

Lemma aliases_agree :
  (if has CAliases (s_attrs f) then match get CAliases (s_attrs f) with Some x => Ok (aliases_in x) | None => UB end
   else Ok []) = Ok (a_aliases a).
Proof.
  destruct (has CAliases (s_attrs f)) eqn:E.
  - destruct (get_present _ E) as (x & -> & Hx). destruct (first_in _ _ Hx) as [Hin Hans].
    destruct (h_aliases _ (W x Hin) Hans) as (l & Hl & _). unfold aliases_in. rewrite Hl.
    rewrite (proj1 (d_aliases _ _ D) x l Hx Hl). reflexivity.
  - rewrite (proj2 (d_aliases _ _ D)); [reflexivity|]. rewrite <- has_asked, E. discriminate.
Qed.

Lemma resolve_agrees ms : f_resolve_field_name ms f = Ok (resolve_field_name ms a).
Proof.
  unfold f_resolve_field_name, resolve_field_name. rewrite name_agrees. cbn [obind].
  destruct (has_field ms (serialized_name a)); [reflexivity|].
  pose proof aliases_agree as E. destruct (has CAliases (s_attrs f)).
  - destruct (get CAliases (s_attrs f)) as [x|]; [|discriminate]. injection E as ->. reflexivity.
  - injection E as <-. reflexivity.
Qed.

Lemma reserved_agrees : f_reserved_names f = Ok (serialized_name a :: a_aliases a).
Proof.
  unfold f_reserved_names. rewrite name_agrees. cbn [obind].
  pose proof aliases_agree as E. destruct (has CAliases (s_attrs f)).
  - destruct (get CAliases (s_attrs f)) as [x|]; [|discriminate]. injection E as ->. reflexivity.
  - injection E as <-. reflexivity.
Qed.

Lemma skip_agrees skip v : f_skip_serialized_field skip f v = skip_serialized_field skip a v.
Proof.
  unfold f_skip_serialized_field, skip_serialized_field, f_skip_null_field, skip_null_field, f_skip_empty_field, skip_empty_field.
  rewrite (flag _ _ (d_emit_null _ _ D)), (flag _ _ (d_skip_if_null _ _ D)), (flag _ _ (d_skip_if_empty _ _ D)). reflexivity.
Qed.

End Described.

(** *** Defaults *)

Fixpoint first_default (l : list (attribute payload)) : option val :=
  match l with
  | [] => None
  | x :: l' => match is_default_value x with Some d => Some d | None => first_default l' end
  end.

Lemma fold_default_applied l (d : val) :
  fold_left (fun (st : val * bool) (a : attribute payload) =>
    match is_default_value a with Some d => if snd st then st else (d, true) | None => st end) l (d, true) = (d, true).
Proof. induction l as [|x l IH]; cbn; [reflexivity|]. destruct (is_default_value x); exact IH. Qed.

Lemma fold_default l (v : val) :
  fold_left (fun (st : val * bool) (a : attribute payload) =>
    match is_default_value a with Some d => if snd st then st else (d, true) | None => st end) l (v, false) =
  match first_default l with Some d => (d, true) | None => (v, false) end.
Proof.
  induction l as [|x l IH]; cbn; [reflexivity|]. destruct (is_default_value x); [apply fold_default_applied | exact IH].
Qed.

Lemma default_attr_dec (x : attribute payload) : {n | cls_id (at_class x) = CDefault n} + {~ default_attribute x}.
Proof. destruct (cls_id (at_class x)) eqn:E; try (right; intros [? ?]; congruence). left. exists n. reflexivity. Qed.

Lemma first_default_iff l : (forall x, In x l -> holds x) -> forall v,
  first_default l = Some v <->
  exists x n, first_such default_attribute l x /\ cls_id (at_class x) = CDefault n /\ at_data x (CDefault n) = PValue v.
Proof.
  induction l as [|y l IH]; intros W v; cbn.
  - split; [discriminate|]. intros (x & n & (b & c & E & _) & _). destruct b; discriminate.
  - assert (W' : forall x, In x l -> holds x) by (intros x Hx; apply W; right; exact Hx).
    destruct (default_attr_dec y) as [[n En] | Hn].
    + destruct (h_default _ (W y (or_introl eq_refl)) n En) as [d Hd]. unfold is_default_value. rewrite En, Hd. split.
      * intros E. injection E as <-. exists y, n. split; [|split; assumption].
        exists [], l. repeat split; [exists n; exact En | intros z []].
      * intros (x & n' & (b & c & E & Hx & Hb) & En' & Hd'). destruct b as [|z b]; cbn in E; injection E as <- E.
        -- rewrite En in En'. injection En' as <-. rewrite Hd in Hd'. injection Hd' as <-. reflexivity.
        -- exfalso. apply (Hb y (or_introl eq_refl)). exists n. exact En.
    + assert (E0 : is_default_value y = None).
      { unfold is_default_value. destruct (cls_id (at_class y)) eqn:E; try reflexivity. exfalso. apply Hn. exists n. exact E. }
      rewrite E0, (IH W'). split.
      * intros (x & n & (b & c & -> & Hx & Hb) & H1 & H2). exists x, n. split; [|split; assumption].
        exists (y :: b), c. repeat split; [exact Hx|]. intros z [<- | Hz]; [exact Hn | exact (Hb z Hz)].
      * intros (x & n & (b & c & E & Hx & Hb) & H1 & H2). destruct b as [|z b]; cbn in E; injection E as <- E; [contradiction|].
        exists x, n. split; [|split; assumption]. exists b, c. repeat split; [exact E | exact Hx|].
        intros z Hz. apply Hb. right. exact Hz.
Qed.

Lemma opt_eq {A} (x y : option A) : (forall v, x = Some v <-> y = Some v) -> x = y.
Proof.
  intros H. destruct x as [v|].
  - symmetry. apply H. reflexivity.
  - destruct y as [v|]; [|reflexivity]. apply (H v). reflexivity.
Qed.

Lemma default_agrees f a (W : well_formed f) (D : described f a) v :
  apply_default_value f v = match a_default a with Some d => (d, true) | None => (v, false) end.
Proof.
  unfold apply_default_value, visit_attributes. rewrite fold_default.
  rewrite (opt_eq (first_default (s_attrs f)) (a_default a)); [reflexivity|].
  intros d. rewrite (first_default_iff _ W). symmetry. apply (d_default _ _ D).
Qed.

(** *** Validators *)

Lemma validate_attr_dec (x : attribute payload) : {n | cls_id (at_class x) = CValidate n} + {~ validate_attribute x}.
Proof. destruct (cls_id (at_class x)) eqn:E; try (right; intros [? ?]; congruence). left. exists n. reflexivity. Qed.

Lemma validators_agree l xs gs v :
  selected validate_attribute l xs ->
  Forall2 (fun x g => exists n, cls_id (at_class x) = CValidate n /\ at_data x (CValidate n) = PValidator g) xs gs ->
  f_validate_attrs l v = validate gs v.
Proof.
  intros S. revert gs. induction S as [|x l l' Hx S IH|x l l' Hx S IH]; intros gs F.
  - inversion F; subst. reflexivity.
  - inversion F as [|? g ? gs' (n & E1 & E2) F']; subst. cbn. unfold is_validate. rewrite E1, E2.
    destruct (g v); try reflexivity. apply IH. exact F'.
  - cbn. assert (E0 : is_validate x = None).
    { unfold is_validate. destruct (cls_id (at_class x)) eqn:E; try reflexivity. exfalso. apply Hx. exists n. exact E. }
    rewrite E0. apply IH. exact F.
Qed.

Lemma validate_agrees f a (D : described f a) v : f_validate_field f v = validate (a_validators a) v.
Proof. destruct (d_validators _ _ D) as (xs & S & F). exact (validators_agree _ _ _ _ S F). Qed.

Lemma then_validate_agrees f a (D : described f a) r : f_then_validate f r = then_validate a r.
Proof. destruct r as [v [e|]]; cbn; [reflexivity|]. rewrite (validate_agrees f a D). reflexivity. Qed.

Lemma read_agrees f a (W : well_formed f) (D : described f a) rd ms v :
  f_read_field f rd ms v = Ok (read_field a rd ms v).
Proof.
  unfold f_read_field, read_field. rewrite (resolve_agrees f a W D). cbn [obind].
  destruct (resolve_field_name ms a) as [n|].
  - unfold apply_null_field_policy. rewrite (default_agrees f a W D).
    destruct (is_null (at_field ms n)); [destruct (a_default a)|]; rewrite ?(then_validate_agrees f a D); reflexivity.
  - unfold apply_missing_field_policy. rewrite (default_agrees f a W D), (flag f _ _ (d_allow_missing _ _ D)).
    destruct (a_default a); cbn [negb andb]; [reflexivity|].
    destruct (a_allow_missing a); [reflexivity|].
    rewrite (name_agrees f a W D). cbn [obind]. rewrite (then_validate_agrees f a D). reflexivity.
Qed.

Lemma patch_agrees f a (W : well_formed f) (D : described f a) pt ms v :
  f_patch_field f pt ms v = Ok (patch_field a pt ms v).
Proof.
  unfold f_patch_field, patch_field. rewrite (resolve_agrees f a W D). cbn [obind].
  destruct (resolve_field_name ms a) as [n|]; [|reflexivity].
  unfold apply_null_field_policy. rewrite (default_agrees f a W D).
  destruct (is_null (at_field ms n)); [destruct (a_default a)|]; rewrite ?(then_validate_agrees f a D); reflexivity.
Qed.

Lemma keys_in_order xs ks : Forall2 (fun x k => at_data x CChildKeyBase = PKey k) xs ks -> flat_map key_in xs = ks.
Proof.
  induction 1 as [|x k xs ks E F IH]; [reflexivity|]. cbn. unfold key_in at 1. rewrite E. cbn. f_equal. exact IH.
Qed.

Lemma keys_agree f a (D : described f a) : f_child_keys f = a_child_keys a.
Proof.
  destruct (d_child_keys _ _ D) as (xs & S & F). unfold f_child_keys.
  rewrite (selected_unique _ _ _ _ (visit_of_selected CChildKeyBase (s_attrs f)) S). apply keys_in_order. exact F.
Qed.

Lemma attributes_refine_lemma f a : well_formed f -> described f a ->
  f_serialized_name f = Ok (serialized_name a) /\
  (forall skip v, f_skip_serialized_field skip f v = skip_serialized_field skip a v) /\
  (forall ms, f_resolve_field_name ms f = Ok (resolve_field_name ms a)) /\
  (forall rd ms v, f_read_field f rd ms v = Ok (read_field a rd ms v)) /\
  (forall pt ms v, f_patch_field f pt ms v = Ok (patch_field a pt ms v)) /\
  (forall r, f_then_validate f r = then_validate a r) /\
  f_reserved_names f = Ok (serialized_name a :: a_aliases a) /\
  f_child_keys f = a_child_keys a.
Proof.
  intros W D. split; [exact (name_agrees f a W D)|]. split; [exact (skip_agrees f a D)|].
  split; [exact (resolve_agrees f a W D)|]. split; [exact (read_agrees f a W D)|].
  split; [exact (patch_agrees f a W D)|]. split; [exact (then_validate_agrees f a D)|].
  split; [exact (reserved_agrees f a W D) | exact (keys_agree f a D)].
Qed.

(** Every list of attributes has a record. *)
Definition record_of (f : srcfield) (init : val) : attrs :=
  mkattrs (s_name f)
    (option_map name_in (get CRename (s_attrs f)))
    (match get CAliases (s_attrs f) with Some x => aliases_in x | None => [] end)
    (has CSkipSer (s_attrs f)) (has CSkipDeser (s_attrs f)) (has CEmitNull (s_attrs f)) (has CSkipIfNull (s_attrs f))
    (has CSkipIfEmpty (s_attrs f)) (has CAllowMissing (s_attrs f))
    (first_default (s_attrs f))
    (flat_map (fun x => match is_validate x with Some g => [g] | None => [] end) (s_attrs f))
    (has CFlatten (s_attrs f)) (has CExtra (s_attrs f)) init
    (has CReadOnly (s_attrs f)) (has CSubtreeReadOnly (s_attrs f))
    (f_child_keys f).

Lemma selected_validators l : (forall x, In x l -> holds x) ->
  exists xs, selected validate_attribute l xs /\
    Forall2 (fun x g => exists n, cls_id (at_class x) = CValidate n /\ at_data x (CValidate n) = PValidator g) xs
            (flat_map (fun x => match is_validate x with Some g => [g] | None => [] end) l).
Proof.
  induction l as [|x l IH]; intros W.
  - exists []. split; constructor.
  - destruct IH as (xs & S & F); [intros y Hy; apply W; right; exact Hy|].
    destruct (validate_attr_dec x) as [[n En] | Hn].
    + destruct (h_validate _ (W x (or_introl eq_refl)) n En) as [g Hg].
      exists (x :: xs). split; [constructor; [exists n; exact En | exact S]|].
      cbn. unfold is_validate at 1. rewrite En, Hg. cbn. constructor; [exists n; split; assumption | exact F].
    + exists xs. split; [constructor; assumption|]. cbn.
      assert (E0 : is_validate x = None).
      { unfold is_validate. destruct (cls_id (at_class x)) eqn:E; try reflexivity. exfalso. apply Hn. exists n. exact E. }
      rewrite E0. exact F.
Qed.

Lemma selected_in {A} (Q : A -> Prop) l l' : selected Q l l' -> forall x, In x l' -> In x l /\ Q x.
Proof.
  induction 1 as [|y l l' Hy S IH|y l l' Hy S IH]; intros x Hx.
  - destruct Hx.
  - destruct Hx as [<- | Hx]; [split; [left; reflexivity | exact Hy]|]. destruct (IH x Hx). split; [right; assumption | assumption].
  - destruct (IH x Hx). split; [right; assumption | assumption].
Qed.

Lemma record_of_described f init : well_formed f -> described f (record_of f init).
Proof.
  intros W. constructor; cbn; try apply has_asked.
  - reflexivity.
  - intros s. split.
    + intros E. destruct (get CRename (s_attrs f)) as [x|] eqn:Eg; [|discriminate]. apply get_iff in Eg.
      exists x. split; [exact Eg|]. destruct (first_in f _ _ Eg) as [Hin Hans]. destruct (h_rename _ (W x Hin) Hans) as [s' Hs].
      injection E as <-. unfold name_in. rewrite Hs. reflexivity.
    + intros (x & Hx & Hs). apply get_iff in Hx. rewrite Hx. cbn. unfold name_in. rewrite Hs. reflexivity.
  - split.
    + intros x l Hx Hl. apply get_iff in Hx. rewrite Hx. unfold aliases_in. rewrite Hl. reflexivity.
    + intros H. rewrite (proj2 (get_none _ _)); [reflexivity|]. apply not_true_iff_false. rewrite has_asked. exact H.
  - intros v. apply (first_default_iff _ W).
  - apply selected_validators. exact W.
  - exists (visit_attributes_of CChildKeyBase (s_attrs f)). pose proof (visit_of_selected CChildKeyBase (s_attrs f)) as S.
    split; [exact S|]. unfold f_child_keys. pose proof (selected_in _ _ _ S) as Hin. clear S.
    induction (visit_attributes_of CChildKeyBase (s_attrs f)) as [|x xs IH]; [constructor|].
    cbn. destruct (Hin x (or_introl eq_refl)) as [H1 H2]. destruct (h_key _ (W x H1) H2) as [k Hk].
    unfold key_in at 1. rewrite Hk. cbn. constructor; [exact Hk|]. apply IH. intros y Hy. apply Hin. right. exact Hy.
Qed.

Lemma attributes_describable_lemma f init : well_formed f -> exists a, described f a /\ a_init a = init.
Proof. intros W. exists (record_of f init). split; [exact (record_of_described f init W) | reflexivity]. Qed.
