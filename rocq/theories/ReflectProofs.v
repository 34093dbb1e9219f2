(** Proofs about reflection. *)
From Coq Require Import List NArith Arith Bool Sorted Lia.
From Verif Require Import PathModel ReflectModel ReflectSpec.
Import ListNotations.

(* ------------------------------------------------------------------ *)
(** ** Classes *)

Lemma cid_eqb_true a b : cid_eqb a b = true <-> a = b.
Proof.
  unfold cid_eqb. rewrite andb_true_iff, !N.eqb_eq. split.
  - intros [H1 H2]. destruct a, b; cbn in *; try discriminate; subst; reflexivity.
  - intros ->. split; reflexivity.
Qed.

Lemma cid_eqb_refl a : cid_eqb a a = true.
Proof. apply cid_eqb_true. reflexivity. Qed.

Lemma list_eqb_true (a b : list cid) : list_eqb cid_eqb a b = true <-> a = b.
Proof.
  revert b. induction a as [|x a IH]; intros [|y b]; cbn; split; try discriminate; try reflexivity.
  - rewrite andb_true_iff, cid_eqb_true, IH. intros [-> ->]. reflexivity.
  - intros E. injection E as -> ->. rewrite cid_eqb_refl. apply IH. reflexivity.
Qed.

Lemma sub_eqb_true a b : sub_eqb a b = true <-> a = b.
Proof.
  unfold sub_eqb. rewrite andb_true_iff, Bool.eqb_true_iff, list_eqb_true.
  destruct a, b; cbn. split; [intros [-> ->]; reflexivity | intros E; injection E as -> ->; split; reflexivity].
Qed.

Section ClsInd.
Context (Q : cls -> Prop).
Context (H : forall i bs, (forall b, In b bs -> Q (snd b)) -> Q (Cls i bs)).
Fixpoint cls_ind0 (u : cls) : Q u.
Proof.
  destruct u as [i bs]. apply H. induction bs as [|b bs IH].
  - intros b [].
  - intros b' [<- | H']; [apply cls_ind0 | exact (IH _ H')].
Defined.
End ClsInd.

Lemma subobjects_iff u : forall s, In s (subobjects u) <-> subobject u s.
Proof.
  induction u as [i bs IH] using cls_ind0. intros s. cbn. rewrite in_flat_map. split.
  - intros [<- | (b & Hb & Hs)]; [constructor|]. apply in_map_iff in Hs. destruct Hs as (s0 & E & Hs).
    apply (IH _ Hb) in Hs. destruct b as [[virt pub] c], s0 as [v p]. cbn in *. unfold via in E. cbn in E.
    destruct virt, v; cbn in E; subst s.
    + eapply sub_shared; eassumption.
    + eapply sub_virtual; eassumption.
    + eapply sub_shared; eassumption.
    + eapply sub_nonvirtual; eassumption.
  - intros Hs. inversion Hs as [? ? | ? ? pub c p Hb Hc | ? ? pub c p Hb Hc | ? ? virt pub c p Hb Hc]; subst.
    + left. reflexivity.
    + right. exists (false, pub, c). split; [assumption|]. cbn. apply in_map_iff. exists (false, p). split; [reflexivity|].
      apply (IH _ Hb). assumption.
    + right. exists (true, pub, c). split; [assumption|]. cbn. apply in_map_iff. exists (false, p). split; [reflexivity|].
      apply (IH _ Hb). assumption.
    + right. exists (virt, pub, c). split; [assumption|]. cbn. apply in_map_iff. exists (true, p).
      split; [unfold via; cbn; destruct virt; reflexivity|]. apply (IH _ Hb). assumption.
Qed.

Lemma subobject_nonempty u s : subobject u s -> snd s <> [].
Proof. induction 1; cbn in *; congruence. Qed.

Lemma sub_class_iff u s t : subobject u s -> (cid_eqb (sub_class s) t = true <-> of_class s t).
Proof.
  intros Hs. apply subobject_nonempty in Hs. rewrite cid_eqb_true. unfold sub_class, of_class. split.
  - intros <-. exists (removelast (snd s)). apply app_removelast_last. exact Hs.
  - intros [p E]. rewrite E. apply last_last.
Qed.

Lemma dedup_in l : forall s, In s (dedup l) <-> In s l.
Proof.
  induction l as [|x l IH]; intros s; cbn; [reflexivity|].
  destruct (existsb (sub_eqb x) l) eqn:E.
  - rewrite IH. split; [intros H; right; exact H|]. intros [<- | H]; [|exact H].
    apply existsb_exists in E. destruct E as (y & Hy & E). apply sub_eqb_true in E. subst y. exact Hy.
  - cbn. rewrite IH. reflexivity.
Qed.

Lemma dedup_nodup l : NoDup (dedup l).
Proof.
  induction l as [|x l IH]; cbn; [constructor|].
  destruct (existsb (sub_eqb x) l) eqn:E; [exact IH|]. constructor; [|exact IH].
  rewrite dedup_in. intros H. rewrite <- not_true_iff_false in E. apply E. apply existsb_exists.
  exists x. split; [exact H | apply sub_eqb_true; reflexivity].
Qed.

Lemma find_base_in t u s : In s (find_base t u) <-> subobject u s /\ of_class s t.
Proof.
  unfold find_base. rewrite dedup_in, filter_In, subobjects_iff. split.
  - intros [H1 H2]. split; [exact H1|]. apply (sub_class_iff u s t H1). exact H2.
  - intros [H1 H2]. split; [exact H1|]. apply (sub_class_iff u s t H1). exact H2.
Qed.

Lemma find_base_one t u s : find_base t u = [s] <-> only_base t u s.
Proof.
  split.
  - intros E. assert (H : In s (find_base t u)) by (rewrite E; left; reflexivity).
    apply find_base_in in H. destruct H as [H1 H2]. repeat split; [exact H1 | exact H2 |].
    intros s' H1' H2'. assert (H : In s' (find_base t u)) by (apply find_base_in; split; assumption).
    rewrite E in H. destruct H as [<- | []]. reflexivity.
  - intros (H1 & H2 & H3).
    assert (Hin : In s (find_base t u)) by (apply find_base_in; split; assumption).
    pose proof (dedup_nodup (filter (fun s => cid_eqb (sub_class s) t) (subobjects u))) as ND.
    change (dedup _) with (find_base t u) in ND.
    assert (Hall : forall s', In s' (find_base t u) -> s' = s).
    { intros s' H. apply find_base_in in H. destruct H. apply H3; assumption. }
    destruct (find_base t u) as [|x [|y l]].
    + destruct Hin.
    + rewrite (Hall x) by (left; reflexivity). reflexivity.
    + exfalso. pose proof (Hall x (or_introl eq_refl)). pose proof (Hall y (or_intror (or_introl eq_refl))).
      subst x y. inversion ND as [|? ? Hn _]; subst. apply Hn. left. reflexivity.
Qed.

Lemma accessible_iff t u : accessible t u = true <-> public_base t u.
Proof.
  induction u as [i bs IH] using cls_ind0. cbn. rewrite orb_true_iff, cid_eqb_true, existsb_exists. split.
  - intros [-> | ([[virt pub] c] & Hb & E)]; [constructor|]. cbn in E. apply andb_true_iff in E. destruct E as [-> E].
    eapply pb_base; [exact Hb|]. apply (IH _ Hb). exact E.
  - intros H. inversion H as [bs' | i' bs' virt c Hb Hc]; subst; [left; reflexivity|].
    right. exists (virt, true, c). split; [exact Hb|]. cbn. apply (IH _ Hb). exact Hc.
Qed.

Lemma upcast_iff t u s : upcast t u = Some s <-> only_base t u s /\ public_base t u.
Proof.
  unfold upcast. rewrite <- find_base_one, <- accessible_iff. split.
  - intros E. destruct (find_base t u) as [|x [|y l]]; try discriminate.
    destruct (accessible t u); [|discriminate]. injection E as <-. split; reflexivity.
  - intros [-> ->]. reflexivity.
Qed.

Lemma matches_iff t u : attribute_matches t u = true <-> answers t u.
Proof.
  unfold attribute_matches, answers. rewrite orb_true_iff, cid_eqb_true. split.
  - intros [-> | E]; [left; reflexivity|]. right. destruct (upcast t u) as [s|] eqn:Eu; [|discriminate].
    apply upcast_iff in Eu. destruct Eu as [H1 H2]. split; [exact H2 | exists s; exact H1].
  - intros [-> | [H1 [s H2]]]; [left; reflexivity|]. right.
    rewrite (proj2 (upcast_iff t u s) (conj H2 H1)). reflexivity.
Qed.

Lemma matches_false t u : attribute_matches t u = false <-> ~ answers t u.
Proof. rewrite <- matches_iff. symmetry. apply not_true_iff_false. Qed.

(* ------------------------------------------------------------------ *)
(** ** Queries *)

Section Fields.
Context {P T : Type}.
Notation attribute := (attribute P).
Notation factory := (factory P).
Notation member := (member P T).
Notation record := (record P T).
Implicit Types (a : attribute) (l : list attribute) (m : member) (r : record).

Lemma has_iff q l : has q l = true <-> exists a, In a l /\ answers q (at_class a).
Proof.
  unfold has. rewrite existsb_exists. split; intros (a & H1 & H2); exists a; (split; [exact H1 | apply matches_iff; exact H2]).
Qed.

Lemma get_iff q l a : get q l = Some a <-> first_such (fun a => answers q (at_class a)) l a.
Proof.
  unfold first_such. induction l as [|x l IH]; cbn.
  - split; [discriminate|]. intros (b & c & E & _). destruct b; discriminate.
  - destruct (attribute_matches q (at_class x)) eqn:E.
    + apply matches_iff in E. split.
      * intros H. injection H as <-. exists [], l. repeat split; [exact E | intros y []].
      * intros (b & c & Eq & H1 & H2). destruct b as [|y b]; cbn in Eq; injection Eq as -> Eq; [reflexivity|].
        exfalso. apply (H2 y); [left; reflexivity | exact E].
    + apply matches_false in E. rewrite IH. split.
      * intros (b & c & -> & H1 & H2). exists (x :: b), c. repeat split; [exact H1|].
        intros y [<- | Hy]; [exact E | exact (H2 y Hy)].
      * intros (b & c & Eq & H1 & H2). destruct b as [|y b]; cbn in Eq; injection Eq as -> Eq; [contradiction|].
        exists b, c. repeat split; [exact Eq | exact H1|]. intros z Hz. apply H2. right. exact Hz.
Qed.

Lemma get_none q l : get q l = None <-> has q l = false.
Proof.
  induction l as [|x l IH]; cbn; [split; reflexivity|].
  destruct (attribute_matches q (at_class x)); cbn; [split; discriminate | exact IH].
Qed.

Lemma selected_filter {A} (Q : A -> Prop) (f : A -> bool) (Hf : forall x, f x = true <-> Q x) (xs : list A) :
  selected Q xs (filter f xs).
Proof.
  induction xs as [|x xs IH]; cbn; [constructor|].
  destruct (f x) eqn:E; constructor; try exact IH.
  - apply Hf. exact E.
  - rewrite <- Hf, E. discriminate.
Qed.

Lemma selected_unique {A} (Q : A -> Prop) (xs ys zs : list A) : selected Q xs ys -> selected Q xs zs -> ys = zs.
Proof.
  intros H. revert zs. induction H; intros zs Hz; inversion Hz; subst; try contradiction; try reflexivity.
  - f_equal. auto.
  - auto.
Qed.

Lemma flat_map_filter (f : attribute -> bool) l : flat_map (fun a => if f a then [a] else []) l = filter f l.
Proof. induction l as [|a l IH]; cbn; [reflexivity|]. rewrite IH. destruct (f a); reflexivity. Qed.

Lemma visit_of_filter q l : visit_attributes_of q l = filter (fun a => attribute_matches q (at_class a)) l.
Proof.
  unfold visit_attributes_of. rewrite flat_map_filter. destruct (has q l) eqn:E; [reflexivity|].
  unfold has in E. induction l as [|a l IH]; cbn in *; [reflexivity|].
  apply orb_false_iff in E. destruct E as [-> E]. exact (IH E).
Qed.

Lemma visit_of_selected q l : selected (fun a => answers q (at_class a)) l (visit_attributes_of q l).
Proof. rewrite visit_of_filter. apply selected_filter. intros a. apply matches_iff. Qed.

Lemma queries_exact_lemma q l :
  (has q l = true <-> exists a, In a l /\ answers q (at_class a)) /\
  (forall a, get q l = Some a <-> first_such (fun a => answers q (at_class a)) l a) /\
  (get q l = None <-> ~ exists a, In a l /\ answers q (at_class a)) /\
  selected (fun a => answers q (at_class a)) l (visit_attributes_of q l) /\
  visit_attributes l = l.
Proof.
  split; [apply has_iff|]. split; [intros a; apply get_iff|]. split.
  - rewrite get_none, <- has_iff. symmetry. apply not_true_iff_false.
  - split; [apply visit_of_selected | reflexivity].
Qed.

(** ** Filters *)

Lemma keep_iff q qs c : In q qs -> attribute_matches q c = true -> keep (AnyAttribute qs) c = true.
Proof.
  intros H E. destruct qs as [|x qs]; [destruct H|]. cbn [keep]. apply existsb_exists. exists q. split; assumption.
Qed.

Lemma keep_any qs c : keep (AnyAttribute qs) c = true <-> exists q, In q qs /\ answers q c.
Proof.
  destruct qs as [|x qs].
  - cbn. split; [discriminate | intros (q & [] & _)].
  - unfold keep. rewrite existsb_exists. split; intros (q & H1 & H2); exists q; (split; [exact H1 | apply matches_iff; exact H2]).
Qed.

Definition kept (F : attribute_filter) (fas : list factory) : list attribute :=
  filter (fun a => keep F (at_class a)) (map (@fa_attr P) fas).

Lemma sequence_some {A} (l : list (option A)) ys : sequence l = Some ys <-> l = map Some ys.
Proof.
  revert ys. induction l as [|x l IH]; intros ys; cbn.
  - split; [intros E; injection E as <-; reflexivity | destruct ys; [reflexivity | discriminate]].
  - destruct x as [x|].
    + destruct (sequence l) as [zs|].
      * split.
        -- intros E. injection E as <-. cbn. f_equal. apply IH. reflexivity.
        -- intros E. destruct ys as [|y ys]; [discriminate|]. cbn in E. injection E as -> E.
           apply IH in E. injection E as ->. reflexivity.
      * split; [discriminate|]. intros E. destruct ys as [|y ys]; [discriminate|]. cbn in E. injection E as -> E.
        apply IH in E. discriminate.
    + split; [discriminate|]. intros E. destruct ys; discriminate.
Qed.

Lemma sequence_none {A} (l : list (option A)) : sequence l = None <-> In None l.
Proof.
  induction l as [|x l IH]; cbn; [split; [discriminate | intros []]|].
  destruct x as [x|]; [|split; [left; reflexivity | reflexivity]].
  destruct (sequence l).
  - split; [discriminate|]. intros [E | E]; [discriminate | apply IH in E; discriminate].
  - split; [|reflexivity]. intros _. right. apply IH. reflexivity.
Qed.

(** Calling the factories of the kept attributes is a constant expression. *)
Definition constant_kept (F : attribute_filter) (fas : list factory) : bool :=
  forallb (fun fa => negb (keep F (at_class (fa_attr fa))) || fa_const fa) fas.

Lemma filter_attributes_eq const F fas :
  filter_attributes const F fas = if negb const || constant_kept F fas then Some (kept F fas) else None.
Proof.
  unfold filter_attributes, constant_kept, kept. induction fas as [|fa fas IH]; cbn.
  - rewrite orb_true_r. reflexivity.
  - unfold filter_one_attribute at 1, call.
    destruct (keep F (at_class (fa_attr fa))); cbn.
    + destruct const; cbn in *.
      * destruct (fa_const fa); cbn; [|reflexivity].
        destruct (sequence _) as [ys|]; cbn in *; destruct (forallb _ fas); try discriminate; [|reflexivity].
        injection IH as IH. rewrite IH. reflexivity.
      * destruct (sequence _) as [ys|]; cbn in *; [|discriminate]. injection IH as IH. rewrite IH. reflexivity.
    + destruct const; cbn in *.
      * destruct (sequence _) as [ys|]; cbn in *; destruct (forallb _ fas); try discriminate; [|reflexivity].
        exact IH.
      * destruct (sequence _) as [ys|]; cbn in *; [|discriminate]. exact IH.
Qed.

Lemma filter_twice q qs l :
  In q qs ->
  filter (fun a => attribute_matches q (at_class a)) (filter (fun a => keep (AnyAttribute qs) (at_class a)) l) =
  filter (fun a => attribute_matches q (at_class a)) l.
Proof.
  intros H. induction l as [|a l IH]; cbn [filter]; [reflexivity|].
  destruct (attribute_matches q (at_class a)) eqn:E.
  - rewrite (keep_iff q qs _ H E). cbn [filter]. rewrite E, IH. reflexivity.
  - destruct (keep (AnyAttribute qs) (at_class a)); cbn [filter]; [rewrite E|]; exact IH.
Qed.

Lemma has_filter q l : has q l = match filter (fun a => attribute_matches q (at_class a)) l with [] => false | _ => true end.
Proof.
  unfold has. induction l as [|a l IH]; cbn; [reflexivity|].
  destruct (attribute_matches q (at_class a)); cbn; [reflexivity | exact IH].
Qed.

Lemma get_filter q l : get q l = hd_error (filter (fun a => attribute_matches q (at_class a)) l).
Proof.
  induction l as [|a l IH]; cbn; [reflexivity|].
  destruct (attribute_matches q (at_class a)); cbn; [reflexivity | exact IH].
Qed.

(** ** Order *)

Section RecInd.
Context (Q : record -> Prop).
Context (H : forall c bs ms, (forall b, In b bs -> Q b) -> Q (Rec c bs ms)).
Fixpoint record_ind0 (r : record) : Q r.
Proof.
  destruct r as [c bs ms]. apply H. induction bs as [|b bs IH].
  - intros b [].
  - intros b' [<- | H']; [apply record_ind0 | exact (IH _ H')].
Defined.
End RecInd.

(** The positions of a record, as they are visited. *)
Definition below (k : nat) (p : position) : position := (k :: fst p, snd p).

Fixpoint positions (r : record) : list position :=
  match r with
  | Rec _ bs ms =>
      (fix go (k : nat) (bs : list record) : list position :=
         match bs with
         | [] => []
         | b :: bs' => map (below k) (positions b) ++ go (S k) bs'
         end) 0 bs ++ map (fun i => ([], i)) (seq 0 (length ms))
  end.

Definition positions_bases :=
  fix go (k : nat) (bs : list record) : list position :=
    match bs with
    | [] => []
    | b :: bs' => map (below k) (positions b) ++ go (S k) bs'
    end.

Lemma positions_eq c bs ms :
  positions (Rec c bs ms) = positions_bases 0 bs ++ map (fun i => ([], i)) (seq 0 (length ms)).
Proof. reflexivity. Qed.

Lemma positions_bases_in k bs p :
  In p (positions_bases k bs) <-> exists j b p', nth_error bs j = Some b /\ In p' (positions b) /\ p = below (k + j) p'.
Proof.
  revert k. induction bs as [|b bs IH]; intros k; cbn.
  - split; [intros [] | intros (j & b & p' & E & _); destruct j; discriminate].
  - rewrite in_app_iff, in_map_iff, IH. split.
    + intros [(p' & <- & H) | (j & b' & p' & E & H & ->)].
      * exists 0, b, p'. rewrite Nat.add_0_r. repeat split. exact H.
      * exists (S j), b', p'. rewrite Nat.add_succ_r. repeat split; assumption.
    + intros (j & b' & p' & E & H & ->). destruct j as [|j]; cbn in E.
      * injection E as ->. left. exists p'. rewrite Nat.add_0_r. split; [reflexivity | exact H].
      * right. exists j, b', p'. rewrite Nat.add_succ_r. repeat split; assumption.
Qed.

Lemma positions_declared r : forall p, In p (positions r) <-> declared_at r p <> None.
Proof.
  induction r as [c bs ms IH] using record_ind0. intros [path i]. rewrite positions_eq, in_app_iff, positions_bases_in, in_map_iff.
  unfold declared_at. cbn [fst snd]. destruct path as [|k path]; cbn [declared].
  - split.
    + intros [(j & b & p' & _ & _ & E) | (i' & E & H)]; [discriminate|]. injection E as ->. apply in_seq in H. cbn in H.
      apply nth_error_Some. lia.
    + intros H. right. exists i. split; [reflexivity|]. apply nth_error_Some in H. apply in_seq. cbn. lia.
  - split.
    + intros [(j & b & [p' i'] & E & H & E') | (i' & E & _)]; [|discriminate].
      cbn in E'. injection E' as -> -> ->. rewrite E. apply (IH b (nth_error_In _ _ E)) in H. exact H.
    + intros H. left. destruct (nth_error bs k) as [b|] eqn:E; [|contradiction].
      exists k, b, (path, i). repeat split; [exact E|]. apply (IH b (nth_error_In _ _ E)). exact H.
Qed.

Lemma Forall2_impl {A B} (R S : A -> B -> Prop) xs ys : (forall x y, R x y -> S x y) -> Forall2 R xs ys -> Forall2 S xs ys.
Proof. intros H. induction 1; constructor; auto. Qed.

Lemma Forall2_length {A B} (R : A -> B -> Prop) xs ys : Forall2 R xs ys -> length xs = length ys.
Proof. induction 1; cbn; congruence. Qed.

Lemma StronglySorted_app {A} (R : A -> A -> Prop) (xs ys : list A) :
  StronglySorted R xs -> StronglySorted R ys -> (forall x y, In x xs -> In y ys -> R x y) -> StronglySorted R (xs ++ ys).
Proof.
  intros Hx Hy H. induction Hx as [|x xs Hx IH Hall]; cbn; [exact Hy|]. constructor.
  - apply IH. intros a b Ha Hb. apply H; [right; exact Ha | exact Hb].
  - apply Forall_app. split; [exact Hall|]. apply Forall_forall. intros y Hyy. apply H; [left; reflexivity | exact Hyy].
Qed.

Lemma StronglySorted_map {A B} (R : A -> A -> Prop) (S : B -> B -> Prop) (f : A -> B) (xs : list A) :
  (forall x y, R x y -> S (f x) (f y)) -> StronglySorted R xs -> StronglySorted S (map f xs).
Proof.
  intros H Hx. induction Hx as [|x xs Hx IH Hall]; cbn; constructor; [exact IH|].
  rewrite Forall_map. eapply Forall_impl; [|exact Hall]. intros a Ha. apply H. exact Ha.
Qed.

Lemma seq_sorted k n : StronglySorted lt (seq k n).
Proof.
  revert k. induction n as [|n IH]; intros k; cbn; constructor; [apply IH|].
  apply Forall_forall. intros x Hx. apply in_seq in Hx. lia.
Qed.

Lemma positions_sorted r : StronglySorted earlier (positions r).
Proof.
  induction r as [c bs ms IH] using record_ind0. rewrite positions_eq. apply StronglySorted_app.
  - generalize 0. induction bs as [|b bs IHb]; intros k; cbn; [constructor|]. apply StronglySorted_app.
    + eapply StronglySorted_map; [|apply IH; left; reflexivity]. intros [x i] [y j] H. apply earlier_inside. exact H.
    + apply IHb. intros b' Hb'. apply IH. right. exact Hb'.
    + intros x y Hx Hy. apply in_map_iff in Hx. destruct Hx as (x' & <- & _).
      apply positions_bases_in in Hy. destruct Hy as (j & b' & y' & _ & _ & ->). unfold below. apply earlier_bases. lia.
  - eapply StronglySorted_map; [|apply seq_sorted]. intros x y H. apply earlier_field. exact H.
  - intros x y Hx Hy. apply in_map_iff in Hy. destruct Hy as (j & <- & _).
    apply positions_bases_in in Hx. destruct Hx as (k & b' & y' & _ & _ & ->). apply earlier_base.
Qed.

Lemma positions_enumerate r : enumerates r (positions r).
Proof. split; [apply positions_sorted | apply positions_declared]. Qed.

Lemma positions_visited {B} (f : member -> B) r :
  Forall2 (fun p x => exists m, declared_at r p = Some m /\ x = f m) (positions r) (reflect_struct_fields f r).
Proof.
  induction r as [c bs ms IH] using record_ind0. rewrite positions_eq. cbn [reflect_struct_fields]. apply Forall2_app.
  - assert (G : forall k, (forall j, nth_error bs j = nth_error bs (0 + j)) ->
      Forall2 (fun p x => exists j b path m, fst p = (k + j) :: path /\ nth_error bs j = Some b /\
                 declared b path (snd p) = Some m /\ x = f m)
        (positions_bases k bs) (flat_map (reflect_struct_fields f) bs)).
    { clear c ms. induction bs as [|b bs IHb]; intros k _; cbn; [constructor|]. apply Forall2_app.
      - assert (Hb := IH b (or_introl eq_refl)). remember (positions b) as ps. remember (reflect_struct_fields f b) as xs.
        clear Heqps Heqxs IHb IH. induction Hb as [|p x ps xs (m & E1 & E2) Hb IHH]; cbn; constructor; [|exact IHH].
        exists 0, b, (fst p), m. rewrite Nat.add_0_r. repeat split; assumption.
      - assert (IH' : forall b', In b' bs -> Forall2 (fun p x => exists m, declared_at b' p = Some m /\ x = f m) (positions b') (reflect_struct_fields f b'))
          by (intros b' Hb'; apply IH; right; exact Hb').
        specialize (IHb IH' (S k) (fun j => eq_refl)). eapply Forall2_impl; [|exact IHb].
        intros p x (j & b' & path & m & H1 & H2 & H3 & H4). exists (S j), b', path, m.
        rewrite Nat.add_succ_r. repeat split; assumption. }
    specialize (G 0 (fun j => eq_refl)). eapply Forall2_impl; [|exact G].
    intros [path i] x (j & b & path' & m & H1 & H2 & H3 & H4). cbn in H1, H3. subst path. exists m. split; [|exact H4].
    unfold declared_at. cbn [fst snd declared]. rewrite H2. exact H3.
  - clear IH. assert (G : forall ms0 k, (forall i, nth_error ms (k + i) = nth_error ms0 i) ->
      Forall2 (fun p x => exists m, declared_at (Rec c bs ms) p = Some m /\ x = f m)
        (map (fun i => ([], i)) (seq k (length ms0))) (map f ms0)).
    { induction ms0 as [|m ms0 IHm]; intros k Hk; cbn; constructor.
      - exists m. split; [|reflexivity]. unfold declared_at. cbn. specialize (Hk 0). rewrite Nat.add_0_r in Hk. exact Hk.
      - apply IHm. intros i. rewrite Nat.add_succ_comm. exact (Hk (S i)). }
    apply G. reflexivity.
Qed.

Lemma visited_map {B C} (f : member -> B) (g : B -> C) r :
  map g (reflect_struct_fields f r) = reflect_struct_fields (fun m => g (f m)) r.
Proof.
  induction r as [c bs ms IH] using record_ind0. cbn. rewrite map_app, map_map. f_equal.
  induction bs as [|b bs IHb]; cbn; [reflexivity|]. rewrite map_app, (IH b) by (left; reflexivity).
  f_equal. apply IHb. intros b' Hb'. apply IH. right. exact Hb'.
Qed.

Lemma visited_in {B} (f : member -> B) r x :
  In x (reflect_struct_fields f r) <-> exists p m, declared_at r p = Some m /\ x = f m.
Proof.
  pose proof (positions_visited f r) as H. split.
  - intros Hx. induction H as [|p y ps ys (m & E1 & E2) H IH]; [destruct Hx|].
    destruct Hx as [<- | Hx]; [exists p, m; split; assumption | exact (IH Hx)].
  - intros (p & m & E & ->). assert (Hp : In p (positions r)) by (apply positions_declared; congruence).
    induction H as [|p' y ps ys (m' & E1 & E2) H IH]; [destruct Hp|].
    destruct Hp as [-> | Hp]; [left; congruence | right; exact (IH Hp)].
Qed.

Lemma num_fields_length r : num_fields r = length (reflect_struct_fields (fun m => m) r).
Proof.
  unfold num_fields. induction r as [c bs ms IH] using record_ind0. cbn. rewrite app_length, map_length, Nat.add_comm. f_equal.
  induction bs as [|b bs IHb]; cbn; [reflexivity|]. rewrite app_length, <- (IH b) by (left; reflexivity). f_equal.
  apply IHb. intros b' Hb'. apply IH. right. exact Hb'.
Qed.

Lemma visited_length {B C} (f : member -> B) (g : member -> C) r :
  length (reflect_struct_fields f r) = length (reflect_struct_fields g r).
Proof.
  pose proof (Forall2_length _ _ _ (positions_visited f r)). pose proof (Forall2_length _ _ _ (positions_visited g r)). congruence.
Qed.

(** What [reflect_type] gives, when it compiles. *)
Definition type_field_of (F : attribute_filter) m : tfield P T := mktfield (m_name m) (m_type m) (kept F (m_attrs m)).

Lemma type_field_eq const F m :
  type_field const F m = if negb const || constant_kept F (m_attrs m) then Some (type_field_of F m) else None.
Proof.
  unfold type_field. rewrite filter_attributes_eq. destruct (negb const || _); reflexivity.
Qed.

Lemma visited_ext {B} (f g : member -> B) r :
  (forall p m, declared_at r p = Some m -> f m = g m) -> reflect_struct_fields f r = reflect_struct_fields g r.
Proof.
  intros H. pose proof (positions_visited f r) as Hf. pose proof (positions_visited g r) as Hg.
  revert Hg. generalize (reflect_struct_fields g r) as ys.
  induction Hf as [|p x ps xs (m & E1 & E2) Hf IH]; intros ys Hg; inversion Hg as [|? y ? ys' (m' & E3 & E4) Hg']; subst; [reflexivity|].
  rewrite E1 in E3. injection E3 as <-. f_equal; [apply (H p); exact E1 | apply IH; exact Hg'].
Qed.

Lemma reflect_type_some const F r fs :
  reflect_type const F r = Some fs -> fs = reflect_struct_fields (type_field_of F) r.
Proof.
  unfold reflect_type. rewrite sequence_some. intros E.
  assert (H : reflect_struct_fields (type_field const F) r = reflect_struct_fields (fun m => Some (type_field_of F m)) r).
  { apply visited_ext. intros p m Hm.
    assert (Hin : In (type_field const F m) (reflect_struct_fields (type_field const F) r))
      by (apply visited_in; exists p, m; split; [exact Hm | reflexivity]).
    rewrite E in Hin. apply in_map_iff in Hin. destruct Hin as (y & Hy & _).
    rewrite type_field_eq in *. destruct (negb const || _); [reflexivity | discriminate]. }
  rewrite H, <- (visited_map (type_field_of F) Some) in E.
  revert E. generalize (reflect_struct_fields (type_field_of F) r) as ys. clear H.
  induction fs as [|x fs IH]; intros [|y ys] E; try discriminate; [reflexivity|].
  cbn in E. injection E as -> E. f_equal. apply IH. exact E.
Qed.

Lemma constant_kept_true F fas :
  constant_kept F fas = true <-> forall fa, In fa fas -> keep F (at_class (fa_attr fa)) = true -> fa_const fa = true.
Proof.
  unfold constant_kept. rewrite forallb_forall. split; intros H fa Hfa; specialize (H fa Hfa).
  - intros E. rewrite E in H. exact H.
  - destruct (keep _ _); [cbn; apply H; reflexivity | reflexivity].
Qed.

Lemma reflect_type_compiles const F r :
  (exists fs, reflect_type const F r = Some fs) <->
  (const = true -> forall p m fa, declared_at r p = Some m -> In fa (m_attrs m) ->
                   keep F (at_class (fa_attr fa)) = true -> fa_const fa = true).
Proof.
  split.
  - intros [fs E] -> p m fa Hm Hfa Hk. unfold reflect_type in E. apply sequence_some in E.
    assert (Hin : In (type_field true F m) (reflect_struct_fields (type_field true F) r))
      by (apply visited_in; exists p, m; split; [exact Hm | reflexivity]).
    rewrite E in Hin. apply in_map_iff in Hin. destruct Hin as (y & Hy & _).
    rewrite type_field_eq in Hy. destruct (constant_kept F (m_attrs m)) eqn:Ec; [|discriminate].
    exact (proj1 (constant_kept_true _ _) Ec fa Hfa Hk).
  - intros H. destruct (reflect_type const F r) as [fs|] eqn:E; [exists fs; reflexivity|].
    exfalso. unfold reflect_type in E. apply sequence_none in E. apply visited_in in E. destruct E as (p & m & Hm & E).
    rewrite type_field_eq in E. destruct const; [|discriminate]. cbn in E.
    destruct (constant_kept F (m_attrs m)) eqn:Ec; [discriminate|].
    rewrite <- not_true_iff_false in Ec. apply Ec. apply constant_kept_true. intros fa Hfa Hk.
    exact (H eq_refl p m fa Hm Hfa Hk).
Qed.

(** What [fields_in_order] says. *)
Lemma kept_selected F fas :
  selected (fun a => keep F (at_class a) = true) (map (@fa_attr P) fas) (kept F fas).
Proof. apply selected_filter. intros a. reflexivity. Qed.

Lemma fields_in_order_lemma r :
  exists ps, enumerates r ps /\ length ps = num_fields r /\
    (forall const F fs, reflect_type const F r = Some fs ->
       Forall2 (fun p f => exists m, declared_at r p = Some m /\ tf_name f = m_name m /\ tf_type f = m_type m /\
                  selected (fun a => keep F (at_class a) = true) (map (@fa_attr P) (m_attrs m)) (tf_attrs f)) ps fs) /\
    Forall2 (fun p f => exists m, declared_at r p = Some m /\ of_name f = m_name m /\ of_type f = m_type m /\
               of_attrs f = map (@fa_attr P) (m_attrs m) /\
               forall x, of_value f = Some x <->
                 snd x = m_name m /\ only_base (m_decl m) (r_class r) (fst x) /\ public_base (m_decl m) (r_class r))
            ps (reflect_object r).
Proof.
  exists (positions r). split; [apply positions_enumerate|]. split; [|split].
  - rewrite num_fields_length. exact (Forall2_length _ _ _ (positions_visited (fun m => m) r)).
  - intros const F fs E. apply reflect_type_some in E. subst fs. eapply Forall2_impl; [|apply positions_visited].
    intros p f (m & H1 & ->). exists m. repeat split; [exact H1|]. apply kept_selected.
  - unfold reflect_object. eapply Forall2_impl; [|apply positions_visited].
    intros p f (m & H1 & ->). exists m. split; [exact H1|]. do 3 (split; [reflexivity|]). intros [s n]. cbn. split.
    + destruct (upcast (m_decl m) (r_class r)) as [s0|] eqn:E; [|discriminate]. cbn. intros H. injection H as -> <-.
      apply upcast_iff in E. split; [reflexivity | exact E].
    + intros (-> & H2 & H3). rewrite (proj2 (upcast_iff _ _ _) (conj H2 H3)). reflexivity.
Qed.

(** Each position is an element of the list at one place only. *)
Lemma earlier_irrefl p : ~ earlier p p.
Proof.
  destruct p as [path i]. induction path as [|k path IH]; intros H; inversion H; subst; try lia. exact (IH H1).
Qed.

Lemma sorted_nodup ps : StronglySorted earlier ps -> NoDup ps.
Proof.
  intros H. induction H as [|x xs H IH Hall]; constructor; [|exact IH].
  intros Hx. rewrite Forall_forall in Hall. exact (earlier_irrefl x (Hall x Hx)).
Qed.

Lemma visited_pairs {B C} (R : B -> C -> Prop) (f : member -> B) (g : member -> C) r :
  (forall m, R (f m) (g m)) -> Forall2 R (reflect_struct_fields f r) (reflect_struct_fields g r).
Proof.
  intros H. pose proof (positions_visited f r) as Hf. pose proof (positions_visited g r) as Hg.
  revert Hg. generalize (reflect_struct_fields g r) as ys.
  induction Hf as [|p x ps xs (m & E1 & E2) Hf IH]; intros ys Hg; inversion Hg as [|? y ? ys' (m' & E3 & E4) Hg']; subst; [constructor|].
  rewrite E1 in E3. injection E3 as <-. constructor; [apply H | apply IH; exact Hg'].
Qed.

Lemma filtered_view_agrees_lemma const qs r fs :
  reflect_type const (AnyAttribute qs) r = Some fs ->
  Forall2 (fun t o => tf_name t = of_name o /\ tf_type t = of_type o /\
             forall q, In q qs ->
               has q (tf_attrs t) = has q (of_attrs o) /\ get q (tf_attrs t) = get q (of_attrs o) /\
               visit_attributes_of q (tf_attrs t) = visit_attributes_of q (of_attrs o)) fs (reflect_object r).
Proof.
  intros E. apply reflect_type_some in E. subst fs. apply visited_pairs. intros m. repeat split; cbn [tf_attrs type_field_of of_attrs object_field].
  - rewrite !has_filter. unfold kept. rewrite filter_twice by assumption. reflexivity.
  - rewrite !get_filter. unfold kept. rewrite filter_twice by assumption. reflexivity.
  - rewrite !visit_of_filter. unfold kept. rewrite filter_twice by assumption. reflexivity.
Qed.

Lemma fold_any {A} (f : A -> bool) (xs : list A) b :
  fold_left (fun result x => if f x then true else result) xs b = b || existsb f xs.
Proof.
  revert b. induction xs as [|x xs IH]; intros b; cbn; [rewrite orb_false_r; reflexivity|].
  rewrite IH. destruct (f x), b; reflexivity.
Qed.

Lemma has_any_attribute_exact_lemma const r qs :
  (forall b, has_any_attribute const r qs = Some b ->
     (b = true <-> exists p m fa q, declared_at r p = Some m /\ In fa (m_attrs m) /\ In q qs /\
                                    answers q (at_class (fa_attr fa)))) /\
  ((exists b, has_any_attribute const r qs = Some b) <->
     (const = true -> forall p m fa q, declared_at r p = Some m -> In fa (m_attrs m) -> In q qs ->
                                       answers q (at_class (fa_attr fa)) -> fa_const fa = true)).
Proof.
  unfold has_any_attribute. split.
  - intros b E. destruct (reflect_type const (AnyAttribute qs) r) as [fs|] eqn:Er; [|discriminate].
    injection E as <-. apply reflect_type_some in Er. subst fs. rewrite fold_any. cbn [orb].
    rewrite existsb_exists. split.
    + intros (f & Hf & Hq). apply visited_in in Hf. destruct Hf as (p & m & Hm & ->).
      apply existsb_exists in Hq. destruct Hq as (q & Hq & Hh). apply has_iff in Hh. destruct Hh as (a & Ha & Hans).
      cbn in Ha. unfold kept in Ha. apply filter_In in Ha. destruct Ha as [Ha _]. apply in_map_iff in Ha.
      destruct Ha as (fa & <- & Hfa). exists p, m, fa, q. repeat split; assumption.
    + intros (p & m & fa & q & Hm & Hfa & Hq & Hans). exists (type_field_of (AnyAttribute qs) m). split.
      * apply visited_in. exists p, m. split; [exact Hm | reflexivity].
      * apply existsb_exists. exists q. split; [exact Hq|]. apply has_iff. exists (fa_attr fa). split; [|exact Hans].
        cbn. unfold kept. apply filter_In. split; [apply in_map; exact Hfa|]. apply keep_any. exists q. split; assumption.
  - assert (G : (exists fs, reflect_type const (AnyAttribute qs) r = Some fs) <->
      (exists b, match reflect_type const (AnyAttribute qs) r with
                 | Some fs => Some (fold_left (fun result f => if existsb (fun q => has q (tf_attrs f)) qs then true else result) fs false)
                 | None => None end = Some b)).
    { destruct (reflect_type const (AnyAttribute qs) r) as [fs|].
      - split; intros _; eexists; reflexivity.
      - split; intros [x Hx]; discriminate. }
    rewrite <- G, reflect_type_compiles. split; intros H Hc.
    + intros p m fa q Hm Hfa Hq Hans. apply (H Hc p m fa Hm Hfa). apply keep_any. exists q. split; assumption.
    + intros p m fa Hm Hfa Hk. apply keep_any in Hk. destruct Hk as (q & Hq & Hans).
      exact (H Hc p m fa q Hm Hfa Hq Hans).
Qed.

(* ------------------------------------------------------------------ *)
(** ** Places *)

(** The classes on the way to a position. *)
Fixpoint way (r : record) (path : list nat) : list cid :=
  match r, path with
  | Rec c _ _, [] => [cls_id c]
  | Rec c bs _, k :: path' => cls_id c :: match nth_error bs k with Some b => way b path' | None => [] end
  end.

Lemma way_subobject r : forall path i m,
  describes_class r -> no_virtual (r_class r) -> declared r path i = Some m ->
  subobject (r_class r) (false, way r path) /\ of_class (false, way r path) (m_decl m).
Proof.
  intros path. revert r. induction path as [|k path IH]; intros [c bs ms] i m Hd Hn Hm; inversion Hd as [? ? ? D1 D2 D3 D4 D5]; subst.
  - cbn in *. split.
    + destruct c. constructor.
    + exists []. cbn. rewrite (D1 m) by (eapply nth_error_In; exact Hm). reflexivity.
  - cbn in *. destruct (nth_error bs k) as [b|] eqn:E; [|discriminate].
    assert (Hb : In b bs) by (eapply nth_error_In; exact E).
    destruct (D3 b Hb) as (virt & pub & bases & j & -> & Hin).
    inversion Hn as [? ? Hv]; subst. destruct (Hv _ _ _ Hin) as [-> Hnb].
    destruct (IH b i m (D5 b Hb) Hnb Hm) as [H1 H2]. cbn. split.
    + eapply sub_nonvirtual; [exact Hin | exact H1].
    + destruct H2 as [q Hq]. cbn in Hq. exists (j :: q). cbn. rewrite Hq. reflexivity.
Qed.

Lemma way_nonempty r path : way r path <> [].
Proof. destruct r, path; discriminate. Qed.

Lemma way_injective r : forall path path' i i' m m',
  describes_class r -> declared r path i = Some m -> declared r path' i' = Some m' ->
  way r path = way r path' -> m_name m = m_name m' -> (path, i) = (path', i').
Proof.
  intros path. revert r. induction path as [|k path IH]; intros [c bs ms] path' i i' m m' Hd Hm Hm' Hw Hn;
    inversion Hd as [? ? ? D1 D2 D3 D4 D5]; subst; destruct path' as [|k' path']; cbn in Hm, Hm', Hw.
  - f_equal. pose proof (map_nth_error (@m_name P T) _ _ Hm) as E1. pose proof (map_nth_error (@m_name P T) _ _ Hm') as E2.
    rewrite Hn in E1. apply (proj1 (NoDup_nth_error _) D2); [|congruence]. apply nth_error_Some. congruence.
  - exfalso. destruct (nth_error bs k') as [b|]; [|discriminate]. injection Hw as Hw.
    exact (way_nonempty b path' (eq_sym Hw)).
  - exfalso. destruct (nth_error bs k) as [b|]; [|discriminate]. injection Hw as Hw.
    exact (way_nonempty b path Hw).
  - destruct (nth_error bs k) as [b|] eqn:E; [|discriminate]. destruct (nth_error bs k') as [b'|] eqn:E'; [|discriminate].
    injection Hw as Hw.
    assert (Hk : k = k').
    { pose proof (map_nth_error (fun b => cls_id (r_class b)) _ _ E) as E1.
      pose proof (map_nth_error (fun b => cls_id (r_class b)) _ _ E') as E2.
      assert (Hid : cls_id (r_class b) = cls_id (r_class b')).
      { destruct b as [cb bb mb], b' as [cb' bb' mb'], path, path'; cbn in Hw |- *; congruence. }
      cbv beta in E1, E2. rewrite Hid in E1. apply (proj1 (NoDup_nth_error _) D4); [|congruence].
      apply nth_error_Some. congruence. }
    subst k'. rewrite E in E'. injection E' as <-.
    specialize (IH b path' i i' m m' (D5 b (nth_error_In _ _ E)) Hm Hm' Hw Hn). congruence.
Qed.

Lemma Forall2_nth {A B} (R : A -> B -> Prop) xs ys i y :
  Forall2 R xs ys -> nth_error ys i = Some y -> exists x, nth_error xs i = Some x /\ R x y.
Proof.
  intros H. revert i. induction H as [|x y' xs ys Hxy H IH]; intros [|i] E; cbn in *; try discriminate.
  - injection E as ->. exists x. split; [reflexivity | exact Hxy].
  - exact (IH i E).
Qed.

Lemma places_differ_lemma r :
  describes_class r -> no_virtual (r_class r) ->
  forall i j f g x, nth_error (reflect_object r) i = Some f -> nth_error (reflect_object r) j = Some g ->
    of_value f = Some x -> of_value g = Some x -> i = j.
Proof.
  intros Hd Hn i j f g x Hf Hg Hl Hl'.
  pose proof (positions_visited (object_field (r_class r)) r) as H. fold (reflect_object r) in H.
  destruct (Forall2_nth _ _ _ _ _ H Hf) as ([path a] & Hp & m & Hm & ->).
  destruct (Forall2_nth _ _ _ _ _ H Hg) as ([path' a'] & Hp' & m' & Hm' & ->).
  unfold declared_at in Hm, Hm'. cbn in Hm, Hm', Hl, Hl'.
  destruct (upcast (m_decl m) (r_class r)) as [s|] eqn:E; [|discriminate].
  destruct (upcast (m_decl m') (r_class r)) as [s'|] eqn:E'; [|discriminate].
  cbn in Hl, Hl'. rewrite <- Hl in Hl'. injection Hl' as -> Hname.
  apply upcast_iff in E, E'. destruct E as [(_ & _ & U) _], E' as [(_ & _ & U') _].
  destruct (way_subobject r path a m Hd Hn Hm) as [W1 W2]. destruct (way_subobject r path' a' m' Hd Hn Hm') as [W1' W2'].
  pose proof (U _ W1 W2) as X. pose proof (U' _ W1' W2') as X'. rewrite <- X' in X. injection X as X.
  pose proof (way_injective r path path' a a' m m' Hd Hm Hm' X (eq_sym Hname)) as Y. rewrite Y in Hp.
  pose proof (sorted_nodup _ (positions_sorted r)) as ND.
  apply (proj1 (NoDup_nth_error _) ND); [|congruence]. apply nth_error_Some. congruence.
Qed.

End Fields.

(* ------------------------------------------------------------------ *)
(** ** Counterexamples *)

From Coq Require Import String.
From Verif Require Import ScalarSpec ReflectSamples.
Local Open Scope string_scope.
Local Open Scope list_scope.

Lemma derived_attribute_found_lemma : ~ forall u t, public_base t u -> attribute_matches t u = true.
Proof.
  intros H. specialize (H c_both CSkipSer).
  assert (Hb : public_base CSkipSer c_both) by (apply accessible_iff; vm_compute; reflexivity).
  specialize (H Hb). vm_compute in H. discriminate.
Qed.

Lemma describes_base : describes_class r_base.
Proof.
  constructor.
  - intros m [<- | [<- | []]]; reflexivity.
  - repeat constructor; cbn; intuition discriminate.
  - intros b [].
  - constructor.
  - intros b [].
Qed.

Lemma describes_left : describes_class r_left.
Proof.
  constructor.
  - intros m [<- | []]. reflexivity.
  - repeat constructor; cbn; intuition discriminate.
  - intros b [<- | []]. do 4 eexists. split; [reflexivity | left; reflexivity].
  - repeat constructor; cbn; intuition discriminate.
  - intros b [<- | []]. exact describes_base.
Qed.

Lemma describes_right : describes_class r_right.
Proof.
  constructor.
  - intros m [<- | []]. reflexivity.
  - repeat constructor; cbn; intuition discriminate.
  - intros b [<- | []]. do 4 eexists. split; [reflexivity | left; reflexivity].
  - repeat constructor; cbn; intuition discriminate.
  - intros b [<- | []]. exact describes_base.
Qed.

Lemma describes_diamond : describes_class r_diamond.
Proof.
  constructor.
  - intros m [<- | []]. reflexivity.
  - repeat constructor; cbn; intuition discriminate.
  - intros b [<- | [<- | []]]; do 4 eexists; (split; [reflexivity | cbn; eauto]).
  - repeat constructor; cbn; intuition discriminate.
  - intros b [<- | [<- | []]]; [exact describes_left | exact describes_right].
Qed.

Lemma describes_vdiamond : describes_class r_vdiamond.
Proof.
  constructor.
  - intros m [<- | []]. reflexivity.
  - repeat constructor; cbn; intuition discriminate.
  - intros b [<- | [<- | []]]; do 4 eexists; (split; [reflexivity | cbn; eauto]).
  - repeat constructor; cbn; intuition discriminate.
  - assert (H : forall i c, c = Cls i [(true, true, c_base)] -> describes_class (Rec c [r_base] [])).
    { intros i c ->. constructor.
      - intros m [].
      - constructor.
      - intros b [<- | []]. do 4 eexists. split; [reflexivity | left; reflexivity].
      - repeat constructor; cbn; intuition discriminate.
      - intros b [<- | []]. exact describes_base. }
    intros b [<- | [<- | []]]; apply (H _ _ eq_refl).
Qed.

Lemma describes_point : describes_class r_point.
Proof.
  constructor.
  - intros m [<- | [<- | []]]; reflexivity.
  - repeat constructor; cbn; intuition discriminate.
  - intros b [<- | [<- | []]]; do 4 eexists; (split; [reflexivity | cbn; eauto]).
  - repeat constructor; cbn; intuition discriminate.
  - intros b [<- | [<- | []]]; [exact describes_left|]. constructor.
    + intros m [<- | []]. reflexivity.
    + repeat constructor; cbn; intuition discriminate.
    + intros b [].
    + constructor.
    + intros b [].
Qed.

Lemma no_virtual_point : no_virtual c_point.
Proof.
  constructor. intros virt pub c [E | [E | []]]; injection E as <- <- <-; (split; [reflexivity|]);
    constructor; intros virt pub c H; cbn in H; try contradiction.
  destruct H as [E | []]. injection E as <- <- <-. split; [reflexivity|]. constructor. intros ? ? ? [].
Qed.

Lemma visited_once_lemma :
  ~ forall (r : record nat nat), describes_class r -> forall i j f g x,
      nth_error (reflect_object r) i = Some f -> nth_error (reflect_object r) j = Some g ->
      of_value f = Some x -> of_value g = Some x -> i = j.
Proof.
  intros H. specialize (H _ describes_vdiamond 0 2 _ _ ((true, [CUser 10]), codes "id") eq_refl eq_refl eq_refl eq_refl).
  discriminate.
Qed.

Lemma every_field_has_value_lemma :
  ~ forall (r : record nat nat), describes_class r -> forall f, In f (reflect_object r) -> of_value f <> None.
Proof.
  intros H. specialize (H _ describes_diamond _ (or_introl eq_refl)). apply H. vm_compute. reflexivity.
Qed.
