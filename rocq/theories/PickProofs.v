(** Which overload is taken: lemmas. *)
From Coq Require Import List Arith Bool Lia.
From Verif Require Import PickModel PickSpec.
Import ListNotations.

(** * Induction over types *)

Definition direct (t : ty) : list ty :=
  match t with
  | Ptr x | Arr x _ | Opt x => [x]
  | Tuple ts => ts
  | Pair x y => [x; y]
  | Class c fs conv base =>
      match c with Some k => k_item k :: match k_mapped k with Some x => [x] | None => [] end | None => [] end
      ++ match fs with Some l => l | None => [] end ++ conv ++ match base with Some x => [x] | None => [] end
  | _ => []
  end.

Fixpoint size (t : ty) : nat :=
  match t with
  | Ptr x | Arr x _ | Opt x => S (size x)
  | Tuple ts => S (list_sum (map size ts))
  | Pair x y => S (size x + size y)
  | Class c fs conv base =>
      S (match c with Some k => size (k_item k) + match k_mapped k with Some x => size x | None => 0 end | None => 0 end
         + match fs with Some l => list_sum (map size l) | None => 0 end
         + list_sum (map size conv) + match base with Some x => size x | None => 0 end)
  | _ => 1
  end.

Lemma size_in : forall l x, In x l -> size x <= list_sum (map size l).
Proof.
  induction l as [|y l IH]; intros x []; cbn [map list_sum fold_right].
  - subst. unfold list_sum. cbn [fold_right]. lia.
  - specialize (IH x H). unfold list_sum in *. cbn [fold_right]. lia.
Qed.

Lemma direct_smaller : forall t x, In x (direct t) -> size x < size t.
Proof.
  intros t x H. destruct t; cbn [direct] in H; try destruct H.
  - subst. cbn [size]. lia.
  - destruct H.
  - subst. cbn [size]. lia.
  - destruct H.
  - apply size_in in H. cbn [size]. lia.
  - subst. cbn [size]. lia.
  - destruct H as [<-|[]]. cbn [size]. lia.
  - subst. cbn [size]. lia.
  - destruct H.
  - cbn [size]. repeat (apply in_app_iff in H as [H|H]).
    + destruct c as [k|]; [|destruct H]. destruct H as [<-|H]; [lia|]. destruct (k_mapped k); [|destruct H]. destruct H as [<-|[]]. lia.
    + destruct fields as [l|]; [|destruct H]. apply size_in in H. lia.
    + apply size_in in H. lia.
    + destruct base; [|destruct H]. destruct H as [<-|[]]. lia.
Qed.

Lemma size_ind : forall P : ty -> Prop, (forall t, (forall x, size x < size t -> P x) -> P t) -> forall t, P t.
Proof.
  intros P H. assert (G : forall n t, size t < n -> P t).
  { induction n as [|n IH]; intros t L; [lia|]. apply H. intros x I. apply IH. lia. }
  intros t. exact (G (S (size t)) t (Nat.lt_succ_diag_r _)).
Qed.
Lemma ty_deep : forall P : ty -> Prop, (forall t, (forall x, In x (direct t) -> P x) -> P t) -> forall t, P t.
Proof.
  intros P H. assert (G : forall n t, size t < n -> P t).
  { induction n as [|n IH]; intros t L; [lia|]. apply H. intros x I. apply IH. pose proof (direct_smaller t x I). lia. }
  intros t. exact (G (S (size t)) t (Nat.lt_succ_diag_r _)).
Qed.

(** * A candidate that is better than all others *)

Lemma best_none : forall vs before y, In y before ->
  (forall x, In x vs -> better (fst (fst x), snd x) (fst (fst y), snd y) = false) -> best before vs = [].
Proof.
  induction vs as [|[[p a] i] vs IH]; intros before y I H; [reflexivity|]. cbn [best].
  replace (forallb _ (before ++ vs)) with false.
  - cbn [app]. apply (IH _ y); [apply in_app_iff; left; exact I|]. intros x J. apply H. right. exact J.
  - symmetry. apply not_true_iff_false. intros F. rewrite forallb_forall in F. specialize (F y (proj2 (in_app_iff _ _ _) (or_introl I))).
    specialize (H _ (or_introl eq_refl)). cbn [fst snd] in H. cbn beta in F. rewrite H in F. discriminate F.
Qed.

Lemma best_one : forall l1 p a i l2 before,
  (forall x, In x (before ++ l1 ++ l2) -> better (p, i) (fst (fst x), snd x) = true) ->
  (forall x, In x (l1 ++ l2) -> better (fst (fst x), snd x) (p, i) = false) ->
  best before (l1 ++ (p, a, i) :: l2) = [(a, i)].
Proof.
  induction l1 as [|[[q c] j] l1 IH]; intros p a i l2 before W L; cbn [app best].
  - replace (forallb _ (before ++ l2)) with true.
    + cbn [app]. rewrite (best_none l2 _ (p, a, i)); [reflexivity | apply in_app_iff; right; left; reflexivity|].
      intros x I. apply L. exact I.
    + symmetry. apply forallb_forall. intros x I. apply (W x). exact I.
  - replace (forallb _ (before ++ l1 ++ (p, a, i) :: l2)) with false.
    + cbn [app]. apply IH.
      * intros x I. apply W. rewrite <- app_assoc in I. exact I.
      * intros x I. apply L. right. exact I.
    + symmetry. apply not_true_iff_false. intros F. rewrite forallb_forall in F.
      pose proof (L (q, c, j) (or_introl eq_refl)) as B. cbn [fst snd] in B.
      specialize (F (p, a, i)). cbn [fst snd] in F. rewrite B in F.
      assert (X : false = true); [apply F|discriminate X]. apply in_app_iff. right. apply in_app_iff. right. left. reflexivity.
Qed.

Lemma viables_app : forall w t l1 l2, viables w t (l1 ++ l2) = viables w t l1 ++ viables w t l2.
Proof. intros. apply flat_map_app. Qed.
Lemma in_viables : forall w t cs x, In x (viables w t cs) -> exists c, In c cs /\ fst (fst x) = fst c /\ viable w t (fst c) = Some (snd x).
Proof.
  intros w t cs x H. apply in_flat_map in H as (c & I & H). exists c. split; [exact I|].
  destruct (viable w t (fst c)) as [i|]; [|destruct H]. destruct H as [<-|[]]. cbn. auto.
Qed.

(** A candidate with an exact match, all others with worse conversions. *)
Lemma resolve_exact : forall w t l1 p a l2, viable w t p = Some (Std Exact) ->
  (forall c j, In c (l1 ++ l2) -> viable w t (fst c) = Some j -> ics_lt (Std Exact) j = true) ->
  resolve w t (l1 ++ (p, a) :: l2) = Some a.
Proof.
  intros w t l1 p a l2 V H. unfold resolve. rewrite viables_app.
  assert (E : viables w t ((p, a) :: l2) = (p, a, Std Exact) :: viables w t l2) by (unfold viables; cbn [flat_map fst snd]; rewrite V; reflexivity).
  rewrite E, best_one; [reflexivity| |].
  - intros x I. cbn [app] in I. assert (J : ics_lt (Std Exact) (snd x) = true).
    { apply in_app_iff in I as [I|I]; apply in_viables in I as (c & I & _ & Y); apply (H c); try exact Y; apply in_app_iff; auto. }
    unfold better. cbn [snd]. rewrite J. reflexivity.
  - intros x I. assert (J : ics_lt (Std Exact) (snd x) = true).
    { apply in_app_iff in I as [I|I]; apply in_viables in I as (c & I & _ & Y); apply (H c); try exact Y; apply in_app_iff; auto. }
    unfold better. cbn [fst snd]. rewrite J. cbn [negb andb]. rewrite orb_false_r.
    destruct (snd x) as [[]| |]; try reflexivity; discriminate J.
Qed.

(** Two candidates with an exact match that takes any type. *)
Lemma best_tie : forall vs before,
  (forall x, In x vs -> exists y, In y (before ++ vs) /\ y <> x /\ better (fst (fst x), snd x) (fst (fst y), snd y) = false) ->
  NoDup vs -> (forall x, In x vs -> ~ In x before) -> best before vs = [].
Proof.
  induction vs as [|[[p a] i] vs IH]; intros before H D N; [reflexivity|]. cbn [best].
  inversion D as [|? ? D1 D2]. subst. replace (forallb _ (before ++ vs)) with false.
  - cbn [app]. apply IH; [| exact D2 |].
    + intros x I. destruct (H x (or_intror I)) as (y & J & Ne & B). exists y. split; [|auto].
      rewrite <- app_assoc. exact J.
    + intros x I J. apply in_app_iff in J as [J|[<-|[]]]; [exact (N x (or_intror I) J) | exact (D1 I)].
  - symmetry. apply not_true_iff_false. intros F. rewrite forallb_forall in F.
    destruct (H _ (or_introl eq_refl)) as (y & J & Ne & B). cbn [fst snd] in B.
    specialize (F y). cbn beta in F. rewrite B in F. assert (X : false = true); [apply F|discriminate X].
    apply in_app_iff in J as [J|[J|J]]; [apply in_app_iff; auto | exfalso; exact (Ne (eq_sym J)) | apply in_app_iff; auto].
Qed.

(** * Conversions of classes *)

Lemma standard_class : forall c fs conv base u s, standard (Class c fs conv base) u = Some s -> exists n, s = Base n.
Proof.
  intros c fs conv base u s H. cbn [standard] in H. destruct base as [b|]; [|discriminate H].
  destruct (to_class u); [|discriminate H]. destruct (standard b u) as [[]|]; try discriminate H; injection H as <-; eauto.
Qed.
Lemma best_user_not_std : forall l i, best_user l = Some i -> ics_lt (Std Exact) i = true.
Proof.
  intros l i H. unfold best_user in H. destruct l as [|x l]; [discriminate H|].
  destruct (filter _ _) as [|[f s] r]; injection H as <-; reflexivity.
Qed.
Lemma fixed_class : forall w c fs conv base u j, viable w (Class c fs conv base) (Fixed u) = Some j -> ics_lt (Std Exact) j = true.
Proof.
  intros w c fs conv base u j H. cbn [viable] in H. destruct w.
  - unfold implicit in H. destruct (standard _ u) as [s|] eqn:E.
    + injection H as <-. apply standard_class in E as [n ->]. reflexivity.
    + exact (best_user_not_std _ _ H).
  - unfold binds in H. destruct (standard _ u) as [s|] eqn:E; [|discriminate H].
    apply standard_class in E as [n ->]. injection H as <-. reflexivity.
Qed.
Lemma template_class : forall w c fs conv base k j, viable w (Class c fs conv base) (Template k) = Some j -> ics_lt (Std Exact) j = true.
Proof.
  intros w c fs conv base k j H. cbn [viable] in H. destruct (deduce k _) as [s|] eqn:E; [|discriminate H]. injection H as <-.
  assert (N : exists n, s = Base n).
  { destruct k; cbn [deduce] in E; (destruct base as [b|]; [|discriminate E]); destruct (deduce _ b) as [[]|]; try discriminate E; injection E as <-; eauto. }
  destruct N as [n ->]. reflexivity.
Qed.

(** A generic candidate wins for a class if no other generic one applies. *)
Lemma class_generic : forall w c fs conv base l1 g a l2, let t := Class c fs conv base in
  g t = true -> (forall h x, In (Generic h, x) (l1 ++ l2) -> h t = false) -> resolve w t (l1 ++ (Generic g, a) :: l2) = Some a.
Proof.
  intros w c fs conv base l1 g a l2 t G H. apply resolve_exact.
  - cbn [viable]. rewrite G. reflexivity.
  - intros [[h|u|k] x] j I V; cbn [fst] in V.
    + cbn [viable] in V. rewrite (H h x I) in V. discriminate V.
    + exact (fixed_class _ _ _ _ _ _ _ V).
    + exact (template_class _ _ _ _ _ _ _ V).
Qed.

(** * Members *)

Lemma provides_members : forall t c, provides t c -> members t = Some c.
Proof. intros t c H. induction H; try reflexivity. exact IHprovides. Qed.
Lemma provides_not_nested : forall t c, provides t c -> nested t = false.
Proof. intros t c H. induction H; try reflexivity. exact IHprovides. Qed.
Lemma members_provides : forall t c, members t = Some c -> nested t = false -> provides t c.
Proof.
  intros t. pattern t. apply ty_deep. clear t. intros t IH c H N. destruct t; try discriminate H; try discriminate N.
  - injection H as <-. constructor.
  - injection H as <-. constructor.
  - destruct c0 as [k|]; [injection H as <-; constructor|]. destruct base as [bs|]; [|discriminate H].
    constructor. apply IH; [|exact H | exact N]. cbn [direct]. apply in_app_iff. right. apply in_app_iff. right. apply in_app_iff. right. left. reflexivity.
Qed.
Lemma provides_nodes : forall t, nested t = true -> exists c, members t = Some c /\ iterable c /\ ~ associative c.
Proof.
  intros t. pattern t. apply ty_deep. clear t. intros t IH N. destruct t; try discriminate N.
  - eexists. split; [reflexivity|]. split; [split; reflexivity|]. intros [H _]. apply H. reflexivity.
  - destruct c; [discriminate N|]. destruct base as [bs|]; [|discriminate N]. apply (IH bs); [|exact N].
    cbn [direct]. apply in_app_iff. right. apply in_app_iff. right. apply in_app_iff. right. left. reflexivity.
Qed.

Lemma range_of : forall t c, members t = Some c -> is_range t = true <-> iterable c.
Proof. intros t c H. unfold is_range, has, iterable. rewrite H. apply andb_true_iff. Qed.
Lemma map_of_members : forall t c, members t = Some c -> is_map_alike t = true <-> iterable c /\ associative c.
Proof.
  intros t c H. unfold is_map_alike. rewrite !andb_true_iff, (range_of t c H). unfold has, associative. rewrite H.
  destruct (k_mapped c), (k_key c); cbn; intuition congruence.
Qed.

(** * What a class is written as *)

Ltac generic_cases :=
  let J := fresh "J" in
  cbn [In app]; intros ? ? J; repeat (destruct J as [J|J]); try contradiction J; try discriminate J; injection J as <- <-.

Section Classes.
Variables (c : option (container ty)) (fs : option (list ty)) (conv : list ty) (base : option ty).
Let t := Class c fs conv base.

Lemma class_seq : forall k, members t = Some k -> iterable k -> ~ associative k -> fs = None -> resolve true t writers = Some Seq.
Proof.
  intros k M I A F.
  assert (Mp : is_map_alike t = false) by (apply not_true_iff_false; rewrite (map_of_members t k M); tauto).
  assert (R : is_range t = true) by (apply (range_of t k M), I).
  change writers with ([(Generic is_map_alike, Map)] ++ (Generic (fun t => negb (is_map_alike t) && is_range t), Seq) ::
    [ (Generic is_reflectable, Struct); (Generic is_enum, Enumerator); (Template OfSet, EnumSet); (Template OfTuple, TupleOf); (Template OfPair, PairOf); (Template OfOpt, Optional) ]).
  apply class_generic.
  - cbn beta. fold t. rewrite Mp, R. reflexivity.
  - generic_cases; [exact Mp | cbn; rewrite F; reflexivity | reflexivity].
Qed.

Lemma class_map : forall k, members t = Some k -> iterable k -> associative k -> fs = None -> resolve true t writers = Some Map.
Proof.
  intros k M I A F.
  assert (Mp : is_map_alike t = true) by (rewrite (map_of_members t k M); tauto).
  change writers with ([] ++ (Generic is_map_alike, Map) :: tl writers).
  apply class_generic; [exact Mp|]. cbn [tl writers].
  generic_cases; [cbn beta; fold t; rewrite Mp; reflexivity | cbn; rewrite F; reflexivity | reflexivity].
Qed.

Lemma class_struct : is_range t = false -> fs <> None -> resolve true t writers = Some Struct.
Proof.
  intros R F.
  assert (Mp : is_map_alike t = false) by (unfold is_map_alike; rewrite R; reflexivity).
  change writers with ([(Generic is_map_alike, Map); (Generic (fun t => negb (is_map_alike t) && is_range t), Seq)] ++ (Generic is_reflectable, Struct) ::
    [ (Generic is_enum, Enumerator); (Template OfSet, EnumSet); (Template OfTuple, TupleOf); (Template OfPair, PairOf); (Template OfOpt, Optional) ]).
  apply class_generic.
  - cbn. destruct fs; [reflexivity | contradiction F; reflexivity].
  - generic_cases; [exact Mp | cbn beta; fold t; rewrite R, andb_false_r; reflexivity | reflexivity].
Qed.

Lemma class_read_seq : forall k, members t = Some k -> iterable k -> ~ associative k -> fillable k -> fs = None -> resolve false t readers = Some Seq.
Proof.
  intros k M I A [V Fi] F.
  assert (Mp : is_map_alike t = false) by (apply not_true_iff_false; rewrite (map_of_members t k M); tauto).
  assert (R : is_range t = true) by (apply (range_of t k M), I).
  assert (Hv : has k_value t = true) by (unfold has; rewrite M; exact V).
  destruct (has k_push t) eqn:P.
  - change readers with ([(Generic is_map_alike, Map)] ++ (Generic (fun t => negb (is_map_alike t) && is_growable_range t), Seq) :: tl (tl readers)).
    apply class_generic.
    + cbn beta. fold t. rewrite Mp. unfold is_growable_range. rewrite R, Hv, P. reflexivity.
    + cbn [tl readers]. generic_cases; [exact Mp | | cbn; rewrite F; reflexivity | reflexivity].
      cbn beta. fold t. rewrite Mp. unfold is_fixed_size_range. rewrite R, Hv, P. cbn. apply andb_false_r.
  - change readers with ([(Generic is_map_alike, Map); (Generic (fun t => negb (is_map_alike t) && is_growable_range t), Seq)] ++
      (Generic (fun t => negb (is_map_alike t) && is_fixed_size_range t), Seq) :: tl (tl (tl readers))).
    apply class_generic.
    + cbn beta. fold t. rewrite Mp. unfold is_fixed_size_range. rewrite R, Hv, P. destruct Fi as [Fi|[Fi _]]; unfold has in *; rewrite M in *; [congruence|]. rewrite Fi. reflexivity.
    + cbn [tl readers]. generic_cases; [exact Mp | | cbn; rewrite F; reflexivity | reflexivity].
      cbn beta. fold t. rewrite Mp. unfold is_growable_range. rewrite R, Hv, P. reflexivity.
Qed.

Lemma class_read_map : forall k, members t = Some k -> iterable k -> associative k -> fs = None -> resolve false t readers = Some Map.
Proof.
  intros k M I A F.
  assert (Mp : is_map_alike t = true) by (rewrite (map_of_members t k M); tauto).
  change readers with ([] ++ (Generic is_map_alike, Map) :: tl readers).
  apply class_generic; [exact Mp|]. cbn [tl readers].
  generic_cases; try (cbn beta; fold t; rewrite Mp; reflexivity); [cbn; rewrite F; reflexivity | reflexivity].
Qed.

Lemma class_read_struct : is_map_alike t = false -> is_growable_range t = false -> is_fixed_size_range t = false -> fs <> None ->
  resolve false t readers = Some Struct.
Proof.
  intros Mp G X F.
  change readers with (firstn 3 readers ++ (Generic is_reflectable, Struct) :: skipn 4 readers).
  apply class_generic.
  - cbn. destruct fs; [reflexivity | contradiction F; reflexivity].
  - cbn [firstn skipn readers]. generic_cases; [exact Mp | | | reflexivity]; cbn beta; fold t; rewrite ?G, ?X; apply andb_false_r.
Qed.

End Classes.

(** * Conversions to numbers *)

Lemma standard_number : forall x a, a <> Boolean -> ~ number_like x -> standard x (ToArith a) = None.
Proof.
  intros x a B N. destruct x; try reflexivity.
  - exfalso. apply N. left. eauto.
  - destruct a; try (contradiction B; reflexivity); destruct x; try reflexivity; match goal with |- context [Arith ?z] => destruct z; reflexivity end.
  - destruct a; try (contradiction B; reflexivity); destruct x; try reflexivity; match goal with |- context [Arith ?z] => destruct z; reflexivity end.
  - destruct ch; reflexivity.
  - destruct ch; reflexivity.
  - destruct scoped; [reflexivity|]. exfalso. apply N. right. eauto.
  - cbn [standard to_class]. destruct base; reflexivity.
Qed.

Lemma no_number_constructor : forall t a, constructors t (ToArith a) = [].
Proof.
  fix IH 1. intros t a. destruct t as [x| |x|x n|ch|ch| | | | |s u r|u r|ts|x y|x|c fs conv [b|]]; try reflexivity.
  - cbn [constructors]. destruct x as [[]| | | | | | | | | | | | | | |]; reflexivity.
  - cbn [constructors]. destruct x as [[]| | | | | | | | | | | | | | |]; reflexivity.
  - destruct ch; reflexivity.
  - cbn [constructors]. apply IH.
Qed.

Lemma class_no_number : forall c fs conv base a, a <> Boolean -> no_number (Class c fs conv base) ->
  viable true (Class c fs conv base) (Fixed (ToArith a)) = None.
Proof.
  intros c fs conv base a B N. cbn [viable]. unfold implicit. rewrite (standard_number (Class c fs conv base) a B).
  2: { intros [[y E]|(u & r & E)]; discriminate E. }
  unfold user. rewrite no_number_constructor. cbn [conversions app].
  replace (flat_map _ _) with (@nil (nat * std)); [reflexivity|].
  assert (Q : forall l i, (forall x, In x l -> ~ number_like x) -> flat_map (through (ToArith a)) (combine (seq i (length l)) l) = []).
  { induction l as [|x l IH]; intros i H; [reflexivity|]. cbn [length seq combine flat_map]. unfold through at 1. cbn [snd].
    rewrite (standard_number x a B (H x (or_introl eq_refl))). cbn [app]. apply IH. intros y I. apply H. right. exact I. }
  symmetry. apply Q. intros x I. exact (N c fs conv base x eq_refl I).
Qed.

Lemma no_json_constructor : forall llp c fs conv base, no_number (Class c fs conv base) -> is_json_constructible llp (Class c fs conv base) = false.
Proof.
  intros llp c fs conv base N. unfold is_json_constructible.
  replace (resolve true _ (json_constructors llp)) with (@None act); [reflexivity|].
  unfold resolve, viables, json_constructors. cbn [flat_map fst snd].
  rewrite !class_no_number by (try exact N; destruct llp; discriminate). reflexivity.
Qed.

(** * The overloads for everything else leave classes to the library *)

Lemma class_library : forall llp b m c fs conv base, let t := Class c fs conv base in
  (if writing m then written_by_library t else read_by_library t) = true ->
  (b = Json -> m = Tree -> no_number t) ->
  resolve (writing m) t (overloads llp b m) = Some Library.
Proof.
  intros llp b m c fs conv base t L N.
  replace (overloads llp b m) with ([] ++ (Generic (if writing m then written_by_library else read_by_library), Library) :: tl (overloads llp b m)) by (destruct b, m; reflexivity).
  apply class_generic.
  - destruct (writing m); exact L.
  - destruct b, m; cbn [overloads tl app json_dump json_serialize json_deserialize yaml_dump yaml_serialize yaml_deserialize]; generic_cases; try reflexivity.
    apply no_json_constructor, N; reflexivity.
Qed.

Lemma class_act : forall llp b m c fs conv base a, let t := Class c fs conv base in
  resolve (writing m) t (if writing m then writers else readers) = Some a ->
  (b = Json -> m = Tree -> no_number t) -> pick_act llp b m t = Some a.
Proof.
  intros llp b m c fs conv base a t R N. unfold pick_act. unfold t. rewrite class_library; fold t.
  - exact R.
  - unfold written_by_library, read_by_library. destruct (writing m); rewrite R; reflexivity.
  - exact N.
Qed.

(** * The parts *)

Definition fields_shapes (llp : bool) (b : backend) (m : mode) (t : ty) : option (list shape) :=
  match t with Class _ (Some l) _ _ => all (map (pick llp b m) l) | _ => None end.
Lemma pick_whole : forall llp b m t, pick llp b m t = whole llp b m t (fields_shapes llp b m t) (analyse llp b m t).
Proof.
  intros llp b m t. unfold pick. destruct t; cbn [analyse p_whole fields_shapes]; reflexivity.
Qed.

Lemma all_pick : forall llp b m ts, all (map (fun x => p_whole (analyse llp b m x)) ts) = all (map (pick llp b m) ts).
Proof. reflexivity. Qed.

Lemma pick_arith : forall llp b m a, pick llp b m (Arith a) = scalar (pick_act llp b m (Arith a)).
Proof. intros llp b m a. destruct llp, b, m, a; vm_compute; reflexivity. Qed.

Lemma item_of : forall llp b m t c, provides t c -> p_item (analyse llp b m t) = pick llp b m (k_item c).
Proof.
  intros llp b m t c H. induction H; cbn [analyse p_item k_item].
  - reflexivity.
  - exact IHprovides.
  - symmetry. apply pick_arith.
  - symmetry. apply pick_arith.
Qed.
Lemma mapped_of : forall llp b m t c u, provides t c -> k_mapped c = Some u -> p_mapped (analyse llp b m t) = pick llp b m u.
Proof.
  intros llp b m t c u H. induction H; intros E; cbn [analyse p_mapped k_mapped] in *.
  - rewrite E. reflexivity.
  - exact (IHprovides E).
  - discriminate E.
  - discriminate E.
Qed.

Lemma all_some : forall (f : ty -> option shape) ts ss, Forall2 (fun t s => f t = Some s) ts ss <-> all (map f ts) = Some ss.
Proof.
  intros f. induction ts as [|t ts IH]; intros ss; cbn [map all].
  - split; [intros H; inversion H; reflexivity | intros H; injection H as <-; constructor].
  - split.
    + intros H. inversion H as [|? s ? ss' H1 H2]. subst. rewrite H1. apply IH in H2. rewrite H2. reflexivity.
    + destruct (f t) as [s|] eqn:E; [|discriminate]. destruct (all (map f ts)) as [l|] eqn:A; [|discriminate].
      intros H. injection H as <-. constructor; [exact E|]. apply IH. reflexivity.
Qed.

(** * The types that are meant *)

Lemma size_pos : forall t, 1 <= size t. Proof. intros []; cbn [size]; lia. Qed.
Lemma provides_size : forall t c, provides t c -> a_class t ->
  size (k_item c) < size t /\ forall u, k_mapped c = Some u -> size u < size t.
Proof.
  intros t c H. induction H; intros Cl.
  - split; [|intros u E]; cbn [size]; [lia|]. rewrite E. lia.
  - pose proof (size_pos base) as Sp. cbn [size]. destruct H; cbn [k_item k_mapped].
    + destruct IHprovides as [A B]; [repeat eexists|]. split; [|intros u E; specialize (B u E)]; lia.
    + destruct IHprovides as [A B]; [repeat eexists|]. split; [|intros u E; specialize (B u E)]; lia.
    + split; [cbn [size]; lia | discriminate].
    + split; [cbn [size]; lia | discriminate].
  - destruct Cl as (a & b & d & e & Cl). discriminate Cl.
  - destruct Cl as (a & b & d & e & Cl). discriminate Cl.
Qed.

Lemma provides_map_class : forall t c, provides t c -> k_key c <> None -> a_class t.
Proof. intros t c H K. destruct H; [repeat eexists | repeat eexists | |]; exfalso; apply K; reflexivity. Qed.

Lemma number_picked : forall llp b m a, In a (numbers llp b m) -> pick llp b m (Arith a) = Some SNumber.
Proof.
  intros llp b m a H. assert (F : Forall (fun a => pick llp b m (Arith a) = Some SNumber) (numbers llp b m)).
  { destruct llp, b, m; repeat constructor. }
  rewrite Forall_forall in F. exact (F a H).
Qed.

Lemma enum_act : forall llp b m s u r, pick_act llp b m (Enum s u r) = Some Enumerator.
Proof. intros llp b m s u r. destruct llp, b, m, s, u, r; vm_compute; reflexivity. Qed.
Lemma set_act : forall llp b m u r, pick_act llp b m (ESet u r) = Some EnumSet.
Proof. intros llp b m u r. destruct llp, b, m; vm_compute; reflexivity. Qed.
Lemma tuple_act : forall llp b m ts, pick_act llp b m (Tuple ts) = Some TupleOf.
Proof. intros llp b m ts. destruct llp, b, m; vm_compute; reflexivity. Qed.
Lemma pair_act : forall llp b m t u, pick_act llp b m (Pair t u) = Some PairOf.
Proof. intros llp b m t u. destruct llp, b, m; vm_compute; reflexivity. Qed.
Lemma opt_act : forall llp b m t, pick_act llp b m (Opt t) = Some Optional.
Proof. intros llp b m t. destruct llp, b, m; vm_compute; reflexivity. Qed.

Lemma enum_pick : forall llp b m s u r, pick llp b m (Enum s u r) = if r then Some SString else pick llp b m (Arith u).
Proof.
  intros. rewrite pick_whole. unfold whole. rewrite enum_act. unfold enumerator. destruct r; [reflexivity|]. symmetry. apply pick_arith.
Qed.
Lemma set_pick : forall llp b m u r, pick llp b m (ESet u r) =
  if r then Some (SSeq SString) else match m with Read => option_map_ SSeq (pick llp b m (Arith u)) | _ => None end.
Proof.
  intros. rewrite pick_whole. unfold whole. rewrite set_act. cbn [analyse p_set]. unfold enumerator. rewrite pick_arith. destruct r, m; reflexivity.
Qed.
Lemma tuple_pick : forall llp b m ts, pick llp b m (Tuple ts) = option_map_ STuple (all (map (pick llp b m) ts)).
Proof. intros. rewrite pick_whole. unfold whole. rewrite tuple_act. reflexivity. Qed.
Lemma pair_pick : forall llp b m t u, pick llp b m (Pair t u) = option_map_ STuple (all [pick llp b m t; pick llp b m u]).
Proof. intros. rewrite pick_whole. unfold whole. rewrite pair_act. reflexivity. Qed.
Lemma opt_pick : forall llp b m t, pick llp b m (Opt t) = option_map_ SOpt (pick llp b m t).
Proof. intros. rewrite pick_whole. unfold whole. rewrite opt_act. reflexivity. Qed.

Lemma seq_pick : forall llp b m c fs conv base k, let t := Class c fs conv base in
  provides t k -> iterable k -> ~ associative k -> fs = None -> (b = Json -> m = Tree -> no_number t) -> (m = Read -> fillable k) ->
  pick llp b m t = option_map_ SSeq (pick llp b m (k_item k)).
Proof.
  intros llp b m c fs conv base k t P I A F N R. pose proof (provides_members _ _ P) as M.
  rewrite pick_whole. unfold whole. unfold t at 1. rewrite (class_act llp b m c fs conv base Seq); fold t; [| |exact N].
  - rewrite (provides_not_nested _ _ P), (item_of _ _ _ _ _ P). destruct m; try reflexivity.
    destruct (R eq_refl) as [V [Pu|[Sz Cn]]].
    + unfold is_fixed_size_range, has. rewrite M, V, Pu. cbn. rewrite !andb_false_r. reflexivity.
    + replace (has k_const t) with false by (unfold has; rewrite M; symmetry; exact Cn). rewrite andb_false_r. reflexivity.
  - destruct (writing m) eqn:W.
    + exact (class_seq c fs conv base k M I A F).
    + apply (class_read_seq c fs conv base k M I A); [|exact F]. apply R. destruct m; try discriminate W. reflexivity.
Qed.

Lemma map_pick : forall llp b m c fs conv base k ky u, let t := Class c fs conv base in
  provides t k -> iterable k -> k_key k = Some ky -> k_mapped k = Some u -> fs = None -> (b = Json -> m = Tree -> no_number t) ->
  pick llp b m t = if key_works m ky then option_map_ SMap (pick llp b m u) else None.
Proof.
  intros llp b m c fs conv base k ky u t P I K U F N. pose proof (provides_members _ _ P) as M.
  assert (A : associative k) by (split; [rewrite K | rewrite U]; discriminate).
  rewrite pick_whole. unfold whole. unfold t at 1. rewrite (class_act llp b m c fs conv base Map); fold t; [| |exact N].
  - rewrite M, K, (mapped_of _ _ _ _ _ u P U). reflexivity.
  - destruct (writing m); [exact (class_map c fs conv base k M I A F) | exact (class_read_map c fs conv base k M I A F)].
Qed.

(** No function for ranges takes the class. *)
Definition free (m : mode) (t : ty) : Prop :=
  if writing m then is_range t = false else is_map_alike t = false /\ is_growable_range t = false /\ is_fixed_size_range t = false.
Lemma struct_pick : forall llp b m c l conv base, let t := Class c (Some l) conv base in
  free m t -> (b = Json -> m = Tree -> no_number t) -> pick llp b m t = option_map_ SObject (all (map (pick llp b m) l)).
Proof.
  intros llp b m c l conv base t R N. rewrite pick_whole. unfold whole. unfold t at 1. rewrite (class_act llp b m c (Some l) conv base Struct); fold t; [reflexivity| |exact N].
  unfold free in R. destruct (writing m); [apply (class_struct c (Some l) conv base R); discriminate|].
  destruct R as (R1 & R2 & R3). apply (class_read_struct c (Some l) conv base R1 R2 R3). discriminate.
Qed.

Lemma nested_members : forall t, nested t = true -> members t = members YNode.
Proof.
  intros t. pattern t. apply ty_deep. clear t. intros t IH N. destruct t; try discriminate N; [reflexivity|].
  destruct c; [discriminate N|]. destruct base as [bs|]; [|discriminate N]. apply (IH bs); [|exact N].
  cbn [direct]. apply in_app_iff. right. apply in_app_iff. right. apply in_app_iff. right. left. reflexivity.
Qed.
Lemma free_of : forall m t, (forall k, provides t k -> ~ range_like m k) -> (m <> Read -> nested t = false) -> free m t.
Proof.
  intros m t H Ne. unfold free. destruct (members t) as [k|] eqn:M.
  2: { destruct (writing m); unfold is_map_alike, is_growable_range, is_fixed_size_range, is_range, has; rewrite M; auto. }
  destruct (nested t) eqn:Nt.
  - destruct m; try (specialize (Ne ltac:(discriminate)); discriminate Ne). cbn [writing].
    pose proof (nested_members t Nt) as E.
    unfold is_map_alike, is_growable_range, is_fixed_size_range, is_range, has. rewrite E. auto.
  - specialize (H k (members_provides t k M Nt)). unfold range_like in H.
    destruct (writing m) eqn:W.
    + apply not_true_iff_false. rewrite (range_of t k M). intros I. apply H. split; [exact I|]. intros ->. discriminate W.
    + repeat split; apply not_true_iff_false; intros X; apply H.
      * apply (map_of_members t k M) in X as [I A]. split; [exact I | auto].
      * unfold is_growable_range in X. rewrite !andb_true_iff in X. destruct X as ((X & V) & _ & Pu).
        split; [apply (range_of t k M), X|]. intros _. right. unfold has in *. rewrite M in *. auto.
      * unfold is_fixed_size_range in X. rewrite !andb_true_iff in X. destruct X as (((X & V) & Sz) & _).
        split; [apply (range_of t k M), X|]. intros _. right. unfold has in *. rewrite M in *. auto.
Qed.

Lemma key_good : forall m k, key_works m k = true <-> good_key m k.
Proof. intros [] []; cbn; split; intros H; try reflexivity; try discriminate; contradiction H; reflexivity. Qed.

Lemma meant_arith : forall odd llp b m a x, meant odd llp b m (Arith a) x -> pick llp b m (Arith a) = Some x.
Proof.
  intros odd llp b m a x H. inversion H; subst.
  - destruct llp, b, m; reflexivity.
  - apply number_picked. assumption.
  - destruct llp, m; reflexivity.
  - destruct H0 as (c0 & fs & cv & bs & E). discriminate E.
  - match goal with P : provides _ _ |- _ => inversion P end.
Qed.

Lemma pointer_pick : forall llp b m t, t <> Arith Char -> pick llp b m (Ptr t) = match m with Dump => Some SBool | _ => None end.
Proof.
  intros llp b m t N. destruct llp, b, m, t; try reflexivity;
    match goal with |- context [Arith ?z] => destruct z; try reflexivity; contradiction N; reflexivity end.
Qed.
Lemma array_pick : forall llp b m t n, t <> Arith Char -> pick llp b m (Arr t n) = match m with Dump => Some SBool | _ => None end.
Proof.
  intros llp b m t n N. destruct llp, b, m, t; try reflexivity;
    match goal with |- context [Arith ?z] => destruct z; try reflexivity; contradiction N; reflexivity end.
Qed.
Lemma string_pick : forall llp b m ch, ch <> Char -> pick llp b m (Str ch) =
  match b, m with Json, Tree => None | _, _ => option_map_ SSeq (pick llp b m (Arith ch)) end.
Proof. intros llp b m ch N. destruct ch; try (contradiction N; reflexivity); destruct llp, b, m; vm_compute; reflexivity. Qed.
Lemma view_pick : forall llp b m ch, ch <> Char -> pick llp b m (SView ch) =
  match b, m with Json, Tree | _, Read => None | _, _ => option_map_ SSeq (pick llp b m (Arith ch)) end.
Proof. intros llp b m ch N. destruct ch; try (contradiction N; reflexivity); destruct llp, b, m; vm_compute; reflexivity. Qed.

Theorem meant_picked_odd : forall odd llp b m t s, meant odd llp b m t s -> pick llp b m t = Some s.
Proof.
  intros odd llp b m t. pattern t. apply size_ind. clear t. intros t IH s H. destruct H.
  - destruct llp, b, m; reflexivity.
  - apply number_picked. exact H.
  - subst b. destruct llp, m; reflexivity.
  - destruct llp, b, m; try reflexivity; contradiction H; reflexivity.
  - destruct llp, b, m; try reflexivity; contradiction H; reflexivity.
  - destruct llp, b, m; try reflexivity; contradiction H; reflexivity.
  - destruct llp, b, m; reflexivity.
  - destruct llp, b, m; try reflexivity; destruct H as [H|H]; discriminate H.
  - subst b. destruct llp, m; reflexivity.
  - subst b. destruct llp, m; reflexivity.
  - rewrite enum_pick. reflexivity.
  - rewrite enum_pick. exact (meant_arith _ _ _ _ _ _ H).
  - rewrite set_pick. reflexivity.
  - rewrite set_pick. subst m. rewrite (meant_arith _ _ _ _ _ _ H0). reflexivity.
  - rewrite tuple_pick. replace (all (map (pick llp b m) ts)) with (Some ss); [reflexivity|]. symmetry. apply all_some.
    assert (Q : forall x, In x ts -> size x < size (Tuple ts)) by (intros x I; apply direct_smaller; exact I).
    clear - H IH Q. assert (IH2 : forall x, In x ts -> forall s, meant odd llp b m x s -> pick llp b m x = Some s) by (intros x I; apply IH, Q, I).
    clear IH Q. induction H; constructor; [apply IH2; [left; reflexivity | assumption]|]. apply IHForall2. intros x0 I. apply IH2. right. exact I.
  - rewrite pair_pick. assert (S1 : size t < size (Pair t u)) by (cbn [size]; lia). assert (S2 : size u < size (Pair t u)) by (cbn [size]; lia).
    rewrite (IH t S1 x H), (IH u S2 y H0). reflexivity.
  - rewrite opt_pick. assert (S1 : size t < size (Opt t)) by (cbn [size]; lia). rewrite (IH t S1 x H). reflexivity.
  - destruct (provides_size _ _ H0 H) as [Sz _]. destruct H as (c0 & fs & conv & base & ->).
    rewrite (seq_pick llp b m c0 fs conv base c); try assumption.
    + rewrite (IH _ Sz x H6). reflexivity.
    + destruct fs; [|reflexivity]. exfalso. apply H3. repeat eexists.
  - assert (Cl : a_class t) by (apply (provides_map_class t c H); rewrite H1; discriminate).
    destruct (provides_size _ _ H Cl) as [_ Sz]. destruct Cl as (c0 & fs & conv & base & ->).
    rewrite (map_pick llp b m c0 fs conv base c k u); try assumption.
    + apply key_good in H3. rewrite H3, (IH u (Sz u H2) x H6). reflexivity.
    + destruct fs; [|reflexivity]. exfalso. apply H4. repeat eexists.
  - rewrite struct_pick; try assumption.
    + replace (all (map (pick llp b m) fs)) with (Some ss); [reflexivity|]. symmetry. apply all_some.
      assert (Q : forall x, In x fs -> size x < size (Class c (Some fs) conv base)) by (intros x I; apply direct_smaller; cbn [direct]; apply in_app_iff; right; apply in_app_iff; left; exact I).
      clear - H2 IH Q. assert (IH2 : forall x, In x fs -> forall s, meant odd llp b m x s -> pick llp b m x = Some s) by (intros x I; apply IH, Q, I).
      clear IH Q. induction H2; constructor; [apply IH2; [left; reflexivity | assumption]|]. apply IHForall2. intros x0 I. apply IH2. right. exact I.
    + apply free_of; assumption.
  - subst m. apply pointer_pick. assumption.
  - subst m. apply array_pick. assumption.
  - subst b. destruct llp, m; try reflexivity; contradiction H1; reflexivity.
  - rewrite string_pick by assumption. rewrite (meant_arith _ _ _ _ _ _ H2). destruct b, m; try reflexivity. contradiction H1. split; reflexivity.
  - rewrite view_pick by assumption. rewrite (meant_arith _ _ _ _ _ _ H3). destruct b, m; try reflexivity; try (contradiction H2; reflexivity). contradiction H1. split; reflexivity.
  - subst b m. destruct llp; reflexivity.
  - destruct llp, b, m; try reflexivity; contradiction H0; reflexivity.
Qed.

(** * Nothing else is written or read *)

Lemma number_only : forall llp b m a x, pick llp b m (Arith a) = Some x -> meant true llp b m (Arith a) x.
Proof.
  intros llp b m a x H. destruct llp, b, m, a; vm_compute in H; try discriminate H; injection H as <-;
    solve [apply m_bool | apply m_char; reflexivity | apply m_number; cbn; repeat (first [left; reflexivity | right])].
Qed.

Lemma class_plain_act : forall llp b m c fs, pick_act llp b m (Class c fs [] None) =
  let r := match c with Some k => k_begin k && k_end k | None => false end in
  let mp := match c with Some k => present (k_key k) && present (k_mapped k) | None => false end in
  let v := match c with Some k => k_value k && (k_push k || k_size k) | None => false end in
  match fs with
  | Some _ => if r && (writing m || mp || v) then None else Some Struct
  | None => if r then if mp then Some Map else if writing m || v then Some Seq else None else None
  end.
Proof.
  intros llp b m c fs.
  destruct c as [[[] [] [] [] [] cn it [ky|] [mp|]]|], fs as [l|], llp, b, m; vm_compute; reflexivity.
Qed.

