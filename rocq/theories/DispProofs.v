(** Proofs about customization points. *)
From Coq Require Import List Arith Bool Lia Sorted.
From Verif Require Import DispModel DispSpec.
Import ListNotations.

(* ------------------------------------------------------------------ *)
(** ** The best candidate *)

Section Best.
Context {A : Type} (b : A -> A -> bool).
Definition wins (l : list A) (x : A) : Prop := exists l1 l2, l = l1 ++ x :: l2 /\ forall y, In y (l1 ++ l2) -> b x y = true.
Hypothesis asym : forall x y, b x y = true -> b y x = true -> False.

Lemma places_in (l : list A) : forall n i x, In (i, x) (combine (seq n (length l)) l) <-> exists l1 l2, l = l1 ++ x :: l2 /\ i = n + length l1.
Proof.
  induction l as [|y l IH]; intros n i x; cbn [length seq combine In].
  - split; [tauto|]. intros (l1 & l2 & E & _). destruct l1; discriminate.
  - rewrite IH. split.
    + intros [[= <- <-]|(l1 & l2 & -> & ->)]; [exists [], l; cbn; split; [reflexivity|lia]|exists (y :: l1), l2; cbn; split; [reflexivity|lia]].
    + intros ([|z l1] & l2 & E & ->); cbn in E; injection E as -> ->; [left; cbn; f_equal; lia|right; exists l1, l2; split; [reflexivity|cbn; lia]].
Qed.

Definition beats_all (l : list A) (x : nat * A) : bool :=
  forallb (fun y => Nat.eqb (fst x) (fst y) || b (snd x) (snd y)) (at_places l).

Lemma same_split (l1 l1' : list A) : forall x x' l2 l2', l1 ++ x :: l2 = l1' ++ x' :: l2' -> length l1 = length l1' -> l1 = l1' /\ x = x' /\ l2 = l2'.
Proof.
  revert l1'. induction l1 as [|a l1 IH]; intros [|a' l1'] x x' l2 l2' E L; cbn in *; try discriminate.
  - injection E as -> ->. auto.
  - injection E as -> E. injection L as L. destruct (IH _ _ _ _ _ E L) as (-> & -> & ->). auto.
Qed.

Lemma beats_iff l1 x l2 : beats_all (l1 ++ x :: l2) (length l1, x) = true <-> forall y, In y (l1 ++ l2) -> b x y = true.
Proof.
  unfold beats_all. rewrite forallb_forall. cbn [fst snd]. split.
  - intros H y Hy. apply in_app_iff in Hy. destruct Hy as [Hy|Hy]; apply in_split in Hy; destruct Hy as (m1 & m2 & E).
    + specialize (H (length m1, y)). cbn [fst snd] in H. rewrite (proj2 (Nat.eqb_neq _ _)) in H.
      * apply H. apply places_in. exists m1, (m2 ++ x :: l2). rewrite E, <- app_assoc. split; [reflexivity|lia].
      * rewrite E, app_length. cbn. lia.
    + specialize (H (length (l1 ++ x :: m1), y)). cbn [fst snd] in H. rewrite (proj2 (Nat.eqb_neq _ _)) in H.
      * apply H. apply places_in. exists (l1 ++ x :: m1), m2. rewrite E, <- app_assoc. split; [reflexivity|lia].
      * rewrite app_length. cbn. lia.
  - intros H [i y] Hy. cbn [fst snd]. destruct (Nat.eqb_spec (length l1) i) as [_|N]; [reflexivity|]. cbn [orb].
    apply places_in in Hy. destruct Hy as (m1 & m2 & E & ->). cbn in N. apply H.
    destruct (Nat.lt_trichotomy (length l1) (length m1)) as [L|[L|L]]; [|lia|]; apply in_app_iff.
    + right. revert m1 E L N. clear H. induction l1 as [|a l1 IH]; intros [|a' m1] E L N; cbn in *; try lia.
      * injection E as -> ->. apply in_app_iff. right. now left.
      * injection E as -> E. apply (IH _ E); lia.
    + left. revert m1 E L N. clear H. induction l1 as [|a l1 IH]; intros [|a' m1] E L N; cbn in *; try lia.
      * injection E as -> _. now left.
      * injection E as -> E. right. apply (IH _ E); lia.
Qed.

Lemma filter_one {B} (f : B -> bool) x l1 l2 : f x = true -> (forall y, In y (l1 ++ l2) -> f y = false) -> filter f (l1 ++ x :: l2) = [x].
Proof.
  intros Hx H. rewrite filter_app. cbn [filter]. rewrite Hx.
  assert (K : forall l, (forall y, In y l -> f y = false) -> filter f l = []).
  { induction l as [|y l IH]; intros Hl; cbn [filter]; [reflexivity|]. rewrite (Hl y) by now left. apply IH. intros; apply Hl; now right. }
  rewrite !K; [reflexivity| |]; intros y Hy; apply H, in_app_iff; auto.
Qed.

Lemma best_iff l x : best b l = Some x <-> wins l x.
Proof.
  unfold best. change (filter _ (at_places l)) with (filter (beats_all l) (at_places l)). split.
  - intros H. destruct (filter (beats_all l) (at_places l)) as [|[i y] [|]] eqn:E; try discriminate. injection H as ->.
    assert (Hi : In (i, x) (filter (beats_all l) (at_places l))) by (rewrite E; now left).
    apply filter_In in Hi. destruct Hi as [Hp Hb]. apply places_in in Hp. destruct Hp as (l1 & l2 & -> & ->).
    exists l1, l2. split; [reflexivity|]. now apply beats_iff.
  - intros (l1 & l2 & -> & H).
    assert (Hp : In (length l1, x) (at_places (l1 ++ x :: l2))) by (apply places_in; exists l1, l2; split; [reflexivity|lia]).
    assert (U : forall i y, In (i, y) (at_places (l1 ++ x :: l2)) -> beats_all (l1 ++ x :: l2) (i, y) = true -> i = length l1).
    { intros i y Hy Hb. destruct (Nat.eq_dec i (length l1)) as [E|N]; [exact E|exfalso].
      pose proof (proj2 (beats_iff l1 x l2) H) as Hx. unfold beats_all in Hb, Hx. rewrite forallb_forall in Hb, Hx.
      specialize (Hb _ Hp). specialize (Hx _ Hy). cbn [fst snd] in Hb, Hx.
      rewrite (proj2 (Nat.eqb_neq _ _)) in Hb by assumption. rewrite (proj2 (Nat.eqb_neq _ _)) in Hx by auto. eauto. }
    apply in_split in Hp. destruct Hp as (p1 & p2 & E). rewrite E in *.
    rewrite filter_one; [reflexivity|now apply beats_iff|]. intros [i y] Hy.
    destruct (beats_all (l1 ++ x :: l2) (i, y)) eqn:Eb; [|reflexivity]. exfalso.
    assert (i = length l1) as ->. { apply (U i y); [|exact Eb]. apply in_app_iff in Hy. apply in_app_iff. cbn. tauto. }
    assert (N : NoDup (map fst (at_places (l1 ++ x :: l2)))).
    { unfold at_places. generalize (l1 ++ x :: l2). intros l. generalize 0. induction l as [|a l IH]; intros n; cbn; [constructor|].
      constructor; [|apply IH]. intros Hin. apply in_map_iff in Hin. destruct Hin as ([i z] & <- & Hin). apply in_combine_l in Hin. cbn in Hin. apply in_seq in Hin. lia. }
    rewrite E, map_app in N. cbn [map fst] in N. apply NoDup_remove_2 in N. apply N. rewrite <- map_app.
    apply (in_map fst) in Hy. exact Hy.
Qed.
End Best.

Lemma filter_split {A} (f : A -> bool) l : forall m1 x m2, filter f l = m1 ++ x :: m2 ->
  exists l1 l2, l = l1 ++ x :: l2 /\ filter f l1 = m1 /\ filter f l2 = m2 /\ f x = true.
Proof.
  induction l as [|y l IH]; intros m1 x m2 E; cbn [filter] in E; [destruct m1; discriminate|].
  destruct (f y) eqn:Ey.
  - destruct m1 as [|z m1]; injection E as <- E; [|].
    + exists [], l. auto.
    + destruct (IH _ _ _ E) as (l1 & l2 & -> & E1 & E2 & Hx). exists (y :: l1), l2. cbn [filter]. rewrite Ey, E1. auto.
  - destruct (IH _ _ _ E) as (l1 & l2 & -> & E1 & E2 & Hx). exists (y :: l1), l2. cbn [filter]. rewrite Ey, E1. auto.
Qed.

(* ------------------------------------------------------------------ *)
(** ** Priorities *)

Lemma steps_up_spec n : forall k, steps_up n k = if k <=? n then Some (n - k) else None.
Proof.
  induction n as [|n IH]; intros k; cbn [steps_up].
  - destruct k; reflexivity.
  - destruct (Nat.eqb_spec (S n) k) as [<-|N].
    + rewrite Nat.leb_refl, Nat.sub_diag. reflexivity.
    + rewrite IH. destruct (Nat.leb_spec k n); destruct (Nat.leb_spec k (S n)); try lia; cbn [option_map]; [f_equal; lia|reflexivity].
Qed.

Lemma nearer_asym n {A} (x y : tagged A) : nearer n x y = true -> nearer n y x = true -> False.
Proof. unfold nearer. destruct (steps_up n (tag x)), (steps_up n (tag y)); try discriminate. rewrite !Nat.ltb_lt. lia. Qed.

Lemma priority_iff {A} n (l : list (tagged A)) a : with_priority n l = Some a <->
  exists l1 x l2, l = l1 ++ x :: l2 /\ does x = a /\ valid x = true /\ tag x <= n /\
  forall y, In y (l1 ++ l2) -> valid y = true -> tag y <= n -> tag y < tag x.
Proof.
  unfold with_priority. set (ok := fun x : tagged A => _).
  assert (Hok : forall x, ok x = true <-> valid x = true /\ tag x <= n).
  { intros x. unfold ok. rewrite steps_up_spec, andb_true_iff. destruct (Nat.leb_spec (tag x) n); intuition (discriminate || lia). }
  assert (Hn : forall x y : tagged A, tag x <= n -> tag y <= n -> (nearer n x y = true <-> tag y < tag x)).
  { intros x y Hx Hy. unfold nearer. rewrite !steps_up_spec, (proj2 (Nat.leb_le _ _) Hx), (proj2 (Nat.leb_le _ _) Hy), Nat.ltb_lt. lia. }
  split.
  - destruct (best (nearer n) (filter ok l)) as [x|] eqn:E; [|discriminate]. intros [= <-].
    apply best_iff in E; [|intros; eapply nearer_asym; eauto]. destruct E as (m1 & m2 & E & H).
    destruct (filter_split _ _ _ _ _ E) as (l1 & l2 & -> & E1 & E2 & Hx). apply Hok in Hx. destruct Hx as [Hv Ht].
    exists l1, x, l2. repeat split; auto. intros y Hy Hvy Hty. apply Hn; [assumption..|]. apply H. rewrite <- E1, <- E2, <- filter_app.
    apply filter_In. split; [assumption|]. now apply Hok.
  - intros (l1 & x & l2 & -> & <- & Hv & Ht & H).
    replace (best (nearer n) (filter ok (l1 ++ x :: l2))) with (Some x); [reflexivity|]. symmetry.
    apply best_iff; [intros; eapply nearer_asym; eauto|]. rewrite filter_app. cbn [filter]. rewrite (proj2 (Hok x)) by auto.
    exists (filter ok l1), (filter ok l2). split; [reflexivity|]. intros y Hy. rewrite <- filter_app in Hy. apply filter_In in Hy.
    destruct Hy as [Hy Ho]. apply Hok in Ho. apply Hn; [assumption|tauto|]. apply H; tauto.
Qed.

(* ------------------------------------------------------------------ *)
(** ** Conversions *)

Lemma place_of_iff c ls : forall k, place_of c ls = Some k <->
  exists l1 l l2, ls = l1 ++ l :: l2 /\ l_class l = c /\ k = length l1 /\ forall x, In x l1 -> l_class x <> c.
Proof.
  induction ls as [|l ls IH]; intros k; cbn [place_of].
  - split; [discriminate|]. intros ([|] & ? & ? & E & _); discriminate.
  - destruct (Nat.eqb_spec (l_class l) c) as [E|N].
    + split.
      * intros [= <-]. exists [], l, ls. repeat split; auto; intros x [].
      * intros ([|y l1] & l' & l2 & E' & Hc & -> & H); [reflexivity|]. injection E' as <- _. exfalso. apply (H l); [now left|exact E].
    + split.
      * intros H. destruct (place_of c ls) as [k'|] eqn:Ep; [|discriminate]. injection H as <-. destruct (proj1 (IH k') eq_refl)
          as (l1 & l' & l2 & -> & Hc & -> & H). exists (l :: l1), l', l2. repeat split; auto. intros x [<-|Hx]; auto.
      * intros ([|y l1] & l' & l2 & E' & Hc & -> & H); injection E' as -> ->; [contradiction|].
        rewrite (proj2 (IH (length l1))); [reflexivity|]. exists l1, l', l2. repeat split; auto. intros x Hx. apply H. now right.
Qed.

Lemma same_type_iff t : forall p, same_type t p = true <-> binds t p 0.
Proof.
  induction t as [n|ls|t IH]; intros [m|c|p]; cbn [same_type]; try (split; [discriminate|intros H; inversion H; fail]).
  - rewrite Nat.eqb_eq. split; [intros ->; constructor|intros H; now inversion H].
  - split.
    + intros H. destruct (place_of c ls) as [[|k]|] eqn:E; try discriminate. apply place_of_iff in E.
      destruct E as (l1 & l & l2 & -> & <- & L & H1). change (binds (Obj (l1 ++ l :: l2)) (NClass (l_class l)) 0). rewrite L. constructor. assumption.
    + intros H. inversion H as [|l1 l l2 H1 E1 E2 E3|]; subst. rewrite (proj2 (place_of_iff (l_class l) (l1 ++ l :: l2) 0)); [reflexivity|].
      exists l1, l, l2. repeat split; auto.
  - rewrite IH. split; [intros H; constructor; assumption|intros H; now inversion H].
Qed.

Lemma base_steps_iff t p k : base_steps t p = Some k <-> binds t p k.
Proof.
  assert (G : forall t p k, (match t, p with Obj _, NClass _ => False | _, _ => True end) ->
    ((if same_type t p then Some 0 else None) = Some k <-> binds t p k)).
  { intros t' p' k' Hn. split.
    - destruct (same_type t' p') eqn:E; [|discriminate]. intros [= <-]. now apply same_type_iff.
    - intros H. assert (k' = 0) as ->. { destruct H; auto. contradiction. } rewrite (proj2 (same_type_iff _ _) H). reflexivity. }
  destruct t as [n|ls|t]; [apply (G (Plain n)); now destruct p| |apply (G (Opt t)); now destruct p].
  destruct p as [m|c|p]; try (apply (G (Obj ls)); exact I). cbn [base_steps]. rewrite place_of_iff. split.
  - intros (l1 & l & l2 & -> & <- & -> & H). constructor. assumption.
  - intros H. inversion H; subst. eexists _, _, _. repeat split; auto.
Qed.

Lemma constructible_iff p : forall t, constructible p t = true <-> made t p.
Proof.
  induction p as [m|c|p IH]; intros t; cbn [constructible].
  - destruct (base_steps t (NPlain m)) as [k|] eqn:E; split; intros H; try discriminate; auto.
    + apply base_steps_iff in E. econstructor; eauto.
    + inversion H as [? ? ? Hb| |]; subst. apply base_steps_iff in Hb. congruence.
  - destruct (base_steps t (NClass c)) as [k|] eqn:E; split; intros H; try discriminate; auto.
    + apply base_steps_iff in E. econstructor; eauto.
    + inversion H as [? ? ? Hb| |]; subst. apply base_steps_iff in Hb. congruence.
  - destruct (base_steps t (NOpt p)) as [k|] eqn:E.
    + split; auto. intros _. apply base_steps_iff in E. econstructor; eauto.
    + rewrite orb_true_iff. split.
      * intros [H|H]; [apply M_content, IH, H|]. destruct t as [| |t]; try discriminate. apply M_opt, IH, H.
      * intros H. inversion H as [? ? ? Hb|? ? Hm|? ? Hm]; subst.
        -- apply base_steps_iff in Hb. congruence.
        -- left. now apply IH.
        -- right. now apply IH.
Qed.

Lemma rank_of_steps_eq n m : same_rank (rank_of_steps n) (rank_of_steps m) = (n =? m).
Proof. destruct n, m; reflexivity. Qed.
Lemma rank_of_steps_lt n m : rank_lt (rank_of_steps n) (rank_of_steps m) = (n <? m).
Proof. destruct n, m; reflexivity. Qed.

Lemma rank_lt_asym r s : rank_lt r s = true -> rank_lt s r = true -> False.
Proof. destruct r, s; cbn [rank_lt]; intros H1 H2; try discriminate. rewrite !Nat.ltb_lt in *. lia. Qed.

Lemma same_rank_sym r s : same_rank r s = same_rank s r.
Proof. destruct r, s; cbn; auto. apply Nat.eqb_sym. Qed.
Lemma less_const_asym a f g : less_const a f g = true -> less_const a g f = false.
Proof. unfold less_const. destruct a; cbn; [discriminate|]. now destruct (f_pass f), (f_pass g). Qed.

Lemma better_asym a t f g : better a t f g = true -> better a t g f = true -> False.
Proof.
  unfold better. destruct (rank_of a t f) as [r|], (rank_of a t g) as [s|]; try discriminate.
  pose proof (rank_lt_asym r s) as Ha. destruct (rank_lt r s); [destruct (rank_lt s r); [intros; now apply Ha|discriminate]|].
  destruct (rank_lt s r); [discriminate|]. rewrite (same_rank_sym s r).
  pose proof (less_const_asym a f g) as L. destruct (same_rank r s); cbn [andb].
  - destruct (less_const a f g); [rewrite L by reflexivity; discriminate|]. destruct (less_const a g f); [discriminate|].
    unfold more_special, is_template. destruct (f_param f), (f_param g); cbn; try discriminate; destruct (f_pass f), (f_pass g); discriminate.
  - unfold more_special, is_template. destruct (f_param f), (f_param g); cbn; try discriminate; destruct (f_pass f), (f_pass g); discriminate.
Qed.

(* ------------------------------------------------------------------ *)
(** ** Lookup *)

Lemma spaces_core t n : In n (spaces_of t) <-> exists ls l, core t = Obj ls /\ In l ls /\ n = l_space l.
Proof.
  induction t as [m|ls|t IH]; cbn [spaces_of core].
  - split; [intros []|intros (? & ? & E & _); discriminate].
  - rewrite in_map_iff. split.
    + intros (l & <- & H). eauto.
    + intros (ls' & l & [= <-] & H & ->). eauto.
  - exact IH.
Qed.

Lemma found_iff p t f : In f (found p t) <-> In f (p_fns p) /\ visible p t f.
Proof.
  unfold found, visible. rewrite filter_In, existsb_exists. split; intros [Hf H]; (split; [exact Hf|]).
  - destruct H as (n & Hn & E). apply Nat.eqb_eq in E. subst n. apply in_app_iff in Hn. rewrite spaces_core in Hn. tauto.
  - exists (f_space f). rewrite Nat.eqb_refl, in_app_iff, spaces_core. tauto.
Qed.

Definition viable (a : bool) (t : ty) (f : fn) : bool := match rank_of a t f with Some _ => true | None => false end.

Lemma free_wins p a t l1 f l2 : p_fns p = l1 ++ f :: l2 -> visible p t f -> viable a t f = true ->
  (forall g, In g (l1 ++ l2) -> candidate p t g -> viable a t g = true -> better a t f g = true) ->
  free_call p a t = if f_deleted f then None else Some f.
Proof.
  intros E Hv Hr H. unfold free_call. change (filter (fun f0 : fn => _) (found p t)) with (filter (viable a t) (found p t)).
  replace (best (better a t) (filter (viable a t) (found p t))) with (Some f); [reflexivity|]. symmetry.
  apply best_iff; [intros; eapply better_asym; eauto|].
  assert (Hin : In f (found p t)). { apply found_iff. split; [rewrite E; apply in_app_iff; right; now left|assumption]. }
  unfold found in *. set (sp := fun f0 : fn => _) in *. rewrite E, filter_app in *. cbn [filter] in *. apply filter_In in Hin || idtac.
  assert (Hs : sp f = true).
  { unfold sp. rewrite existsb_exists. exists (f_space f). rewrite Nat.eqb_refl, in_app_iff, spaces_core. unfold visible in Hv. tauto. }
  rewrite Hs, filter_app. cbn [filter]. rewrite Hr. exists (filter (viable a t) (filter sp l1)), (filter (viable a t) (filter sp l2)).
  split; [reflexivity|]. intros g Hg. apply in_app_iff in Hg. rewrite !filter_In in Hg.
  assert (Hg' : In g (l1 ++ l2) /\ sp g = true /\ viable a t g = true) by (rewrite in_app_iff; tauto). destruct Hg' as (G1 & G2 & G3).
  apply H; auto. split.
  - unfold sp in G2. rewrite existsb_exists in G2. destruct G2 as (n & Hn & En). apply Nat.eqb_eq in En. subst n.
    apply in_app_iff in Hn. rewrite spaces_core in Hn. unfold visible. tauto.
  - unfold viable, rank_of in G3. destruct (f_context g); [reflexivity|discriminate].
Qed.

Lemma free_inv p a t f : free_call p a t = Some f -> In f (p_fns p) /\ visible p t f /\ viable a t f = true /\ f_deleted f = false.
Proof.
  unfold free_call. change (filter (fun f0 : fn => _) (found p t)) with (filter (viable a t) (found p t)).
  destruct (best (better a t) (filter (viable a t) (found p t))) as [g|] eqn:E; [|discriminate].
  destruct (f_deleted g) eqn:Ed; [discriminate|]. intros [= ->].
  apply best_iff in E; [|intros; eapply better_asym; eauto]. destruct E as (l1 & l2 & E & _).
  assert (Hin : In f (filter (viable a t) (found p t))) by (rewrite E; apply in_app_iff; right; now left).
  apply filter_In in Hin. destruct Hin as [Hin Hv]. apply found_iff in Hin. tauto.
Qed.

(** Every other candidate is further away, or asks for const, or needs a conversion, or is a template. *)
Lemma nearest_free p t l1 f l2 q k : p_fns p = l1 ++ f :: l2 -> candidate p t f ->
  f_param f = Named q -> f_pass f = ByRef -> binds t q k ->
  (forall g, In g (l1 ++ l2) -> candidate p t g ->
    match f_param g with
    | Named q' => forall j, binds t q' j -> k < j \/ k = j /\ f_pass g = ByConst
    | Any => k = 0
    | AnyOpt => k = 0 \/ core t = t
    end) -> free_call p false t = if f_deleted f then None else Some f.
Proof.
  intros E [Hv Hc] Hp Hr Hb H. apply base_steps_iff in Hb.
  assert (Rf : rank_of false t f = Some (rank_of_steps k)). { unfold rank_of. rewrite Hc, Hp, Hr, Hb. reflexivity. }
  apply (free_wins p false t l1 f l2); auto; [unfold viable; now rewrite Rf|].
  intros g Hg Cg Vg. specialize (H g Hg Cg). destruct Cg as [_ Cg]. unfold better. rewrite Rf.
  assert (Tf : is_template f = false) by (unfold is_template; now rewrite Hp).
  unfold viable in Vg. destruct (rank_of false t g) as [s|] eqn:Rg; [|discriminate].
  destruct (f_param g) as [q'| |] eqn:Pg.
  - destruct (base_steps t q') as [j|] eqn:Ej.
    + assert (s = rank_of_steps j) as ->. { unfold rank_of in Rg. rewrite Cg, Pg, Ej in Rg. cbn in Rg. destruct (f_pass g); congruence. }
      rewrite !rank_of_steps_lt, rank_of_steps_eq. apply base_steps_iff in Ej. destruct (H j Ej) as [L|[<- Q]].
      * now rewrite (proj2 (Nat.ltb_lt _ _) L).
      * rewrite Nat.ltb_irrefl, Nat.eqb_refl. unfold less_const. rewrite Hr, Q. reflexivity.
    + assert (s = User) as ->. { unfold rank_of in Rg. rewrite Cg, Pg, Ej in Rg. cbn in Rg. destruct (f_pass g), (constructible q' t); congruence. }
      destruct k; reflexivity.
  - subst k. assert (s = Exact) as ->. { unfold rank_of in Rg. rewrite Cg, Pg in Rg. cbn in Rg. congruence. }
    cbn [rank_of_steps rank_lt same_rank andb]. destruct (less_const false f g); [reflexivity|].
    replace (less_const false g f) with false by (unfold less_const; rewrite Hr; now destruct (f_pass g)).
    rewrite Tf. unfold is_template. rewrite Pg. reflexivity.
  - assert (s = Exact) as ->. { unfold rank_of in Rg. rewrite Cg, Pg in Rg. cbn in Rg. destruct t; try discriminate. destruct (f_pass g); congruence. }
    destruct H as [->|Ht].
    + cbn [rank_of_steps rank_lt same_rank andb]. destruct (less_const false f g); [reflexivity|].
      replace (less_const false g f) with false by (unfold less_const; rewrite Hr; now destruct (f_pass g)).
      rewrite Tf. unfold is_template. rewrite Pg. reflexivity.
    + exfalso. unfold rank_of in Rg. rewrite Cg, Pg in Rg. cbn in Rg. destruct t as [| |t']; try discriminate.
      assert (Z : forall w, match core w with Opt _ => False | _ => True end) by (induction w; cbn; auto).
      specialize (Z t'). cbn in Ht. now rewrite Ht in Z.
Qed.

(** The same for a const reference: templates that take any reference are better. *)
Lemma nearest_const_free p a t l1 f l2 q k : p_fns p = l1 ++ f :: l2 -> candidate p t f ->
  f_param f = Named q -> f_pass f = ByConst -> binds t q k ->
  (forall g, In g (l1 ++ l2) -> candidate p t g ->
    match f_param g with
    | Named q' => forall j, binds t q' j -> k < j \/ a = true /\ f_pass g = ByRef
    | Any | AnyOpt => k = 0 /\ (a = true \/ f_pass g <> ByRef)
    end) -> free_call p a t = if f_deleted f then None else Some f.
Proof.
  intros E [Hv Hc] Hp Hr Hb H. apply base_steps_iff in Hb.
  assert (Rf : rank_of a t f = Some (rank_of_steps k)). { unfold rank_of. rewrite Hc, Hp, Hr, Hb. reflexivity. }
  apply (free_wins p a t l1 f l2); auto; [unfold viable; now rewrite Rf|].
  intros g Hg Cg Vg. specialize (H g Hg Cg). destruct Cg as [_ Cg]. unfold better. rewrite Rf.
  assert (Tf : is_template f = false) by (unfold is_template; now rewrite Hp).
  unfold viable in Vg. destruct (rank_of a t g) as [s|] eqn:Rg; [|discriminate].
  assert (Tmpl : is_template g = true -> s = Exact -> k = 0 /\ (a = true \/ f_pass g <> ByRef) ->
    (if rank_lt (rank_of_steps k) s then true else if rank_lt s (rank_of_steps k) then false
     else if same_rank (rank_of_steps k) s && less_const a f g then true else if same_rank (rank_of_steps k) s && less_const a g f then false
     else if negb (is_template f) && is_template g then true else if is_template f && negb (is_template g) then false
     else is_template f && is_template g && more_special f g) = true).
  { intros Tg -> [-> Hp']. cbn [rank_of_steps rank_lt same_rank andb]. destruct (less_const a f g); [reflexivity|].
    replace (less_const a g f) with false; [rewrite Tf, Tg; reflexivity|]. unfold less_const. rewrite Hr.
    destruct Hp' as [->|Hp']; [reflexivity|]. destruct (f_pass g); [contradiction| |]; destruct a; reflexivity. }
  destruct (f_param g) as [q'| |] eqn:Pg.
  - clear Tmpl. destruct (base_steps t q') as [j|] eqn:Ej.
    + assert (s = rank_of_steps j) as ->. { unfold rank_of in Rg. rewrite Cg, Pg, Ej in Rg. cbn in Rg. destruct (f_pass g), a; congruence. }
      rewrite !rank_of_steps_lt. pose proof Ej as Ej'. apply base_steps_iff in Ej. destruct (H j Ej) as [L|[-> Q]].
      * now rewrite (proj2 (Nat.ltb_lt _ _) L).
      * unfold rank_of in Rg. rewrite Cg, Pg, Q in Rg. discriminate.
    + assert (s = User) as ->. { unfold rank_of in Rg. rewrite Cg, Pg, Ej in Rg. cbn in Rg. destruct (f_pass g), a, (constructible q' t); cbn in Rg; congruence. }
      destruct k; reflexivity.
  - apply Tmpl; auto; [unfold is_template; now rewrite Pg|]. unfold rank_of in Rg. rewrite Cg, Pg in Rg. cbn in Rg. congruence.
  - apply Tmpl; auto; [unfold is_template; now rewrite Pg|]. unfold rank_of in Rg. rewrite Cg, Pg in Rg. cbn in Rg.
    destruct t; try discriminate. destruct (f_pass g), a; congruence.
Qed.

(** A template for any reference is taken where nothing names the type itself by reference or by value. *)
Lemma template_free p t l1 f l2 : p_fns p = l1 ++ f :: l2 -> candidate p t f ->
  f_param f = Any -> f_pass f = ByRef ->
  (forall g, In g (l1 ++ l2) -> candidate p t g ->
    match f_param g with
    | Named q' => binds t q' 0 -> f_pass g = ByConst
    | Any => f_pass g = ByConst
    | AnyOpt => f_pass g = ByConst \/ core t = t
    end) -> free_call p false t = if f_deleted f then None else Some f.
Proof.
  intros E [Hv Hc] Hp Hr H.
  assert (Rf : rank_of false t f = Some Exact). { unfold rank_of. rewrite Hc, Hp. reflexivity. }
  apply (free_wins p false t l1 f l2); auto; [unfold viable; now rewrite Rf|].
  intros g Hg Cg Vg. specialize (H g Hg Cg). destruct Cg as [_ Cg]. unfold better. rewrite Rf.
  unfold viable in Vg. destruct (rank_of false t g) as [s|] eqn:Rg; [|discriminate].
  assert (K : forall s', s' = Exact -> f_pass g = ByConst -> same_rank Exact s' && less_const false f g = true).
  { intros s' -> Q. unfold less_const. now rewrite Hr, Q. }
  destruct (f_param g) as [q'| |] eqn:Pg.
  - destruct (base_steps t q') as [j|] eqn:Ej.
    + assert (s = rank_of_steps j) as ->. { unfold rank_of in Rg. rewrite Cg, Pg, Ej in Rg. cbn in Rg. destruct (f_pass g); congruence. }
      apply base_steps_iff in Ej. destruct j as [|j]; [|reflexivity]. cbn [rank_of_steps]. rewrite K; auto.
    + assert (s = User) as ->. { unfold rank_of in Rg. rewrite Cg, Pg, Ej in Rg. cbn in Rg. destruct (f_pass g), (constructible q' t); congruence. }
      reflexivity.
  - assert (s = Exact) as ->. { unfold rank_of in Rg. rewrite Cg, Pg in Rg. cbn in Rg. congruence. } cbn [rank_lt]. rewrite K; auto.
  - assert (s = Exact) as ->. { unfold rank_of in Rg. rewrite Cg, Pg in Rg. cbn in Rg. destruct t; try discriminate. destruct (f_pass g); congruence. }
    destruct H as [H|Ht]; [cbn [rank_lt]; rewrite K; auto|]. exfalso. unfold rank_of in Rg. rewrite Cg, Pg in Rg. cbn in Rg.
    destruct t as [| |t']; try discriminate. cbn in Ht.
    assert (Z : forall w, match core w with Opt _ => False | _ => True end) by (induction w; cbn; auto). specialize (Z t'). now rewrite Ht in Z.
Qed.

(** A template for optionals is taken for those no function names by reference or by value. *)
Lemma opt_template_free p t l1 f l2 : p_fns p = l1 ++ f :: l2 -> candidate p (Opt t) f ->
  f_param f = AnyOpt -> f_pass f = ByRef ->
  (forall g, In g (l1 ++ l2) -> candidate p (Opt t) g ->
    match f_param g with
    | Named q' => binds (Opt t) q' 0 -> f_pass g = ByConst
    | Any => True
    | AnyOpt => f_pass g = ByConst
    end) -> free_call p false (Opt t) = if f_deleted f then None else Some f.
Proof.
  intros E [Hv Hc] Hp Hr H.
  assert (Rf : rank_of false (Opt t) f = Some Exact). { unfold rank_of. rewrite Hc, Hp, Hr. reflexivity. }
  apply (free_wins p false (Opt t) l1 f l2); auto; [unfold viable; now rewrite Rf|].
  intros g Hg Cg Vg. specialize (H g Hg Cg). destruct Cg as [_ Cg]. unfold better. rewrite Rf.
  unfold viable in Vg. destruct (rank_of false (Opt t) g) as [s|] eqn:Rg; [|discriminate].
  assert (K : forall s', s' = Exact -> f_pass g = ByConst -> same_rank Exact s' && less_const false f g = true).
  { intros s' -> Q. unfold less_const. now rewrite Hr, Q. }
  destruct (f_param g) as [q'| |] eqn:Pg.
  - destruct (base_steps (Opt t) q') as [j|] eqn:Ej.
    + assert (s = rank_of_steps j) as ->. { unfold rank_of in Rg. rewrite Cg, Pg, Ej in Rg. cbn in Rg. destruct (f_pass g); congruence. }
      apply base_steps_iff in Ej. destruct j as [|j]; [|reflexivity]. cbn [rank_of_steps]. rewrite K; auto.
    + assert (s = User) as ->. { unfold rank_of in Rg. rewrite Cg, Pg, Ej in Rg. cbn [negb] in Rg. destruct (f_pass g), (constructible q' (Opt t)); cbn in Rg; congruence. }
      reflexivity.
  - assert (s = Exact) as ->. { unfold rank_of in Rg. rewrite Cg, Pg in Rg. cbn in Rg. congruence. }
    cbn [rank_lt same_rank andb]. destruct (less_const false f g); [reflexivity|].
    replace (less_const false g f) with false by (unfold less_const; rewrite Hr; now destruct (f_pass g)).
    unfold is_template, more_special. rewrite Hp, Pg. reflexivity.
  - assert (s = Exact) as ->. { unfold rank_of in Rg. rewrite Cg, Pg in Rg. cbn in Rg. destruct (f_pass g); congruence. }
    cbn [rank_lt]. rewrite K; auto.
Qed.

(** For const arguments, of two templates for all types the one that says const. *)
Lemma const_template_free p t l1 f l2 : p_fns p = l1 ++ f :: l2 -> candidate p t f ->
  f_param f = Any -> f_pass f = ByConst ->
  (forall g, In g (l1 ++ l2) -> candidate p t g ->
    match f_param g with
    | Named q' => binds t q' 0 -> f_pass g = ByRef
    | Any => f_pass g = ByRef
    | AnyOpt => f_pass g = ByRef \/ core t = t
    end) -> free_call p true t = if f_deleted f then None else Some f.
Proof.
  intros E [Hv Hc] Hp Hr H.
  assert (Rf : rank_of true t f = Some Exact). { unfold rank_of. rewrite Hc, Hp. reflexivity. }
  apply (free_wins p true t l1 f l2); auto; [unfold viable; now rewrite Rf|].
  intros g Hg Cg Vg. specialize (H g Hg Cg). destruct Cg as [_ Cg]. unfold better. rewrite Rf.
  unfold viable in Vg. destruct (rank_of true t g) as [s|] eqn:Rg; [|discriminate].
  destruct (f_param g) as [q'| |] eqn:Pg.
  - destruct (base_steps t q') as [j|] eqn:Ej.
    + pose proof Ej as Ej'. apply base_steps_iff in Ej. destruct j as [|j].
      * unfold rank_of in Rg. rewrite Cg, Pg, (H Ej) in Rg. discriminate.
      * assert (s = rank_of_steps (S j)) as ->. { unfold rank_of in Rg. rewrite Cg, Pg, Ej' in Rg. cbn in Rg. destruct (f_pass g); cbn in Rg |- *; congruence. }
        reflexivity.
    + assert (s = User) as ->. { unfold rank_of in Rg. rewrite Cg, Pg, Ej in Rg. cbn in Rg. destruct (f_pass g), (constructible q' t); cbn in Rg; congruence. }
      reflexivity.
  - assert (s = Exact) as ->. { unfold rank_of in Rg. rewrite Cg, Pg in Rg. cbn in Rg. congruence. }
    unfold less_const, is_template, more_special. rewrite Hp, Pg, Hr, H. reflexivity.
  - exfalso. destruct H as [H|Ht].
    + unfold rank_of in Rg. rewrite Cg, Pg, H in Rg. cbn in Rg. destruct t; discriminate.
    + unfold rank_of in Rg. rewrite Cg, Pg in Rg. cbn in Rg. destruct t as [| |t']; try discriminate. cbn in Ht.
      assert (Z : forall w, match core w with Opt _ => False | _ => True end) by (induction w; cbn; auto). specialize (Z t'). now rewrite Ht in Z.
Qed.

(** Two functions that differ in nothing but their names or namespaces. *)
Lemma twice_in {A} (x : A) : forall m1 m2 a b c, m1 ++ x :: m2 = a ++ x :: b ++ x :: c -> In x (m1 ++ m2).
Proof.
  induction m1 as [|y m1 IH]; intros m2 [|z a] b c E; cbn in E |- *.
  - injection E as ->. apply in_app_iff. right. now left.
  - injection E as -> ->. apply in_app_iff. right. now left.
  - injection E as -> E. now left.
  - injection E as -> E. right. eapply IH; eauto.
Qed.

Lemma twins_free p a t l1 f l2 g l3 : p_fns p = l1 ++ f :: l2 ++ g :: l3 -> candidate p t f -> candidate p t g ->
  f_param f = f_param g -> f_pass f = f_pass g -> free_call p a t <> Some f /\ free_call p a t <> Some g.
Proof.
  intros E [Vf Cf] [Vg Cg] Ep Eq.
  assert (R : rank_of a t f = rank_of a t g) by (unfold rank_of; now rewrite Cf, Cg, Ep, Eq).
  assert (Bn : forall x, better a t x x = true -> False) by (intros x H; eapply better_asym; eauto).
  assert (Bf : better a t f g = better a t g g).
  { unfold better, less_const, is_template, more_special. now rewrite R, Ep, Eq. }
  assert (Bg : better a t g f = better a t f f).
  { unfold better, less_const, is_template, more_special. now rewrite R, Ep, Eq. }
  assert (K : forall x, free_call p a t = Some x -> exists m1 m2, filter (viable a t) (found p t) = m1 ++ x :: m2 /\ forall y, In y (m1 ++ m2) -> better a t x y = true).
  { intros x. unfold free_call. change (filter (fun f0 : fn => _) (found p t)) with (filter (viable a t) (found p t)).
    destruct (best (better a t) (filter (viable a t) (found p t))) as [h|] eqn:Eb; [|discriminate].
    destruct (f_deleted h); [discriminate|]. intros [= ->]. apply best_iff in Eb; [|intros; eapply better_asym; eauto]. exact Eb. }
  assert (Sp : forall x, visible p t x -> existsb (Nat.eqb (f_space x)) (spaces_of t ++ p_context p) = true).
  { intros x Hx. rewrite existsb_exists. exists (f_space x). rewrite Nat.eqb_refl, in_app_iff, spaces_core. unfold visible in Hx. tauto. }
  assert (Hv : forall x, free_call p a t = Some x -> (x = f \/ x = g) -> viable a t f = true /\ viable a t g = true).
  { intros x Hx Hxe. apply free_inv in Hx. destruct Hx as (_ & _ & Hx & _). unfold viable in *. destruct Hxe as [-> | ->]; rewrite ?R in *; auto. }
  assert (Sh : viable a t f = true -> viable a t g = true -> exists a1 a2 a3, filter (viable a t) (found p t) = a1 ++ f :: a2 ++ g :: a3).
  { intros Hf Hg. unfold found. rewrite E, !filter_app. cbn [filter]. rewrite (Sp f Vf), !filter_app. cbn [filter]. rewrite (Sp g Vg), Hf. cbn [filter]. rewrite !filter_app. cbn [filter]. rewrite Hg. eauto. }
  split; intros H; destruct (Hv _ H) as [Hf Hg]; auto; destruct (Sh Hf Hg) as (a1 & a2 & a3 & Es); destruct (K _ H) as (m1 & m2 & Em & Hb); rewrite Es in Em.
  - destruct (in_app_or m1 (f :: m2) g) as [Hin|[Hin|Hin]].
    + rewrite <- Em. apply in_app_iff. right. right. apply in_app_iff. right. now left.
    + apply (Bn g). rewrite <- Bf. apply Hb. apply in_app_iff. now left.
    + subst g. apply (Bn f). apply Hb. eapply twice_in. symmetry. exact Em.
    + apply (Bn g). rewrite <- Bf. apply Hb. apply in_app_iff. now right.
  - destruct (in_app_or m1 (g :: m2) f) as [Hin|[Hin|Hin]].
    + rewrite <- Em. apply in_app_iff. right. now left.
    + apply (Bn f). rewrite <- Bg. apply Hb. apply in_app_iff. now left.
    + subst g. apply (Bn f). apply Hb. eapply twice_in. symmetry. exact Em.
    + apply (Bn f). rewrite <- Bg. apply Hb. apply in_app_iff. now right.
Qed.

(* ------------------------------------------------------------------ *)
(** ** Validators *)

Lemma declared_iff ls c m : declared ls = Some (c, m) <->
  exists l1 l l2, ls = l1 ++ l :: l2 /\ (forall x, In x l1 -> l_member x = None) /\ l_member l = Some m /\ l_class l = c.
Proof.
  induction ls as [|l ls IH]; cbn [declared].
  - split; [discriminate|]. intros ([|] & ? & ? & E & _); discriminate.
  - destruct (l_member l) as [m'|] eqn:E.
    + split.
      * intros [= <- <-]. exists [], l, ls. repeat split; auto; intros x [].
      * intros ([|y l1] & l' & l2 & E' & H & Hm & Hc); injection E' as -> ->; [congruence|]. rewrite (H y) in E by now left. discriminate.
    + rewrite IH. split.
      * intros (l1 & l' & l2 & -> & H & Hm & Hc). exists (l :: l1), l', l2. repeat split; auto. intros x [<-|Hx]; auto.
      * intros ([|y l1] & l' & l2 & E' & H & Hm & Hc); injection E' as -> ->; [congruence|]. exists l1, l', l2. repeat split; auto.
        intros x Hx. apply H. now right.
Qed.

Lemma member_iff t c : member_call t = Some c <-> has_member t c.
Proof.
  unfold has_member. destruct t as [n|ls|t]; cbn [member_call].
  - split; [discriminate|]. intros (? & ? & ? & E & _). discriminate.
  - split.
    + destruct (declared ls) as [[c' m]|] eqn:E; [|discriminate]. apply declared_iff in E. destruct E as (l1 & l & l2 & -> & H & Hm & <-).
      destruct m as [[] [] []]; cbn; try discriminate. intros [= <-]. exists l1, l, l2. auto.
    + intros (l1 & l & l2 & [= ->] & H & Hm & <-).
      rewrite (proj2 (declared_iff (l1 ++ l :: l2) (l_class l) (mkmember true true true))); [reflexivity|]. exists l1, l, l2. auto.
  - split; [discriminate|]. intros (? & ? & ? & E & _). discriminate.
Qed.

Lemma validator_cases p t : validator p t =
  Some (match member_call t with Some c => Member c | None => match free_call p false t with Some f => Free f | None => Nothing end end).
Proof.
  unfold validator. destruct (member_call t) as [c|], (free_call p false t) as [f|]; reflexivity.
Qed.

Lemma member_first p t c : has_member t c <-> validator p t = Some (Member c).
Proof.
  rewrite validator_cases, <- member_iff. destruct (member_call t) as [c'|]; [intuition congruence|].
  destruct (free_call p false t); split; discriminate.
Qed.

Lemma no_member t : (forall c, ~ has_member t c) -> member_call t = None.
Proof. intros H. destruct (member_call t) as [c|] eqn:E; [|reflexivity]. apply member_iff in E. exfalso. eapply H; eauto. Qed.

Lemma free_second p t f : validator p t = Some (Free f) <-> (forall c, ~ has_member t c) /\ free_call p false t = Some f.
Proof.
  rewrite validator_cases. split.
  - destruct (member_call t) as [c|] eqn:E; [discriminate|]. destruct (free_call p false t) as [g|]; [|discriminate]. intros [= ->].
    split; [|reflexivity]. intros c H. apply member_iff in H. congruence.
  - intros [H E]. rewrite (no_member _ H), E. reflexivity.
Qed.

Lemma free_result p t f : (forall c, ~ has_member t c) -> free_call p false t = (if f_deleted f then None else Some f) ->
  validator p t = Some (if f_deleted f then Nothing else Free f).
Proof. intros H E. rewrite validator_cases, (no_member _ H), E. now destruct (f_deleted f). Qed.

Lemma nearest_validator p t l1 f l2 q k : (forall c, ~ has_member t c) -> p_fns p = l1 ++ f :: l2 -> candidate p t f ->
  f_param f = Named q -> f_pass f = ByRef -> binds t q k ->
  (forall g, In g (l1 ++ l2) -> candidate p t g ->
    match f_param g with
    | Named q' => forall j, binds t q' j -> k < j \/ k = j /\ f_pass g = ByConst
    | Any => k = 0
    | AnyOpt => k = 0 \/ core t = t
    end) -> validator p t = Some (if f_deleted f then Nothing else Free f).
Proof. intros. apply free_result; [assumption|]. eapply nearest_free; eauto. Qed.

Lemma nearest_const_validator p t l1 f l2 q k : (forall c, ~ has_member t c) -> p_fns p = l1 ++ f :: l2 -> candidate p t f ->
  f_param f = Named q -> f_pass f = ByConst -> binds t q k ->
  (forall g, In g (l1 ++ l2) -> candidate p t g ->
    match f_param g with
    | Named q' => forall j, binds t q' j -> k < j
    | Any | AnyOpt => k = 0 /\ f_pass g <> ByRef
    end) -> validator p t = Some (if f_deleted f then Nothing else Free f).
Proof.
  intros Hm E C P Q B H. apply free_result; [assumption|]. eapply nearest_const_free; eauto.
  intros g Hg Cg. specialize (H g Hg Cg). destruct (f_param g); [intros j Hj; left; auto|tauto|tauto].
Qed.

Lemma template_validator p t l1 f l2 : (forall c, ~ has_member t c) -> p_fns p = l1 ++ f :: l2 -> candidate p t f ->
  f_param f = Any -> f_pass f = ByRef ->
  (forall g, In g (l1 ++ l2) -> candidate p t g ->
    match f_param g with
    | Named q' => binds t q' 0 -> f_pass g = ByConst
    | Any => f_pass g = ByConst
    | AnyOpt => f_pass g = ByConst \/ core t = t
    end) -> validator p t = Some (if f_deleted f then Nothing else Free f).
Proof. intros. apply free_result; [assumption|]. eapply template_free; eauto. Qed.

Lemma opt_template_validator p t l1 f l2 : p_fns p = l1 ++ f :: l2 -> candidate p (Opt t) f ->
  f_param f = AnyOpt -> f_pass f = ByRef ->
  (forall g, In g (l1 ++ l2) -> candidate p (Opt t) g ->
    match f_param g with
    | Named q' => binds (Opt t) q' 0 -> f_pass g = ByConst
    | Any => True
    | AnyOpt => f_pass g = ByConst
    end) -> validator p (Opt t) = Some (if f_deleted f then Nothing else Free f).
Proof.
  intros. apply free_result; [intros c (? & ? & ? & E & _); discriminate|]. eapply opt_template_free; eauto.
Qed.

Lemma twins_validator p t l1 f l2 g l3 : p_fns p = l1 ++ f :: l2 ++ g :: l3 -> candidate p t f -> candidate p t g ->
  f_param f = f_param g -> f_pass f = f_pass g -> validator p t <> Some (Free f) /\ validator p t <> Some (Free g).
Proof.
  intros E Cf Cg Ep Eq. destruct (twins_free p false t l1 f l2 g l3 E Cf Cg Ep Eq) as [Hf Hg].
  split; intros H; apply free_second in H; tauto.
Qed.

(** What a free function can have been called for. *)
Lemma called_for p a t f : free_call p a t = Some f -> In f (p_fns p) /\ candidate p t f /\ f_deleted f = false /\
  match f_param f with
  | Named q => match f_pass f with ByRef => a = false /\ exists k, binds t q k | _ => made t q end
  | Any => True
  | AnyOpt => exists t', t = Opt t'
  end.
Proof.
  intros H. apply free_inv in H. destruct H as (Hi & Hv & Hr & Hd). split; [assumption|]. unfold viable, rank_of in Hr.
  destruct (f_context f) eqn:Ec; [|discriminate]. cbn [negb] in Hr. split; [split; assumption|]. split; [assumption|].
  destruct (f_param f) as [q| |].
  - assert (K : match base_steps t q with Some n => Some (rank_of_steps n) | None => if constructible q t then Some User else None end <> None -> made t q).
    { destruct (base_steps t q) as [k|] eqn:E; [intros _; apply base_steps_iff in E; econstructor; eauto|].
      destruct (constructible q t) eqn:Eq; [intros _; now apply constructible_iff|congruence]. }
    destruct (f_pass f).
    + destruct a; [discriminate|]. split; [reflexivity|]. destruct (base_steps t q) as [k|] eqn:E; [|discriminate]. exists k. now apply base_steps_iff.
    + apply K. intros Z. rewrite Z in Hr. discriminate.
    + apply K. intros Z. rewrite Z in Hr. discriminate.
  - exact I.
  - destruct t as [| |t']; try discriminate. eauto.
Qed.

Lemma validate_in p : forall t d i j c, In (j, c) (validate p t d i) <->
  exists n t', j = i + n /\ n <= d /\ inside_of n t t' /\ validator p t' = Some c /\ c <> Nothing.
Proof.
  unfold inside_of.
  assert (Hd : forall t (i j : nat) c, In (j, c) (match validator p t with Some Nothing | None => [] | Some x => [(i, x)] end) <->
    j = i /\ validator p t = Some c /\ c <> Nothing).
  { intros t i j c. destruct (validator p t) as [[x|f|]|]; cbn [In].
    - split; [intros [E|[]]; injection E as <- <-; repeat split; discriminate|]. intros (-> & E & _). injection E as <-. now left.
    - split; [intros [E|[]]; injection E as <- <-; repeat split; discriminate|]. intros (-> & E & _). injection E as <-. now left.
    - split; [intros []|]. intros (_ & E & N). injection E as <-. now apply N.
    - split; [intros []|]. intros (_ & E & _). discriminate. }
  assert (Base : forall t d (i j : nat) c, (match t, d with Opt _, S _ => False | _, _ => True end) ->
    In (j, c) (match validator p t with Some Nothing | None => [] | Some x => [(i, x)] end) <->
    exists n t', j = i + n /\ n <= d /\ t = Nat.iter n Opt t' /\ validator p t' = Some c /\ c <> Nothing).
  { intros t d i j c Hn. rewrite Hd. split.
    - intros (-> & E & N). exists 0, t. repeat split; auto; lia.
    - intros ([|n] & t' & -> & L & E & H); cbn in E; [subst t'; rewrite Nat.add_0_r; tauto|]. subst t. destruct d; [lia|contradiction]. }
  induction t as [m|ls|t IH]; intros d i j c; cbn [validate].
  - rewrite app_nil_r. now apply Base.
  - rewrite app_nil_r. now apply Base.
  - destruct d as [|d]; [rewrite app_nil_r; now apply Base|]. rewrite in_app_iff, IH, Hd. split.
    + intros [(-> & H)|(n & t' & -> & L & -> & H)]; [exists 0, (Opt t); cbn; repeat split; try lia; tauto|].
      exists (S n), t'. cbn. repeat split; try lia; tauto.
    + intros ([|n] & t' & -> & L & E & H); cbn in E; [left; subst t'; rewrite Nat.add_0_r; tauto|].
      injection E as ->. right. exists n, t'. repeat split; try lia; tauto.
Qed.

Lemma validate_above p t : forall d i, Forall (fun x => i <= fst x) (validate p t d i).
Proof.
  intros d i. apply Forall_forall. intros [j c] H. apply validate_in in H. destruct H as (n & _ & -> & _). cbn. lia.
Qed.

Lemma validate_sorted p t : forall d i, StronglySorted lt (map fst (validate p t d i)).
Proof.
  induction t as [m|ls|t IH]; intros d i; cbn [validate].
  - destruct (validator p (Plain m)) as [[]|]; cbn; repeat constructor.
  - destruct (validator p (Obj ls)) as [[]|]; cbn; repeat constructor.
  - assert (K : StronglySorted lt (map fst (match d with S d' => validate p t d' (S i) | 0 => [] end)) /\
      Forall (fun x => i < x) (map fst (match d with S d' => validate p t d' (S i) | 0 => [] end))).
    { destruct d; [split; constructor|]. split; [apply IH|]. pose proof (validate_above p t d (S i)) as H.
      apply Forall_forall. intros x Hx. apply in_map_iff in Hx. destruct Hx as (y & <- & Hy). rewrite Forall_forall in H. apply H in Hy. lia. }
    destruct K as [K1 K2]. destruct (validator p (Opt t)) as [[]|]; cbn [map app fst]; auto; constructor; auto.
Qed.

(** References to a type bind at one depth only. *)
Fixpoint depth_of (t : ty) : nat := match t with Opt t' => S (depth_of t') | _ => 0 end.
Fixpoint depth_of_named (p : named) : nat := match p with NOpt p' => S (depth_of_named p') | _ => 0 end.
Lemma binds_depth t p k : binds t p k -> depth_of t = depth_of_named p.
Proof. induction 1; cbn; auto. Qed.
Lemma iter_depth n t : depth_of (Nat.iter n Opt t) = n + depth_of t.
Proof. induction n; cbn; auto. Qed.

Lemma reference_once p t d f i j : f_pass f = ByRef -> (exists q, f_param f = Named q) ->
  In (i, Free f) (validate p t d 0) -> In (j, Free f) (validate p t d 0) -> i = j.
Proof.
  intros Hr (q & Hq) Hi Hj. apply validate_in in Hi, Hj.
  destruct Hi as (n & t1 & -> & _ & E1 & V1 & _), Hj as (m & t2 & -> & _ & E2 & V2 & _). unfold inside_of in *.
  apply free_second in V1, V2. destruct V1 as [_ V1], V2 as [_ V2]. apply called_for in V1, V2. rewrite Hq, Hr in V1, V2.
  destruct V1 as (_ & _ & _ & _ & k1 & B1), V2 as (_ & _ & _ & _ & k2 & B2). apply binds_depth in B1, B2.
  assert (E : depth_of (Nat.iter n Opt t1) = depth_of (Nat.iter m Opt t2)) by congruence. rewrite !iter_depth in E. lia.
Qed.

Lemma matcher_cases p t : matcher p t = Some (match free_call p true t with Some f => Free f | None => Nothing end).
Proof. unfold matcher. destruct (free_call p true t); reflexivity. Qed.

Lemma validator_total p t : exists c, validator p t = Some c.
Proof. rewrite validator_cases. eauto. Qed.
Lemma matcher_total p t : exists c, matcher p t = Some c.
Proof. rewrite matcher_cases. eauto. Qed.

Lemma called_validator p t f : validator p t = Some (Free f) -> (forall c, ~ has_member t c) /\ In f (p_fns p) /\ candidate p t f /\ f_deleted f = false /\
  match f_param f with
  | Named q => match f_pass f with ByRef => exists k, binds t q k | _ => made t q end
  | Any => True
  | AnyOpt => exists t', t = Opt t'
  end.
Proof.
  intros H. apply free_second in H. destruct H as [H1 H]. split; [assumption|]. apply called_for in H. destruct H as (A & B & C & D).
  repeat split; auto; try apply B. destruct (f_param f); auto. destruct (f_pass f); auto. tauto.
Qed.

Lemma called_matcher p t f : matcher p t = Some (Free f) -> In f (p_fns p) /\ candidate p t f /\ f_deleted f = false /\
  match f_param f with
  | Named q => f_pass f <> ByRef /\ made t q
  | Any => True
  | AnyOpt => exists t', t = Opt t'
  end.
Proof.
  rewrite matcher_cases. destruct (free_call p true t) as [g|] eqn:E; [|discriminate]. intros [= ->]. apply called_for in E.
  destruct E as (A & B & C & D). repeat split; auto; try apply B. destruct (f_param f); auto. destruct (f_pass f); auto; try (split; [discriminate|assumption]).
  destruct D. discriminate.
Qed.

Lemma const_matcher p t l1 f l2 q k : p_fns p = l1 ++ f :: l2 -> candidate p t f ->
  f_param f = Named q -> f_pass f = ByConst -> binds t q k ->
  (forall g, In g (l1 ++ l2) -> candidate p t g ->
    match f_param g with
    | Named q' => forall j, binds t q' j -> k < j \/ f_pass g = ByRef
    | Any | AnyOpt => k = 0
    end) -> matcher p t = Some (if f_deleted f then Nothing else Free f).
Proof.
  intros E C P Q B H. rewrite matcher_cases. erewrite nearest_const_free; eauto; [now destruct (f_deleted f)|].
  intros g Hg Cg. specialize (H g Hg Cg). destruct (f_param g); [|tauto|tauto]. intros j Hj. destruct (H j Hj); auto.
Qed.

Lemma const_template_matcher p t l1 f l2 : p_fns p = l1 ++ f :: l2 -> candidate p t f ->
  f_param f = Any -> f_pass f = ByConst ->
  (forall g, In g (l1 ++ l2) -> candidate p t g ->
    match f_param g with
    | Named q' => binds t q' 0 -> f_pass g = ByRef
    | Any => f_pass g = ByRef
    | AnyOpt => f_pass g = ByRef \/ core t = t
    end) -> matcher p t = Some (if f_deleted f then Nothing else Free f).
Proof. intros. rewrite matcher_cases. erewrite const_template_free; eauto. now destruct (f_deleted f). Qed.

Lemma twins_matcher p t l1 f l2 g l3 : p_fns p = l1 ++ f :: l2 ++ g :: l3 -> candidate p t f -> candidate p t g ->
  f_param f = f_param g -> f_pass f = f_pass g -> matcher p t <> Some (Free f) /\ matcher p t <> Some (Free g).
Proof.
  intros E Cf Cg Ep Eq. destruct (twins_free p true t l1 f l2 g l3 E Cf Cg Ep Eq) as [Hf Hg]. rewrite matcher_cases.
  destruct (free_call p true t) as [h|]; split; intros [= ->]; congruence.
Qed.
