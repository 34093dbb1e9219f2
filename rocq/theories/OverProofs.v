(** Overload resolution. *)
From Coq Require Import List Arith ZArith Bool Lia Permutation.
From Verif Require Import Base OverModel OverSpec.
Import ListNotations.

Lemma arith_eqb_eq : forall a b, arith_eqb a b = true <-> a = b.
Proof. intros a b. destruct a, b; cbn; split; intros H; reflexivity + discriminate. Qed.
Lemma ty_eqb_eq : forall a b, ty_eqb a b = true <-> a = b.
Proof.
  induction a as [x|n|t IH n|i]; intros [y|m|u m|j]; cbn [ty_eqb]; try (split; intros H; discriminate).
  - rewrite arith_eqb_eq. split; [intros ->; reflexivity | intros E; injection E as ->; reflexivity].
  - rewrite Nat.eqb_eq. split; [intros ->; reflexivity | intros E; injection E as ->; reflexivity].
  - rewrite andb_true_iff, IH, Nat.eqb_eq. split; [intros [-> ->]; reflexivity | intros E; injection E as -> ->; split; reflexivity].
  - rewrite Nat.eqb_eq. split; [intros ->; reflexivity | intros E; injection E as ->; reflexivity].
Qed.
Lemma ty_eqb_refl : forall t, ty_eqb t t = true.
Proof. intros t. apply ty_eqb_eq. reflexivity. Qed.
Lemma ty_eqb_neq : forall t u, t <> u -> ty_eqb t u = false.
Proof. intros t u H. destruct (ty_eqb t u) eqn:E; [apply ty_eqb_eq in E; contradiction | reflexivity]. Qed.

Lemma derives_irrefl : forall W t, sound W -> derives W t t = false.
Proof. intros W [a|n|u n|i] [H _]; try reflexivity. apply H. Qed.
Lemma derives_asym : forall W t u, sound W -> derives W t u = true -> derives W u t = false.
Proof.
  intros W [|n| |] [|m| |] [H T] D; try reflexivity; try discriminate D. cbn in *.
  destruct (w_derives W m n) eqn:E; [|reflexivity]. pose proof (T _ _ _ D E) as F. rewrite H in F. discriminate F.
Qed.

(** * Order of candidates *)

Lemma rank_lt_irrefl : forall r, rank_lt r r = false. Proof. intros []; reflexivity. Qed.

Lemma ics_asym : forall W i j, sound W -> ics_better W i j = true -> ics_better W j i = false.
Proof.
  intros W [r t b] [r2 t2 b2] Sd H. unfold ics_better in *. cbn [i_rank i_type i_ref] in *.
  destruct (rank_lt r r2) eqn:L; [destruct r, r2; try discriminate L; reflexivity|]. cbn [orb] in H.
  apply andb_true_iff in H as [H1 H2]. apply andb_true_iff in H1 as [H1 H3].
  assert (E : r = r2) by (destruct r, r2; try discriminate L; try discriminate H1; reflexivity). subst r2.
  rewrite rank_lt_irrefl, H1, H3. cbn [orb andb].
  apply orb_true_iff in H2 as [D | B].
  - rewrite (derives_asym _ _ _ Sd D). cbn [orb].
    assert (N : ty_eqb t2 t = false).
    { destruct (ty_eqb t2 t) eqn:E; [|reflexivity]. apply ty_eqb_eq in E. subst t2. rewrite (derives_irrefl W t Sd) in D. discriminate D. }
    rewrite N. destruct b as [[? ?]|], b2 as [[? ?]|]; reflexivity.
  - destruct b as [[x y]|], b2 as [[x2 y2]|]; try discriminate B.
    apply andb_true_iff in B as [E B]. apply ty_eqb_eq in E. subst t2. rewrite (derives_irrefl W t Sd), ty_eqb_refl. cbn [orb andb].
    destruct x, x2, y, y2; try discriminate B; reflexivity.
Qed.

Lemma tie_asym : forall h g, tie_break h g = true -> tie_break g h = false.
Proof.
  intros h g. unfold tie_break, more_specialized. destruct (is_template h), (is_template g); cbn [negb andb]; try reflexivity; try discriminate;
    destruct (at_least (c_param h) (c_param g)), (at_least (c_param g) (c_param h)); cbn [negb andb]; try reflexivity; try discriminate;
    destruct (c_guide h), (c_guide g), (c_copy h), (c_copy g); cbn; intros H; reflexivity + discriminate.
Qed.

Lemma better_asym : forall W h g i j, sound W -> better W h g i j = true -> better W g h j i = false.
Proof.
  intros W h g i j Sd H. unfold better in *. apply andb_true_iff in H as [H T]. apply andb_true_iff in H as [O I].
  apply negb_true_iff in O. apply negb_true_iff in I. rewrite O, I.
  destruct (c_mutable h && negb (c_mutable g)) eqn:Ob; [reflexivity|]. cbn [orb negb andb] in *.
  apply orb_true_iff in T as [T|T]; [rewrite T; reflexivity|].
  rewrite (tie_asym _ _ T). destruct (ics_better W i j); reflexivity.
Qed.

(** * The best one *)

(** The candidate at position [n] is viable and better than all other viable ones. *)
Definition wins (W : world) (oc : bool) (a : arg) (cs : list cand) (n : nat) : Prop :=
  exists c i, nth_error cs n = Some c /\ viable W oc a c = Some i /\
    forall m d j, m <> n -> nth_error cs m = Some d -> viable W oc a d = Some j -> better W c d i j = true.

Lemma in_viables : forall W oc a cs k n c i, In (n, c, i) (viables W oc a k cs) <->
  k <= n /\ nth_error cs (n - k) = Some c /\ viable W oc a c = Some i.
Proof.
  intros W oc a. induction cs as [|d cs IH]; intros k n c i.
  - split; [intros []|]. intros (_ & H & _). destruct (n - k); discriminate H.
  - cbn [viables]. rewrite in_app_iff, IH. split.
    + intros [H | (L & H & V)].
      * destruct (viable W oc a d) as [j|] eqn:E; [|destruct H]. destruct H as [H|[]]. injection H as <- <- <-. rewrite Nat.sub_diag. auto.
      * split; [lia|]. split; [|exact V]. replace (n - k) with (S (n - S k)) by lia. exact H.
    + intros (L & H & V). destruct (n - k) as [|p] eqn:E.
      * left. injection H as ->. rewrite V. replace n with k by lia. left. reflexivity.
      * right. split; [lia|]. split; [|exact V]. replace (n - S k) with p by lia. exact H.
Qed.

Lemma viables_nodup : forall W oc a cs k, NoDup (viables W oc a k cs).
Proof.
  intros W oc a. induction cs as [|d cs IH]; intros k; [apply NoDup_nil|]. cbn [viables].
  destruct (viable W oc a d) as [j|]; [|apply IH]. apply NoDup_cons; [|apply IH]. rewrite in_viables. lia.
Qed.

Lemma best_in : forall W after before n, In n (best W before after) <->
  exists l1 c i l2, after = l1 ++ (n, c, i) :: l2 /\ forall m d j, In (m, d, j) (before ++ l1 ++ l2) -> better W c d i j = true.
Proof.
  intros W. induction after as [|[[k c] i] after IH]; intros before n.
  - split; [intros []|]. intros (l1 & c & i & l2 & E & _). destruct l1; discriminate E.
  - cbn [best]. rewrite in_app_iff, IH. split.
    + intros [H | (l1 & d & j & l2 & -> & H)].
      * destruct (forallb _ (before ++ after)) eqn:F; [|destruct H]. destruct H as [<-|[]].
        exists [], c, i, after. split; [reflexivity|]. intros m d j I. rewrite forallb_forall in F. exact (F _ I).
      * exists ((k, c, i) :: l1), d, j, l2. split; [reflexivity|]. intros m e x I. apply (H m e x). rewrite <- app_assoc. exact I.
    + intros (l1 & d & j & l2 & E & H). destruct l1 as [|x l1]; injection E as E1 E2.
      * left. subst. replace (forallb _ (before ++ l2)) with true; [left; reflexivity|]. symmetry. apply forallb_forall.
        intros [[m e] x] I. exact (H m e x I).
      * right. subst. exists l1, d, j, l2. split; [reflexivity|]. intros m e x I. apply (H m e x). rewrite <- app_assoc in I. exact I.
Qed.

Lemma wins_unique : forall W oc a cs n m, sound W -> wins W oc a cs n -> wins W oc a cs m -> n = m.
Proof.
  intros W oc a cs n m Sd (c & i & N1 & V1 & B1) (d & j & N2 & V2 & B2). destruct (Nat.eq_dec n m) as [->|D]; [reflexivity|].
  pose proof (B1 m d j (fun e => D (eq_sym e)) N2 V2) as X. pose proof (B2 n c i D N1 V1) as Y.
  rewrite (better_asym _ _ _ _ _ Sd X) in Y. discriminate Y.
Qed.

Lemma best_wins : forall W oc a cs n, In n (best W [] (viables W oc a 0 cs)) <-> wins W oc a cs n.
Proof.
  intros W oc a cs n. rewrite best_in. split.
  - intros (l1 & c & i & l2 & E & H).
    assert (I : In (n, c, i) (viables W oc a 0 cs)) by (rewrite E; apply in_elt).
    apply in_viables in I as (_ & N & V). rewrite Nat.sub_0_r in N. exists c, i. split; [exact N|]. split; [exact V|].
    intros m d j D Nm Vd. apply (H m d j). cbn [app].
    assert (I : In (m, d, j) (viables W oc a 0 cs)) by (apply in_viables; rewrite Nat.sub_0_r; repeat split; [lia | exact Nm | exact Vd]).
    rewrite E in I. apply in_app_iff. apply in_app_iff in I as [I | [I|I]]; [left; exact I | injection I as <-; contradiction | right; exact I].
  - intros (c & i & N & V & B).
    assert (I : In (n, c, i) (viables W oc a 0 cs)) by (apply in_viables; rewrite Nat.sub_0_r; repeat split; [lia | exact N | exact V]).
    destruct (in_split _ _ I) as (l1 & l2 & E). exists l1, c, i, l2. split; [exact E|]. intros m d j Im. cbn [app] in Im.
    pose proof (viables_nodup W oc a cs 0) as ND. rewrite E in ND.
    assert (I2 : In (m, d, j) (viables W oc a 0 cs)) by (rewrite E; apply in_app_iff; apply in_app_iff in Im as [Im|Im]; [left; exact Im | right; right; exact Im]).
    apply in_viables in I2 as (_ & Nm & Vd). rewrite Nat.sub_0_r in Nm. apply (B m d j); [|exact Nm | exact Vd].
    intros ->. rewrite N in Nm. injection Nm as ->. rewrite V in Vd. injection Vd as ->. exact (NoDup_remove_2 _ _ _ ND Im).
Qed.

Lemma best_nodup : forall W oc a cs, NoDup (best W [] (viables W oc a 0 cs)).
Proof.
  intros W oc a cs.
  assert (H : forall after before, NoDup (map (fun x => fst (fst x)) after) -> NoDup (best W before after) /\ (forall n, In n (best W before after) -> In n (map (fun x => fst (fst x)) after))).
  { induction after as [|[[k c] i] after IH]; intros before ND; [split; [apply NoDup_nil | intros n []]|].
    cbn [best map fst] in *. inversion ND as [|? ? N1 N2]; subst. destruct (IH (before ++ [(k, c, i)]) N2) as [A B].
    destruct (forallb _ (before ++ after)); cbn [app].
    - split; [apply NoDup_cons; [intros I; exact (N1 (B _ I)) | exact A]|]. intros n [->|I]; [left; reflexivity | right; exact (B n I)].
    - split; [exact A|]. intros n I. right. exact (B n I). }
  apply H. clear H.
  assert (G : forall k, NoDup (map (fun x => fst (fst x)) (viables W oc a k cs)) /\ (forall n, In n (map (fun x => fst (fst x)) (viables W oc a k cs)) -> k <= n)).
  { induction cs as [|d cs IH]; intros k; [split; [apply NoDup_nil | intros n []]|]. cbn [viables]. destruct (IH (S k)) as [A B].
    destruct (viable W oc a d) as [j|]; cbn [app map fst].
    - split; [apply NoDup_cons; [intros I; specialize (B _ I); lia | exact A]|]. intros n [<-|I]; [lia | specialize (B _ I); lia].
    - split; [exact A|]. intros n I. specialize (B _ I). lia. }
  apply G.
Qed.

Lemma resolve_wins : forall W oc a cs n, sound W -> resolve W oc a cs = Some n <-> wins W oc a cs n.
Proof.
  intros W oc a cs n Sd. unfold resolve. split.
  - destruct (best W [] (viables W oc a 0 cs)) as [|m [|]] eqn:E; try discriminate. intros H. injection H as ->.
    apply best_wins. rewrite E. left. reflexivity.
  - intros H. pose proof (proj2 (best_wins W oc a cs n) H) as I. pose proof (best_nodup W oc a cs) as ND.
    assert (U : forall m, In m (best W [] (viables W oc a 0 cs)) -> m = n) by (intros m Im; apply (wins_unique W oc a cs m n Sd); [apply best_wins, Im | exact H]).
    destruct (best W [] (viables W oc a 0 cs)) as [|m [|k l]]; [destruct I | rewrite (U m (or_introl eq_refl)); reflexivity|].
    exfalso. pose proof (U m (or_introl eq_refl)) as E1. pose proof (U k (or_intror (or_introl eq_refl))) as E2. subst.
    inversion ND as [|? ? N _]. apply N. left. reflexivity.
Qed.

(** * Order of the handlers *)

Lemma chosen_split : forall W oc a cs c, sound W -> (chosen W oc a cs = Some c <->
  exists l1 l2 i, cs = l1 ++ c :: l2 /\ viable W oc a c = Some i /\
    forall d j, In d (l1 ++ l2) -> viable W oc a d = Some j -> better W c d i j = true).
Proof.
  intros W oc a cs c Sd. unfold chosen. split.
  - destruct (resolve W oc a cs) as [n|] eqn:E; [|discriminate]. intros N. apply (resolve_wins W oc a cs n Sd) in E as (c' & i & N' & V & B).
    rewrite N in N'. injection N' as <-. destruct (nth_error_split cs n N) as (l1 & l2 & -> & L). exists l1, l2, i. split; [reflexivity|]. split; [exact V|].
    intros d j I Vd. apply in_app_iff in I as [I|I]; apply In_nth_error in I as [m Hm].
    + assert (Lm : m < length l1) by (apply nth_error_Some; congruence).
      apply (B m d j); [lia | rewrite nth_error_app1 by exact Lm; exact Hm | exact Vd].
    + apply (B (S (length l1 + m)) d j); [lia | rewrite nth_error_app2 by lia; replace (S (length l1 + m) - length l1) with (S m) by lia; exact Hm | exact Vd].
  - intros (l1 & l2 & i & -> & V & B).
    assert (N : nth_error (l1 ++ c :: l2) (length l1) = Some c) by (rewrite nth_error_app2, Nat.sub_diag by lia; reflexivity).
    replace (resolve W oc a (l1 ++ c :: l2)) with (Some (length l1)); [exact N|]. symmetry. apply resolve_wins; [exact Sd|].
    exists c, i. split; [exact N|]. split; [exact V|]. intros m d j D Hm Vd. apply (B d j); [|exact Vd]. apply in_app_iff.
    destruct (Nat.lt_ge_cases m (length l1)) as [Lt|Ge].
    + left. rewrite nth_error_app1 in Hm by exact Lt. exact (nth_error_In _ _ Hm).
    + right. rewrite nth_error_app2 in Hm by exact Ge. destruct (m - length l1) as [|p] eqn:E; [lia|]. cbn [nth_error] in Hm. exact (nth_error_In _ _ Hm).
Qed.

Lemma chosen_permutation_some : forall W oc a cs ds c, sound W -> Permutation cs ds -> chosen W oc a cs = Some c -> chosen W oc a ds = Some c.
Proof.
  intros W oc a cs ds c Sd P H. apply (chosen_split W oc a cs c Sd) in H as (l1 & l2 & i & -> & V & B).
  assert (I : In c ds) by (eapply Permutation_in; [exact P | apply in_elt]).
  destruct (in_split _ _ I) as (k1 & k2 & ->). apply chosen_split; [exact Sd|]. exists k1, k2, i. split; [reflexivity|]. split; [exact V|].
  intros d j Id Vd. apply (B d j); [|exact Vd]. apply Permutation_app_inv in P. eapply Permutation_in; [apply Permutation_sym, P | exact Id].
Qed.

Lemma chosen_permutation : forall W oc a cs ds, sound W -> Permutation cs ds -> chosen W oc a cs = chosen W oc a ds.
Proof.
  intros W oc a cs ds Sd P. destruct (chosen W oc a cs) as [c|] eqn:E; [symmetry; exact (chosen_permutation_some W oc a cs ds c Sd P E)|].
  destruct (chosen W oc a ds) as [d|] eqn:F; [|reflexivity].
  rewrite (chosen_permutation_some W oc a ds cs d Sd (Permutation_sym P) F) in E. discriminate E.
Qed.

(** * Lvalues of one type *)

Lemma convert_exact : forall W t u, convert W t u = Some exact_match -> t = u.
Proof.
  intros W t u H. unfold convert in H. destruct (ty_eqb t u) eqn:E; [apply ty_eqb_eq, E|].
  destruct t, u; try (destruct (derives W _ _); [discriminate H|]; destruct (w_converts W _ _); discriminate H).
  destruct (promotes a a0); discriminate H.
Qed.
Lemma convert_refl : forall W t, convert W t t = Some exact_match.
Proof. intros W t. unfold convert. rewrite ty_eqb_refl. reflexivity. Qed.
Lemma convert_other : forall W t u r, t <> u -> convert W t u = Some r -> rank_lt exact_match r = true.
Proof. intros W t u r D H. destruct r; try reflexivity. apply convert_exact in H. contradiction. Qed.
Lemma related_refl : forall W t, related W t t = true.
Proof. intros W t. unfold related. rewrite ty_eqb_refl. reflexivity. Qed.

Lemma sequence_rank : forall W a p i, sequence W a p = Some i ->
  match p with CVal u | CL _ u | CR _ u => i_type i = u /\ convert W (a_type a) u = Some (i_rank i) end.
Proof.
  intros W a p i H. destruct p as [u|c u|c u]; unfold sequence in H; cbv zeta in H.
  - destruct (convert W (a_type a) u); [|discriminate H]. injection H as <-. split; reflexivity.
  - destruct (related W (a_type a) u).
    + destruct (implb (a_const a) c && (a_lvalue a || c)); [|discriminate H].
      destruct (convert W (a_type a) u); [|discriminate H]. injection H as <-. split; reflexivity.
    + destruct c; [|discriminate H]. destruct (convert W (a_type a) u); [|discriminate H]. injection H as <-. split; reflexivity.
  - destruct (related W (a_type a) u).
    + destruct (implb (a_const a) c && negb (a_lvalue a)); [|discriminate H].
      destruct (convert W (a_type a) u); [|discriminate H]. injection H as <-. split; reflexivity.
    + destruct (convert W (a_type a) u); [|discriminate H]. injection H as <-. split; reflexivity.
Qed.

(** A viable candidate that is an exact match for an lvalue. *)
Lemma exact_viable : forall W oc c t g i, viable W oc (mkarg true c t) g = Some i -> i_rank i = exact_match ->
  i_type i = t /\ (i_ref i = None \/ exists b, i_ref i = Some (false, b) /\ implb c b = true).
Proof.
  intros W oc c t g i V R. unfold viable in V. destruct (oc && c_mutable g); [discriminate V|].
  destruct (deduce (c_param g) (mkarg true c t)) as [p|]; [|discriminate V]. pose proof (sequence_rank _ _ _ _ V) as Q.
  destruct p as [u|b u|b u]; destruct Q as [T C]; rewrite R in C; cbn [a_type] in C; apply convert_exact in C; rewrite <- C in T, V; (split; [exact T|]);
    unfold sequence in V; cbn [a_type a_const a_lvalue] in V; rewrite ?related_refl, convert_refl in V.
  - left. injection V as <-. reflexivity.
  - right. exists b. destruct (implb c b); [|discriminate V]. cbn in V. injection V as <-. split; reflexivity.
  - destruct (implb c b); discriminate V.
Qed.

Lemma other_rank : forall W oc a g i u, p_pat (c_param g) = Exactly u -> u <> a_type a -> viable W oc a g = Some i -> rank_lt exact_match (i_rank i) = true.
Proof.
  intros W oc a g i u P D V. unfold viable in V. destruct (oc && c_mutable g); [discriminate V|].
  unfold deduce in V. rewrite P in V. destruct (p_ref (c_param g)); cbv iota in V; try (apply sequence_rank in V as [_ C]; exact (convert_other W _ _ _ (fun e => D (eq_sym e)) C)).
  destruct (a_lvalue a); apply sequence_rank in V as [_ C]; exact (convert_other W _ _ _ (fun e => D (eq_sym e)) C).
Qed.

Lemma own_viable : forall W c t h, for_type c t (c_param h) ->
  viable W false (mkarg true c t) h = Some (mkics exact_match t (match p_ref (c_param h) with by_value => None | _ => Some (false, p_const (c_param h)) end)).
Proof.
  intros W c t h (P & H). unfold viable, deduce. cbn [andb]. rewrite P. destruct H as [H | [H N]]; rewrite H.
  - unfold sequence. cbn [a_type]. rewrite convert_refl. reflexivity.
  - unfold sequence. cbn [a_type a_const a_lvalue]. rewrite related_refl, convert_refl.
    assert (E : implb c (p_const (c_param h)) = true) by (destruct c; [rewrite N; reflexivity | reflexivity]). rewrite E. reflexivity.
Qed.

(** No conversion is better than an exact one that adds no [const]. *)
Lemma exact_best : forall W oc c t g i b, sound W -> viable W oc (mkarg true c t) g = Some i -> b = None \/ b = Some (false, c) ->
  ics_better W i (mkics exact_match t b) = false.
Proof.
  intros W oc c t g i b Sd V B. unfold ics_better. cbn [i_rank i_type i_ref].
  destruct (i_rank i) eqn:R; try reflexivity. destruct (exact_viable _ _ _ _ _ _ V R) as [T H]. rewrite T, derives_irrefl by exact Sd. cbn.
  destruct B as [B|B]; rewrite B; destruct H as [H | (d & H & I)]; rewrite H; try reflexivity.
  rewrite ty_eqb_refl. cbn. destruct c, d; try discriminate I; reflexivity.
Qed.

Lemma other_worse : forall W t b i, rank_lt exact_match (i_rank i) = true -> ics_better W (mkics exact_match t b) i = true /\ ics_better W i (mkics exact_match t b) = false.
Proof. intros W t b i R. unfold ics_better. cbn [i_rank i_type i_ref]. destruct (i_rank i); try discriminate R; split; reflexivity. Qed.

Definition const_call (h : cand) : Prop := c_mutable h = false.

Lemma own_handler : forall W c t cs n h, sound W -> nth_error cs n = Some h -> for_type c t (c_param h) -> ~ adds_const c (c_param h) ->
  const_call h -> (forall m g, m <> n -> nth_error cs m = Some g -> const_call g /\ p_pat (c_param g) <> Exactly t) ->
  resolve W false (mkarg true c t) cs = Some n.
Proof.
  intros W c t cs n h Sd N F A M O. apply resolve_wins; [exact Sd|]. eexists h, _. split; [exact N|]. split; [apply own_viable, F|].
  intros m g j D Nm V. destruct (O m g D Nm) as [Mg Pg]. unfold better. rewrite M, Mg. cbn [andb negb orb].
  set (b := match p_ref (c_param h) with by_value => None | _ => Some (false, p_const (c_param h)) end).
  assert (B : b = None \/ b = Some (false, c)).
  { subst b. destruct F as (_ & [F | [F G]]); rewrite F; [left; reflexivity|]. right. f_equal. f_equal.
    destruct (p_const (c_param h)) eqn:Pc; [|destruct c; [specialize (G eq_refl); discriminate G | reflexivity]].
    destruct c; [reflexivity|]. exfalso. apply A. repeat split; assumption. }
  rewrite (exact_best W false c t g j b Sd V B). cbn [negb andb].
  destruct (p_pat (c_param g)) as [u| | |] eqn:P.
  - rewrite (proj1 (other_worse W t b j (other_rank W false (mkarg true c t) g j u P (fun e : u = t => Pg (f_equal Exactly e)) V))). reflexivity.
  - unfold tie_break, is_template. rewrite P, (proj1 F). apply orb_true_r.
  - unfold tie_break, is_template. rewrite P, (proj1 F). apply orb_true_r.
  - unfold tie_break, is_template. rewrite P, (proj1 F). apply orb_true_r.
Qed.

(** Without handlers that take anything also one that adds a [const]. *)
Lemma own_handler_plain : forall W c t cs n h, sound W -> nth_error cs n = Some h -> for_type c t (c_param h) -> const_call h ->
  (forall m g, m <> n -> nth_error cs m = Some g -> const_call g /\ exists u, p_pat (c_param g) = Exactly u /\ u <> t) ->
  resolve W false (mkarg true c t) cs = Some n.
Proof.
  intros W c t cs n h Sd N F M O. apply resolve_wins; [exact Sd|]. eexists h, _. split; [exact N|]. split; [apply own_viable, F|].
  intros m g j D Nm V. destruct (O m g D Nm) as [Mg (u & P & U)]. unfold better. rewrite M, Mg. cbn [andb negb orb].
  destruct (other_worse W t (match p_ref (c_param h) with by_value => None | _ => Some (false, p_const (c_param h)) end) j (other_rank W false (mkarg true c t) g j u P U V)) as [-> ->]. reflexivity.
Qed.

(** One that adds a [const] loses against one that takes anything without. *)
Lemma const_ref_loses : forall W t cs n m h g, sound W -> nth_error cs n = Some h -> for_type false t (c_param h) -> adds_const false (c_param h) -> const_call h ->
  nth_error cs m = Some g -> generic (c_param g) -> p_const (c_param g) = false -> p_ref (c_param g) = lref \/ p_ref (c_param g) = forwarding ->
  resolve W false (mkarg true false t) cs <> Some n.
Proof.
  intros W t cs n m h g Sd N F A M Nm G Pc R H. apply resolve_wins in H; [|exact Sd]. destruct H as (h' & i & N' & V & B).
  rewrite N in N'. injection N' as <-. rewrite own_viable in V by exact F. injection V as <-. destruct A as (A & C & _). rewrite A, C in B.
  assert (Vg : viable W false (mkarg true false t) g = Some (mkics exact_match t (Some (false, false)))).
  { unfold viable, deduce. cbn [andb]. rewrite G, Pc. destruct R as [R|R]; rewrite R; unfold sequence; cbn; rewrite related_refl, convert_refl; reflexivity. }
  assert (D : m <> n).
  { intros ->. rewrite N in Nm. injection Nm as <-. destruct F as [F _]. rewrite G in F. discriminate F. }
  specialize (B m g _ D Nm Vg). unfold better in B. 
  assert (I : ics_better W (mkics exact_match t (Some (false, false))) (mkics exact_match t (Some (false, true))) = true).
  { unfold ics_better. cbn. rewrite ty_eqb_refl. apply orb_true_r. }
  rewrite I in B. cbn in B. rewrite andb_false_r in B. discriminate B.
Qed.

(** A handler that takes anything is taken for types that have no handler, also if they could be converted. *)
Lemma fallback : forall W c t cs n f, sound W -> nth_error cs n = Some f -> generic (c_param f) -> const_call f ->
  p_ref (c_param f) <> rref ->
  (forall m g, m <> n -> nth_error cs m = Some g -> const_call g /\ exists u, p_pat (c_param g) = Exactly u /\ u <> t) ->
  resolve W false (mkarg true c t) cs = Some n.
Proof.
  intros W c t cs n f Sd N G M R O. apply resolve_wins; [exact Sd|].
  assert (V : exists b, viable W false (mkarg true c t) f = Some (mkics exact_match t b)).
  { unfold viable, deduce. cbn [andb]. rewrite G. cbn [a_type a_const a_lvalue]. destruct (p_ref (c_param f)); [| |contradiction R; reflexivity|];
      unfold sequence; cbn [a_type a_const a_lvalue]; rewrite ?related_refl, convert_refl; [eexists; reflexivity | |];
      replace (implb c (p_const (c_param f) || c)) with true by (destruct c, (p_const (c_param f)); reflexivity); eexists; reflexivity. }
  destruct V as (b & V). exists f, (mkics exact_match t b). split; [exact N|]. split; [exact V|].
  intros m g j D Nm Vg. destruct (O m g D Nm) as [Mg (u & P & U)]. unfold better. rewrite M, Mg. cbn [andb negb orb].
  destruct (other_worse W t b j (other_rank W false (mkarg true c t) g j u P U Vg)) as [-> ->]. reflexivity.
Qed.

(** A mutable one that takes anything by value takes everything. *)
Lemma mutable_takes_all : forall W c t cs n f, sound W -> nth_error cs n = Some f -> generic (c_param f) -> p_ref (c_param f) = by_value ->
  c_mutable f = true -> (forall m g, m <> n -> nth_error cs m = Some g -> const_call g) ->
  resolve W false (mkarg true c t) cs = Some n.
Proof.
  intros W c t cs n f Sd N G R M O. apply resolve_wins; [exact Sd|]. exists f, (mkics exact_match t None). split; [exact N|].
  split; [unfold viable, deduce; cbn [andb]; rewrite G, R; unfold sequence; cbn [a_type]; rewrite convert_refl; reflexivity|].
  intros m g j D Nm V. unfold better. rewrite M, (O m g D Nm). cbn [andb negb orb].
  rewrite (exact_best W false c t g j None Sd V (or_introl eq_refl)). reflexivity.
Qed.

(** No lvalue goes to [T&&]. *)
Lemma rref_never : forall W oc c t g u, p_pat (c_param g) = Exactly u -> p_ref (c_param g) = rref -> related W t u = true -> viable W oc (mkarg true c t) g = None.
Proof.
  intros W oc c t g u P R L. unfold viable. destruct (oc && c_mutable g); [reflexivity|]. unfold deduce. rewrite P, R. unfold sequence. cbn [a_type a_const a_lvalue].
  rewrite L. rewrite andb_false_r. reflexivity.
Qed.
