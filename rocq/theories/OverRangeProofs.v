(** range.hpp *)
From Coq Require Import List Arith ZArith Bool Lia.
From Verif Require Import Base OverModel OverSpec OverProofs.
Import ListNotations.

Definition simple (t : ty) : Prop := match t with Array _ _ | Range _ => False | _ => True end.

Lemma ics_same : forall W t b, sound W -> ics_better W (mkics exact_match t b) (mkics exact_match t b) = false.
Proof.
  intros W t b Sd. unfold ics_better. cbn [i_rank i_type i_ref rank_lt rank_eqb negb andb orb]. rewrite derives_irrefl, ty_eqb_refl by exact Sd.
  destruct b as [[[] []]|]; reflexivity.
Qed.
Lemma ics_none_l : forall W t b, sound W -> ics_better W (mkics exact_match t None) (mkics exact_match t b) = false.
Proof.
  intros W t b Sd. unfold ics_better. cbn [i_rank i_type i_ref rank_lt rank_eqb negb andb orb]. rewrite derives_irrefl by exact Sd. destruct b; reflexivity.
Qed.
Lemma ics_none_r : forall W t b, sound W -> ics_better W (mkics exact_match t b) (mkics exact_match t None) = false.
Proof.
  intros W t b Sd. unfold ics_better. cbn [i_rank i_type i_ref rank_lt rank_eqb negb andb orb]. rewrite derives_irrefl by exact Sd. destruct b as [[? ?]|]; reflexivity.
Qed.
Lemma ics_refs : forall W t r c r2 c2, sound W -> ics_better W (mkics exact_match t (Some (r, c))) (mkics exact_match t (Some (r2, c2))) = (if Bool.eqb r r2 then negb c && c2 else r).
Proof.
  intros W t r c r2 c2 Sd. unfold ics_better. cbn [i_rank i_type i_ref rank_lt rank_eqb negb andb orb]. rewrite derives_irrefl, ty_eqb_refl by exact Sd. reflexivity.
Qed.

Ltac compute_choice Sd :=
  unfold resolve, guides, constructors; cbn [viables viable deduce c_param p_pat p_ref p_const a_type a_const a_lvalue c_mutable andb orb
    sequence implb negb];
  rewrite ?related_refl, ?convert_refl; cbn [andb orb implb negb app best forallb]; unfold better; cbn [c_mutable andb orb negb];
  rewrite ?ics_same, ?ics_none_l, ?ics_none_r, ?ics_refs by exact Sd; cbn; try reflexivity.

Lemma two_guides : forall W lv c t, sound W ->
  resolve W false (mkarg lv c t) [mkcand (mkparam false lref Any) false true false; mkcand (mkparam true lref Any) false true false]
  = Some (if lv && negb c then 0 else 1).
Proof. intros W lv c t Sd. destruct lv, c; compute_choice Sd. Qed.

Section G.
Variables (sh : ty -> shape) (pointer : bool -> ty -> nat) (iter_converts : nat -> nat -> bool).
Hypothesis Sh : shapes sh.
Variable W : world.
Hypothesis Sd : sound W.

Lemma deduced_container : forall lv c t i ci, simple t -> container (sh t) i ci ->
  deduced sh pointer W (mkarg lv c t) = Some (if lv && negb c then i else ci).
Proof.
  intros lv c t i ci St (C1 & C2 & _). unfold deduced.
  assert (U : usable_guides sh pointer (mkarg lv c t) = [(0, mkcand (mkparam false lref Any) false true false); (1, mkcand (mkparam true lref Any) false true false)]).
  { unfold usable_guides. cbn. rewrite C1, C2. destruct t; try destruct St; reflexivity. }
  rewrite U. cbn [map snd]. rewrite two_guides by exact Sd. destruct lv, c; cbn; assumption.
Qed.

Lemma deduced_array : forall lv c t n, deduced sh pointer W (mkarg lv c (Array t n)) = Some (if lv && negb c then pointer false t else pointer true t).
Proof.
  intros lv c t n. unfold deduced.
  assert (U : usable_guides sh pointer (mkarg lv c (Array t n)) = [(2, mkcand (mkparam false lref AnyArray) false true false); (3, mkcand (mkparam true lref AnyArray) false true false)]).
  { unfold usable_guides. cbn. rewrite (proj2 Sh). reflexivity. }
  rewrite U. cbn [map snd].
  assert (E : resolve W false (mkarg lv c (Array t n)) [mkcand (mkparam false lref AnyArray) false true false; mkcand (mkparam true lref AnyArray) false true false]
    = Some (if lv && negb c then 0 else 1)) by (destruct lv, c; compute_choice Sd).
  rewrite E. destruct lv, c; reflexivity.
Qed.

Lemma deduced_range : forall lv c i, deduced sh pointer W (mkarg lv c (Range i)) = Some i.
Proof.
  intros lv c i. unfold deduced.
  assert (U : usable_guides sh pointer (mkarg lv c (Range i)) =
    [(0, mkcand (mkparam false lref Any) false true false); (4, mkcand (mkparam true lref AnyRange) false false false);
     (5, mkcand (mkparam false rref AnyRange) false false false); (6, mkcand (mkparam false by_value AnyRange) false false true)]).
  { unfold usable_guides. cbn. rewrite (proj1 Sh). reflexivity. }
  rewrite U. cbn [map snd].
  assert (E : resolve W false (mkarg lv c (Range i)) [mkcand (mkparam false lref Any) false true false; mkcand (mkparam true lref AnyRange) false false false;
     mkcand (mkparam false rref AnyRange) false false false; mkcand (mkparam false by_value AnyRange) false false true] = Some 3)
    by (destruct lv, c; compute_choice Sd).
  rewrite E. reflexivity.
Qed.

Lemma other_last : forall b t i r, convert W t (Range i) = Some r -> t <> Range i ->
  ics_better W (mkics exact_match t b) (mkics r (Range i) (Some (false, true))) = true /\ ics_better W (mkics r (Range i) (Some (false, true))) (mkics exact_match t b) = false /\
  ics_better W (mkics exact_match t b) (mkics r (Range i) (Some (true, false))) = true /\ ics_better W (mkics r (Range i) (Some (true, false))) (mkics exact_match t b) = false.
Proof.
  intros b t i r C D. pose proof (convert_other W t (Range i) r D C) as L.
  destruct (other_worse W t b (mkics r (Range i) (Some (false, true))) L) as [H1 H2]. destruct (other_worse W t b (mkics r (Range i) (Some (true, false))) L) as [H3 H4]. auto.
Qed.

Lemma unrelated : forall t i, t <> Range i -> related W t (Range i) = false.
Proof. intros t i D. unfold related. rewrite ty_eqb_neq by exact D. destruct t; reflexivity. Qed.

(** Candidates that need a range of the same type lose. *)
Lemma last_two : forall lv c t i b h m d j, t <> Range i -> m = 4 \/ m = 5 -> nth_error (constructors i) m = Some d -> c_mutable h = false ->
  viable W false (mkarg lv c t) d = Some j -> better W h d (mkics exact_match t b) j = true.
Proof.
  intros lv c t i b h m d j D M N Mh V.
  assert (E : c_mutable d = false /\ exists r x, convert W t (Range i) = Some r /\ j = mkics r (Range i) x).
  { destruct M as [-> | ->]; cbn in N; injection N as <-; (split; [reflexivity|]);
      unfold viable, deduce in V; cbn [andb c_param p_pat p_ref p_const c_mutable] in V; unfold sequence in V; cbn [a_type a_const a_lvalue] in V; rewrite unrelated in V by exact D;
      destruct (convert W t (Range i)) as [r|]; try discriminate V; injection V as <-; eexists r, _; split; reflexivity. }
  destruct E as (Md & r & x & C & ->). pose proof (convert_other W t (Range i) r D C) as L.
  destruct (other_worse W t b (mkics r (Range i) x) L) as [H1 H2]. unfold better. rewrite Mh, Md, H1, H2. reflexivity.
Qed.

Lemma exact_ref : forall lv c t p j, sequence W (mkarg lv c t) p = Some j -> (match p with CVal u | CL _ u | CR _ u => u = t end) ->
  match p with
  | CVal _ => j = mkics exact_match t None
  | CL b _ => j = mkics exact_match t (Some (false, b)) /\ implb c b = true /\ (lv = true \/ b = true)
  | CR b _ => j = mkics exact_match t (Some (true, b)) /\ implb c b = true /\ lv = false
  end.
Proof.
  intros lv c t p j H E. destruct p as [u|b u|b u]; subst u; unfold sequence in H; cbn [a_type a_const a_lvalue] in H; rewrite ?related_refl, convert_refl in H.
  - injection H as <-. reflexivity.
  - destruct c, b, lv; try discriminate H; injection H as <-; repeat split; auto.
  - destruct c, b, lv; try discriminate H; injection H as <-; repeat split; auto.
Qed.

Lemma any_viable : forall lv c t pc pt mu gu co j, viable W false (mkarg lv c t) (mkcand (mkparam pc lref pt) mu gu co) = Some j -> pt = Any \/ pt = AnyArray ->
  j = mkics exact_match t (Some (false, pc || c)) /\ (lv = true \/ pc || c = true) /\ (pt = AnyArray -> exists u n, t = Array u n).
Proof.
  intros lv c t pc pt mu gu co j V P. unfold viable, deduce in V. cbn [andb c_param p_pat p_ref p_const c_mutable a_type a_const a_lvalue] in V.
  destruct P as [-> | ->].
  - apply exact_ref in V; [|reflexivity]. destruct V as (-> & _ & H). repeat split; [exact H | discriminate].
  - destruct t as [| |u n|]; try discriminate V. apply exact_ref in V; [|reflexivity]. destruct V as (-> & _ & H). repeat split; [exact H|]. intros _. exists u, n. reflexivity.
Qed.

Lemma any_is_viable : forall lv c t pc mu gu co, lv = true \/ pc || c = true ->
  viable W false (mkarg lv c t) (mkcand (mkparam pc lref Any) mu gu co) = Some (mkics exact_match t (Some (false, pc || c))).
Proof.
  intros lv c t pc mu gu co H. unfold viable, deduce. cbn [andb c_param p_pat p_ref p_const c_mutable a_type a_const a_lvalue]. unfold sequence. cbn [a_type a_const a_lvalue].
  rewrite related_refl, convert_refl. destruct lv, c, pc; try reflexivity. destruct H as [H|H]; discriminate H.
Qed.

Lemma constructor_simple : forall lv c t i, (forall u n, t <> Array u n) -> t <> Range i ->
  resolve W false (mkarg lv c t) (constructors i) = Some (if lv && negb c then 0 else 1).
Proof.
  intros lv c t i St D. apply resolve_wins; [exact Sd|]. destruct (lv && negb c) eqn:K.
  - destruct lv, c; try discriminate K.
    eexists _, _. split; [reflexivity|]. split; [apply any_is_viable; left; reflexivity|]. intros m d j Dm N V.
    destruct m as [|[|[|[|m]]]]; [contradiction Dm; reflexivity | | | |].
    + cbn in N. injection N as <-. apply any_viable in V; [|left; reflexivity]. destruct V as (-> & _). unfold better. cbn [c_mutable andb negb orb]. rewrite !ics_refs by exact Sd. reflexivity.
    + cbn in N. injection N as <-. apply any_viable in V; [|right; reflexivity]. destruct V as (_ & _ & V). destruct (V eq_refl) as (u & n & ->). exfalso. exact (St u n eq_refl).
    + cbn in N. injection N as <-. apply any_viable in V; [|right; reflexivity]. destruct V as (_ & _ & V). destruct (V eq_refl) as (u & n & ->). exfalso. exact (St u n eq_refl).
    + eapply (last_two true false t i _ _ (4 + m)); [exact D | | exact N | reflexivity | exact V].
      destruct m as [|[|m]]; [left; reflexivity | right; reflexivity |]. cbn in N. destruct m; discriminate N.
  - eexists _, _. split; [reflexivity|]. split; [apply any_is_viable; right; reflexivity|]. intros m d j Dm N V.
    destruct m as [|[|[|[|m]]]]; [ | contradiction Dm; reflexivity | | |].
    + cbn in N. injection N as <-. apply any_viable in V; [|left; reflexivity]. destruct V as (-> & [L|L] & _).
      * destruct lv, c; try discriminate L; try discriminate K. unfold better. cbn [c_mutable andb negb orb]. rewrite !ics_refs by exact Sd. reflexivity.
      * cbn in L. subst c. unfold better. cbn [c_mutable andb negb orb]. rewrite !ics_refs by exact Sd. reflexivity.
    + cbn in N. injection N as <-. apply any_viable in V; [|right; reflexivity]. destruct V as (_ & _ & V). destruct (V eq_refl) as (u & n & ->). exfalso. exact (St u n eq_refl).
    + cbn in N. injection N as <-. apply any_viable in V; [|right; reflexivity]. destruct V as (_ & _ & V). destruct (V eq_refl) as (u & n & ->). exfalso. exact (St u n eq_refl).
    + eapply (last_two lv c t i _ _ (4 + m)); [exact D | | exact N | reflexivity | exact V].
      destruct m as [|[|m]]; [left; reflexivity | right; reflexivity |]. cbn in N. destruct m; discriminate N.
Qed.

Lemma constructor_array : forall lv c t n i, resolve W false (mkarg lv c (Array t n)) (constructors i) = Some (if lv && negb c then 2 else 3).
Proof.
  intros lv c t n i. apply resolve_wins; [exact Sd|].
  assert (Vb : forall pc mu gu co, lv = true \/ pc || c = true -> viable W false (mkarg lv c (Array t n)) (mkcand (mkparam pc lref AnyArray) mu gu co)
    = Some (mkics exact_match (Array t n) (Some (false, pc || c)))).
  { intros pc mu gu co H. exact (any_is_viable lv c (Array t n) pc mu gu co H). }
  assert (D : Array t n <> Range i) by discriminate.
  destruct (lv && negb c) eqn:K.
  - destruct lv, c; try discriminate K.
    eexists _, _. split; [reflexivity|]. split; [apply Vb; left; reflexivity|]. intros m d j Dm N V.
    destruct m as [|[|[|[|m]]]]; [ | | contradiction Dm; reflexivity | |].
    + cbn in N. injection N as <-. apply any_viable in V; [|left; reflexivity]. destruct V as (-> & _). unfold better. cbn [c_mutable andb negb orb]. rewrite !ics_refs by exact Sd. reflexivity.
    + cbn in N. injection N as <-. apply any_viable in V; [|left; reflexivity]. destruct V as (-> & _). unfold better. cbn [c_mutable andb negb orb]. rewrite !ics_refs by exact Sd. reflexivity.
    + cbn in N. injection N as <-. apply any_viable in V; [|right; reflexivity]. destruct V as (-> & _). unfold better. cbn [c_mutable andb negb orb]. rewrite !ics_refs by exact Sd. reflexivity.
    + eapply (last_two true false (Array t n) i _ _ (4 + m)); [exact D | | exact N | reflexivity | exact V].
      destruct m as [|[|m]]; [left; reflexivity | right; reflexivity |]. cbn in N. destruct m; discriminate N.
  - eexists _, _. split; [reflexivity|]. split; [apply Vb; right; reflexivity|]. intros m d j Dm N V.
    destruct m as [|[|[|[|m]]]]; [ | | | contradiction Dm; reflexivity |].
    + cbn in N. injection N as <-. apply any_viable in V; [|left; reflexivity]. destruct V as (-> & L & _).
      assert (c = true) as -> by (destruct lv, c; try discriminate K; try reflexivity; destruct L as [L|L]; discriminate L).
      unfold better. cbn [c_mutable andb negb orb]. rewrite !ics_refs by exact Sd. reflexivity.
    + cbn in N. injection N as <-. apply any_viable in V; [|left; reflexivity]. destruct V as (-> & L & _).
      unfold better. cbn [c_mutable andb negb orb]. rewrite !ics_refs by exact Sd. reflexivity.
    + cbn in N. injection N as <-. apply any_viable in V; [|right; reflexivity]. destruct V as (-> & L & _).
      assert (c = true) as -> by (destruct lv, c; try discriminate K; try reflexivity; destruct L as [L|L]; discriminate L).
      unfold better. cbn [c_mutable andb negb orb]. rewrite !ics_refs by exact Sd. reflexivity.
    + eapply (last_two lv c (Array t n) i _ _ (4 + m)); [exact D | | exact N | reflexivity | exact V].
      destruct m as [|[|m]]; [left; reflexivity | right; reflexivity |]. cbn in N. destruct m; discriminate N.
Qed.

Lemma constructor_same : forall lv c i, resolve W false (mkarg lv c (Range i)) (constructors i) = Some (if c then 4 else if lv then 0 else 5).
Proof. intros lv c i. destruct lv, c; compute_choice Sd. Qed.

Lemma construct_container : forall lv c t i j cj, simple t -> container (sh t) j cj ->
  construct sh pointer iter_converts W i (mkarg lv c t) =
    if lv && negb c then (if iter_converts j i then Some members else None) else (if iter_converts cj i then Some const_members else None).
Proof.
  intros lv c t i j cj St (C1 & C2 & C3 & C4 & C5). unfold construct. rewrite constructor_simple.
  - cbn [a_type a_const]. destruct lv, c; cbn [andb negb]; rewrite ?C3, ?C5; reflexivity.
  - intros u n ->. exact St.
  - intros ->. exact St.
Qed.

Lemma construct_array : forall lv c t n i,
  construct sh pointer iter_converts W i (mkarg lv c (Array t n)) = if iter_converts (pointer c t) i then Some decays else None.
Proof. intros lv c t n i. unfold construct. rewrite constructor_array. cbn [a_type a_const]. destruct lv, c; reflexivity. Qed.

Lemma construct_copy : forall lv c i, iter_converts i i = true ->
  construct sh pointer iter_converts W i (mkarg lv c (Range i)) = Some (if lv && negb c then members else copies).
Proof. intros lv c i R. unfold construct. rewrite constructor_same. cbn [a_type a_const]. rewrite (proj1 Sh). cbn. destruct lv, c; cbn; rewrite ?R; reflexivity. Qed.

Lemma construct_other : forall lv c i j, i <> j ->
  construct sh pointer iter_converts W i (mkarg lv c (Range j)) = if lv && negb c && iter_converts j i then Some members else None.
Proof.
  intros lv c i j D. unfold construct. rewrite constructor_simple; [|discriminate | intros E; injection E as ->; contradiction].
  cbn [a_type a_const]. rewrite (proj1 Sh). destruct lv, c; cbn; reflexivity.
Qed.
End G.

(** * Elements *)

Lemma skipn_nth : forall {A} (xs : list A) k x, nth_error xs k = Some x -> skipn k xs = x :: skipn (S k) xs.
Proof.
  intros A. induction xs as [|y xs IH]; intros [|k] x H; try discriminate H; [injection H as ->; reflexivity|]. exact (IH k x H).
Qed.

Lemma visit_from : forall {A} (xs : list A) k first last, first + k = last -> last <= length xs ->
  visit k xs first last = Some (firstn k (skipn first xs)).
Proof.
  intros A xs. induction k as [|k IH]; intros first last E L.
  - cbn. replace (Nat.eqb first last) with true by (symmetry; apply Nat.eqb_eq; lia). reflexivity.
  - cbn [visit]. replace (Nat.eqb first last) with false by (symmetry; apply Nat.eqb_neq; lia).
    destruct (nth_error xs first) as [x|] eqn:N; [|apply nth_error_None in N; lia].
    rewrite IH by lia. rewrite (skipn_nth xs first x N). reflexivity.
Qed.

Lemma visit_more : forall {A} (xs : list A) f first last ys, visit f xs first last = Some ys -> forall g, f <= g -> visit g xs first last = Some ys.
Proof.
  intros A xs. induction f as [|f IH]; intros first last ys H g G; destruct g as [|g]; try lia; cbn [visit] in *; destruct (Nat.eqb first last); try exact H; try discriminate H.
  destruct (nth_error xs first); [|discriminate H]. destruct (visit f xs (S first) last) as [zs|] eqn:E; [|discriminate H].
  rewrite (IH _ _ _ E g) by lia. exact H.
Qed.

Lemma visit_reversed : forall {A} (xs : list A) f first last, last < first -> visit f xs first last = None.
Proof.
  intros A xs. induction f as [|f IH]; intros first last L; cbn [visit]; replace (Nat.eqb first last) with false by (symmetry; apply Nat.eqb_neq; lia); [reflexivity|].
  destruct (nth_error xs first); [|reflexivity]. rewrite IH by lia. reflexivity.
Qed.

Lemma size_counts : forall first last, first <= last -> (Z.of_nat last < 2 ^ 64)%Z -> range_size first last = Z.of_nat (last - first).
Proof. intros first last L B. unfold range_size. rewrite Z.mod_small by lia. lia. Qed.
