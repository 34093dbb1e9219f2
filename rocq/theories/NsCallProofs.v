(** The function that is called. *)
From Coq Require Import List Arith Bool Lia.
From Verif Require Import Base NsModel NsSpec NsProofs.
Import ListNotations.

(** ** What is found is properly named *)

Lemma declares_name : forall P p n t f at_, proper P p -> declares P n t f at_ -> name_of f t.
Proof. intros P p n t f at_ (H & _) (d & Hd & _ & <- & <- & _). exact (H d Hd). Qed.

Lemma introduced_name : forall P p t n f, proper P p -> introduced P p t n f -> name_of f t.
Proof. intros P p t n f H [Hd|(m & q & _ & _ & Hd)]; exact (declares_name _ _ _ _ _ _ H Hd). Qed.

Lemma seen_name : forall P p t f, proper P p -> seen P p t f -> name_of f t.
Proof.
  intros P p t f H [Hl|(_ & n & _ & Hi & _)]; [|exact (introduced_name _ _ _ _ _ H Hi)]. destruct H as (_ & H & _). exact (H _ _ Hl).
Qed.

Lemma found_name : forall P p t args f, proper P p -> In f (found P p t args) -> name_of f t.
Proof.
  intros P p t args f H Hf. apply found_in in Hf. destruct Hf as [Hs|(a & n & _ & _ & Hd)].
  - exact (seen_name _ _ _ _ H Hs).
  - exact (declares_name _ _ _ _ _ _ H Hd).
Qed.

(** ** Lists of at most two functions *)

Lemma two : forall (l : list func) a b, NoDup l -> (forall f, In f l -> f = a \/ f = b) ->
  l = [] \/ l = [a] \/ l = [b] \/ l = [a; b] \/ l = [b; a].
Proof.
  intros l a b Hn H. destruct l as [|x l]; [auto|]. destruct l as [|y l].
  - destruct (H x) as [->| ->]; [left; reflexivity|auto|auto].
  - assert (l = []) as ->.
    { destruct l as [|z l]; [reflexivity|]. apply NoDup_cons_iff in Hn. destruct Hn as [H1 Hn1]. apply NoDup_cons_iff in Hn1. destruct Hn1 as [H2 _].
      destruct (H x) as [Hx|Hx]; [left; reflexivity| |];
        (destruct (H y) as [Hy|Hy]; [right; left; reflexivity| |]);
        (destruct (H z) as [Hz|Hz]; [right; right; left; reflexivity| |]); subst;
        exfalso; (apply H1; cbn; tauto) || (apply H2; cbn; tauto). }
    apply NoDup_cons_iff in Hn. destruct Hn as [H1 _].
    destruct (H x) as [Hx|Hx]; [left; reflexivity| |]; (destruct (H y) as [Hy|Hy]; [right; left; reflexivity| |]); subst; auto 6;
      exfalso; apply H1; left; reflexivity.
Qed.

Definition can (P : program) (args : list ty) (f : func) : bool :=
  match viable P f args with Some _ => true | None => false end.

Lemma candidates_filter : forall P args fs,
  flat_map (fun f => match viable P f args with Some r => [(User f, r)] | None => [] end) fs =
  flat_map (fun f => match viable P f args with Some r => [(User f, r)] | None => [] end) (filter (can P args) fs).
Proof.
  intros P args. induction fs as [|f fs IH]; [reflexivity|]. cbn [filter flat_map]. unfold can at 1.
  destruct (viable P f args) as [r|] eqn:E.
  - cbn [flat_map]. rewrite E, IH. reflexivity.
  - exact IH.
Qed.

(** ** Operators on enums *)

Lemma viable_enum : forall P o f e x, alone P (operands o e x) -> name_of f (token o) ->
  (forall r, viable P f (operands o e x) = Some r -> (f = Global o \/ f = Inner o)).
Proof.
  intros P o f e x Ha Hf r Hv. destruct f as [p|p| | |n].
  - left. f_equal. destruct o, p; cbn in Hf; try discriminate; try reflexivity; exfalso; clear - Hv;
      cbn in Hv; destruct (traits P (Enum e) Does_index) as [[]|]; cbn in Hv; try discriminate;
      destruct (rank (Enum e) (Enum e)); discriminate.
  - right. f_equal. destruct o, p; cbn in Hf; try discriminate; try reflexivity; exfalso; clear - Hv;
      cbn in Hv; destruct (rank (Enum e) (Enum e)); discriminate.
  - exfalso. destruct o; discriminate.
  - exfalso. destruct o; discriminate.
  - exfalso. cbn in Hv. rewrite (Ha n) in Hv. discriminate.
Qed.

(** The ranks of the conversions: the enum is what it is, [x] becomes an [int]. *)
Lemma viable_inner : forall P o e x r, (shift o -> rank x Int = Some r) ->
  viable P (Inner o) (operands o e x) =
  Some (match o with
        | Plus | Inc | Not => [0]
        | Shl | Shr | Shl_eq | Shr_eq => [0; r]
        | _ => [0; 0]
        end).
Proof.
  intros P o e x r Hr. destruct o; cbn in *; unfold rank; cbn [ty_eqb]; rewrite ?Nat.eqb_refl; try reflexivity;
    fold (rank x Int); rewrite (Hr I); reflexivity.
Qed.

Lemma viable_global : forall P o e x,
  viable P (Global o) (operands o e x) =
  match traits P (Enum e) (trait_of o) with
  | Some true => viable P (Inner o) (operands o e x)
  | _ => None
  end.
Proof.
  intros P o e x. unfold viable. destruct o; cbn [operands deduce trait_of params_of ty_eqb]; rewrite ?Nat.eqb_refl;
    destruct (traits P (Enum e) _) as [[]|]; reflexivity.
Qed.

Lemma builtin_enum : forall o e x, shift o -> number x ->
  builtin_ranks (operands o e x) =
  (if e_scoped e then None else
   Some (1 :: match x with Small _ => [1] | _ => [0] end)).
Proof.
  intros o e x Ho Hx. destruct o; try destruct Ho; cbn; destruct (e_scoped e); destruct x; try destruct Hx; reflexivity.
Qed.

Lemma found_enum : forall P p o e x f, number x ->
  In f (found P p (token o) (operands o e x)) <-> reached P p (token o) e f.
Proof.
  intros P p o e x f Hx. rewrite found_in. unfold reached. split.
  - intros [H|(a & n & Ha & Hn & Hd)]; [left; exact H|right].
    assert (n = e_ns e) as <-; [|exact Hd].
    destruct o; cbn in Ha; repeat (destruct Ha as [<-|Ha]); try destruct Ha; destruct x; try destruct Hx; cbn in Hn;
      solve [destruct Hn as [Hn|[]]; auto|destruct Hn].
  - intros [H|H]; [left; exact H|right]. exists (Enum e), (e_ns e). split; [destruct o; left; reflexivity|].
    split; [left; reflexivity|exact H].
Qed.

Lemma resolve_enum : forall P p o e x,
  resolve P p o (operands o e x) =
  match candidates P o (found P p (token o) (operands o e x)) (operands o e x) with
  | [] => Missing
  | cs => match best_of [] cs with Some c => of_candidate c | None => Ambiguous end
  end.
Proof. intros P p o e x. unfold resolve. destruct o; reflexivity. Qed.

(** The functions that are found and can be called. *)
Definition usable (P : program) (p : place) (o : op) (args : list ty) : list func :=
  filter (can P args) (found P p (token o) args).

Lemma usable_enum : forall P p o e x, proper P p -> alone P (operands o e x) -> number x ->
  NoDup (usable P p o (operands o e x)) /\
  (forall f, In f (usable P p o (operands o e x)) <->
     (f = Global o \/ f = Inner o) /\ reached P p (token o) e f /\ can P (operands o e x) f = true).
Proof.
  intros P p o e x Hp Ha Hx. split; [apply NoDup_filter, dedup_nodup|]. intros f. unfold usable. rewrite filter_In, (found_enum _ _ _ _ _ _ Hx).
  split; [|tauto]. intros [Hr Hc]. split; [|auto]. unfold can in Hc.
  destruct (viable P f (operands o e x)) as [r|] eqn:E; [|discriminate]. apply (viable_enum P o f e x Ha) with r; [|exact E].
  apply (found_name P p (token o) (operands o e x)); [exact Hp|]. apply found_enum; assumption.
Qed.

Lemma can_inner : forall P o e x, number x -> can P (operands o e x) (Inner o) = true.
Proof.
  intros P o e x Hx. unfold can. assert (exists r, rank x Int = Some r) as [r Hr] by (destruct x; try destruct Hx; cbn; eauto).
  rewrite (viable_inner P o e x r (fun _ => Hr)). reflexivity.
Qed.

Lemma can_global : forall P o e x, number x -> can P (operands o e x) (Global o) = true <-> enabled P e o.
Proof.
  intros P o e x Hx. unfold can, enabled. rewrite viable_global. pose proof (can_inner P o e x Hx) as H. unfold can in H.
  destruct (traits P (Enum e) (trait_of o)) as [[]|]; [tauto|split; discriminate|split; discriminate].
Qed.

(** What is called when these are usable; [x] is not converted to something narrower. *)
Lemma resolve_usable : forall P p o e x l, number x -> settled o e x ->
  usable P p o (operands o e x) = l -> (forall f, In f l -> can P (operands o e x) f = true /\ (f = Global o \/ f = Inner o)) ->
  length l <= 2 ->
  resolve P p o (operands o e x) =
  match l with
  | [] => if (assigns o || e_scoped e)%bool then Missing else Language
  | [f] => Chosen f
  | _ => Ambiguous
  end.
Proof.
  intros P p o e x l Hx Hw Hl Hf Hlen. rewrite resolve_enum. unfold candidates. rewrite candidates_filter. fold (usable P p o (operands o e x)).
  rewrite Hl.
  assert (exists r, rank x Int = Some r) as [r Hr] by (destruct x; try destruct Hx; cbn; eauto).
  pose proof (viable_inner P o e x r (fun _ => Hr)) as Hi.
  assert (forall f, In f l -> viable P f (operands o e x) = viable P (Inner o) (operands o e x)) as Hv.
  { intros f Hin. destruct (Hf f Hin) as [Hc [->| ->]]; [|reflexivity]. rewrite viable_global.
    apply can_global in Hc; [|exact Hx]. unfold enabled in Hc. rewrite Hc. reflexivity. }
  destruct l as [|f [|g [|]]]; [| | |cbn in Hlen; lia].
  - cbn [flat_map app]. destruct o; cbn [assigns]; try reflexivity; cbn; destruct (e_scoped e) eqn:Es; try reflexivity;
      destruct x; try destruct Hx; reflexivity.
  - cbn [flat_map app]. rewrite (Hv f), Hi by (left; reflexivity). clear Hv Hi Hl.
    destruct o; cbn [assigns app]; try reflexivity; cbn; destruct (e_scoped e) eqn:Es; try reflexivity;
      destruct x; try destruct Hx; cbn in Hr; injection Hr as <-; try reflexivity;
      (exfalso; specialize (Hw _ eq_refl); cbn in Hw; specialize (Hw I); congruence).
  - cbn [flat_map app]. rewrite (Hv f), (Hv g), Hi by (cbn; auto).
    assert (is_template f = true) as Tf by (destruct (Hf f) as [_ [->| ->]]; [left; reflexivity| |]; reflexivity).
    assert (is_template g = true) as Tg by (destruct (Hf g) as [_ [->| ->]]; [right; left; reflexivity| |]; reflexivity).
    clear Hv Hi Hl.
    destruct o; cbn [assigns app]; cbn; rewrite ?Tf, ?Tg; try reflexivity; cbn; destruct (e_scoped e) eqn:Es; cbn;
      try rewrite ?Tf, ?Tg; try reflexivity;
      destruct x; try destruct Hx; cbn in Hr; injection Hr as <-; cbn; rewrite ?Tf, ?Tg; try reflexivity;
      (exfalso; specialize (Hw _ eq_refl); cbn in Hw; specialize (Hw I); congruence).
Qed.

Lemma resolve_wide : forall P p o e n l, o = Shl \/ o = Shr -> e_scoped e = false ->
  usable P p o (operands o e (Wide n)) = l ->
  (forall f, In f l -> can P (operands o e (Wide n)) f = true /\ (f = Global o \/ f = Inner o)) ->
  length l <= 2 ->
  resolve P p o (operands o e (Wide n)) = match l with [] => Language | _ => Ambiguous end.
Proof.
  intros P p o e n l Ho He Hl Hf Hlen. rewrite resolve_enum. unfold candidates. rewrite candidates_filter.
  fold (usable P p o (operands o e (Wide n))). rewrite Hl.
  pose proof (viable_inner P o e (Wide n) 2 (fun _ => eq_refl)) as Hi.
  assert (forall f, In f l -> viable P f (operands o e (Wide n)) = viable P (Inner o) (operands o e (Wide n))) as Hv.
  { intros f Hin. destruct (Hf f Hin) as [Hc [->| ->]]; [|reflexivity]. rewrite viable_global.
    apply can_global in Hc; [|exact I]. unfold enabled in Hc. rewrite Hc. reflexivity. }
  destruct l as [|f [|g [|]]]; [| | |cbn in Hlen; lia].
  - cbn [flat_map app]. destruct Ho; subst o; cbn; rewrite He; reflexivity.
  - cbn [flat_map app]. rewrite (Hv f), Hi by (left; reflexivity). destruct Ho; subst o; cbn; rewrite He; reflexivity.
  - cbn [flat_map app]. rewrite (Hv f), (Hv g), Hi by (cbn; auto).
    assert (is_template f = true) as Tf by (destruct (Hf f) as [_ [->| ->]]; [left; reflexivity| |]; reflexivity).
    assert (is_template g = true) as Tg by (destruct (Hf g) as [_ [->| ->]]; [right; left; reflexivity| |]; reflexivity).
    destruct Ho; subst o; cbn; rewrite He, ?Tf, ?Tg; cbn; rewrite ?Tf, ?Tg; reflexivity.
Qed.
