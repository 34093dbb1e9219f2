(** Bools in binary streams: lemmas. *)
From Coq Require Import List NArith ZArith Arith Bool Lia.
From Verif Require Import Base BinModel BinSpec BinOrder BinProofs FlagModel FlagSpec.
Import ListNotations.
Local Open Scope outcome_scope.

Section Induction.
  Context (P : fty -> Prop).
  Context (HP : forall t, P (FPlain t)) (HF : P FFlag) (HV : forall t, P t -> P (FVec t)) (HM : forall k t, P k -> P t -> P (FMap k t)).
  Context (HS : forall t, P t -> P (FSet t)) (HQ : forall a b, P a -> P b -> P (FPair a b)) (HO : forall t, P t -> P (FOpt t)).
  Context (HW : forall ts, Forall P ts -> P (FVar ts)) (HR : forall ts, Forall P ts -> P (FRec ts)).
  Fixpoint fty_induct (t : fty) : P t :=
    match t with
    | FPlain t => HP t | FFlag => HF | FVec t => HV t (fty_induct t) | FMap k t => HM k t (fty_induct k) (fty_induct t)
    | FSet t => HS t (fty_induct t) | FPair a b => HQ a b (fty_induct a) (fty_induct b) | FOpt t => HO t (fty_induct t)
    | FVar ts => HW ts ((fix go ts : Forall P ts := match ts with [] => Forall_nil _ | t :: ts' => Forall_cons t (fty_induct t) (go ts') end) ts)
    | FRec ts => HR ts ((fix go ts : Forall P ts := match ts with [] => Forall_nil _ | t :: ts' => Forall_cons t (fty_induct t) (go ts') end) ts)
    end.
End Induction.

(** * The parts of the reader *)

Fixpoint flag_members (ts : list fty) (olds : list val) (c : cursor) : outcome (cursor * list val) :=
  match ts, olds with
  | [], [] => Ok (c, [])
  | t0 :: ts', o :: olds' =>
      ' (c1, v) <- read_flags t0 o c ;;
      ' (c2, vs) <- flag_members ts' olds' c1 ;;
      Ok (c2, v :: vs)
  | _, _ => UB
  end.
Fixpoint movable_members (ts : list fty) (vs : list val) : bool :=
  match ts, vs with
  | t0 :: ts', v0 :: vs' => movable t0 v0 && movable_members ts' vs'
  | _, _ => true
  end.

Lemma flags_rec ts olds c : read_flags (FRec ts) (VSeq olds) c = (' (c1, vs) <- flag_members ts olds c ;; Ok (c1, VSeq vs)).
Proof. reflexivity. Qed.

Lemma movable_rec ts vs : movable (FRec ts) (VSeq vs) = movable_members ts vs.
Proof. reflexivity. Qed.

Lemma pick_fty {A} (f : fty -> A) (d : A) : forall ts i,
  (fix pick (ts : list fty) (i : nat) : A :=
     match ts, i with
     | t0 :: _, O => f t0
     | _ :: ts', S i' => pick ts' i'
     | [], _ => d
     end) ts i = match nth_error ts i with Some t0 => f t0 | None => d end.
Proof. induction ts as [|t ts IH]; intros [|i]; cbn; auto. Qed.

Lemma movable_var ts i v : movable (FVar ts) (VVar i v) = match nth_error ts i with Some t => movable t v | None => true end.
Proof. cbn [movable]. apply (pick_fty (fun t => movable t v)). Qed.

Lemma flag_visit_spec (old : val) (c1 : cursor) : forall ts index k,
  (fix visit (ts : list fty) (index k : nat) : outcome (cursor * val) :=
     match ts with
     | [] => Ok (notify_error c1, old)
     | head :: tail =>
         match index with
         | O =>
             ' (c2, v) <- (if err c1 then Ok (c1, dflt (erase head)) else read_flags head (dflt (erase head)) c1) ;;
             if err c2 then Ok (c2, old) else if movable head v then Ok (c2, VVar k v) else UB
         | S index' => visit tail index' (S k)
         end
     end) ts index k =
  match nth_error ts index with
  | None => Ok (notify_error c1, old)
  | Some head =>
      ' (c2, v) <- (if err c1 then Ok (c1, dflt (erase head)) else read_flags head (dflt (erase head)) c1) ;;
      if err c2 then Ok (c2, old) else if movable head v then Ok (c2, VVar (k + index) v) else UB
  end.
Proof.
  induction ts as [|t ts IH]; intros [|i] k; cbn [nth_error]; auto.
  - now rewrite Nat.add_0_r.
  - rewrite IH. now replace (S k + i) with (k + S i) by lia.
Qed.

(** * The same as without bools, or undefined *)

(** Less defined. *)
Definition under {A} (x y : outcome A) : Prop := x = UB \/ x = y.
Lemma under_refl {A} (x : outcome A) : under x x. Proof. now right. Qed.
Lemma under_bind {A B} (x y : outcome A) (f g : A -> outcome B) : under x y -> (forall a, under (f a) (g a)) -> under (obind x f) (obind y g).
Proof. intros [->| ->] H; [now left|]. destruct y as [a| |]; cbn [obind]; [apply H | now right | now right]. Qed.
Lemma under_nloop {S} (f g : S -> outcome (S * bool)) n : (forall s, under (f s) (g s)) -> forall s, under (nloop n f s) (nloop n g s).
Proof.
  intros H. induction n as [|n IH]; intros s; cbn [nloop]; [apply under_refl|].
  apply under_bind; [apply H|]. intros [s1 []]; [apply under_refl | apply IH].
Qed.
Lemma under_loop {S} (f g : S -> outcome (S * bool)) n s : (forall s, under (f s) (g s)) -> under (loop n f s) (loop n g s).
Proof. intros H. rewrite !loop_nloop. now apply under_nloop. Qed.
Lemma under_guard {A} (b : bool) (x : outcome A) : under (if b then x else UB) x.
Proof. destruct b; [now right | now left]. Qed.

Lemma under_members ts : Forall (fun t => forall old c, under (read_flags t old c) (read_binary (erase t) old c)) ts ->
  forall olds c, under (flag_members ts olds c) (read_members (map erase ts) olds c).
Proof.
  induction 1 as [|t ts H _ IH]; intros [|o olds] c; cbn [flag_members read_members map]; try apply under_refl.
  apply under_bind; [apply H|]. intros [c1 v]. apply under_bind; [apply IH|]. intros [c2 vs]. apply under_refl.
Qed.

Lemma flags_under t : forall old c, under (read_flags t old c) (read_binary (erase t) old c).
Proof.
  induction t as [t| |t IH|k t IHk IH|t IH|a b IHa IHb|t IH|ts IH|ts IH] using fty_induct; intros old c; cbn [erase].
  - apply under_refl.
  - apply under_refl.
  - cbn [read_flags]. destruct (is_simple (erase t)) eqn:E; [apply under_refl|]. cbn [read_binary]. rewrite E.
    apply under_bind; [apply under_refl|]. intros [c1 n]. apply under_bind; [|intros []; apply under_refl].
    apply under_loop. intros [c2 l]. apply under_bind.
    + destruct (err c2); [apply under_refl | apply IH].
    + intros [c3 v]. apply under_guard.
  - cbn [read_flags read_binary]. apply under_bind; [apply under_refl|]. intros [c1 n]. apply under_bind; [|intros []; apply under_refl].
    apply under_loop. intros [c2 l]. apply under_bind; [destruct (err c2); [apply under_refl | apply IHk]|].
    intros [c3 x]. apply under_bind; [destruct (err c3); [apply under_refl | apply IH]|]. intros [c4 y]. apply under_guard.
  - cbn [read_flags read_binary]. apply under_bind; [apply under_refl|]. intros [c1 n]. apply under_bind; [|intros []; apply under_refl].
    apply under_loop. intros [c2 l]. apply under_bind; [destruct (err c2); [apply under_refl | apply IH]|]. intros [c3 v]. apply under_guard.
  - cbn [read_flags read_binary]. destruct old; try apply under_refl. destruct (err c); [apply under_refl|].
    apply under_bind; [apply IHa|]. intros [c1 x]. destruct (err c1); [apply under_refl|].
    apply under_bind; [apply IHb|]. intros [c2 y]. apply under_refl.
  - cbn [read_flags read_binary]. apply under_bind; [apply under_refl|]. intros [c1 n]. destruct (negb (err c1) && _); [|apply under_refl].
    apply under_bind; [destruct (err c1); [apply under_refl | apply IH]|]. intros [c2 v]. apply under_guard.
  - cbn [read_flags read_binary]. apply under_bind; [apply under_refl|]. intros [c1 n]. destruct (err c1) eqn:E1; [apply under_refl|].
    pose proof (flag_visit_spec old c1 ts (N.to_nat n) 0) as F. pose proof (visit_spec old c1 (map erase ts) (N.to_nat n) 0) as B.
    rewrite E1 in F, B. rewrite F, B. rewrite nth_error_map. destruct (nth_error ts (N.to_nat n)) as [t|] eqn:N; cbn [option_map]; [|apply under_refl].
    rewrite Forall_forall in IH. apply under_bind; [apply IH, (nth_error_In _ _ N)|].
    intros [c2 v]. destruct (err c2); [apply under_refl | apply under_guard].
  - destruct old; try apply under_refl. rewrite flags_rec, read_rec. apply under_bind; [now apply under_members|]. intros [c1 vs]. apply under_refl.
Qed.

(** * Values that are moved *)

Lemma proper_movable t : forall v, proper t v -> movable t v = true.
Proof.
  induction t as [t| |t IH|k t IHk IH|t IH|a b IHa IHb|t IH|ts IH|ts IH] using fty_induct; intros v H; inversion H; subst; try reflexivity.
  - cbn [movable]. now rewrite IHa, IHb.
  - cbn [movable]. auto.
  - rewrite movable_var. match goal with H : nth_error _ _ = _ |- _ => rewrite H; pose proof (nth_error_In _ _ H) as I end.
    rewrite Forall_forall in IH. auto.
  - rewrite movable_rec. match goal with H : Forall2 _ _ _ |- _ => clear - IH H; revert IH; induction H as [|t v ts vs P _ IHl] end; intros F; [reflexivity|].
    inversion F; subst. cbn [movable_members]. rewrite H1 by assumption. now apply IHl.
Qed.

Lemma not_carried t : ~ carries t -> forall v, movable t v = true.
Proof.
  induction t as [t| |t IH|k t IHk IH|t IH|a b IHa IHb|t IH|ts IH|ts IH] using fty_induct; intros N v; try reflexivity.
  - exfalso. apply N. constructor.
  - destruct v; try reflexivity. cbn [movable]. rewrite IHa, IHb; [reflexivity | intros C; apply N; now apply c_second | intros C; apply N; now apply c_first].
  - destruct v as [| | | | | | |[v|]|]; try reflexivity. cbn [movable]. apply IH. intros C. apply N. now constructor.
  - destruct v; try reflexivity. rewrite movable_var. destruct (nth_error ts i) as [t|] eqn:E; [|reflexivity]. apply nth_error_In in E.
    rewrite Forall_forall in IH. apply IH; [assumption|]. intros C. apply N. exact (c_var ts t E C).
  - destruct v; try reflexivity. rewrite movable_rec.
    assert (M : forall us, (forall t, In t us -> In t ts) -> forall vs, movable_members us vs = true).
    { rewrite Forall_forall in IH. induction us as [|u us IHu]; intros Hin [|v vs]; try reflexivity. cbn [movable_members].
      rewrite IH; [|apply Hin; now left|intros C; apply N; exact (c_rec ts u (Hin u (or_introl eq_refl)) C)].
      apply IHu. intros t I. apply Hin. now right. }
    now apply M.
Qed.

(** A value that cannot be moved, of every type that carries a bool. *)
Lemma members_replace : forall ts i t v, members_ty ts (map dflt ts) -> nth_error ts i = Some t -> has_ty t v ->
  members_ty ts (firstn i (map dflt ts) ++ v :: skipn (S i) (map dflt ts)).
Proof.
  induction ts as [|t0 ts IH]; intros [|i] t v M N H; cbn in N; try discriminate; cbn [map members_ty firstn skipn app] in *.
  - injection N as ->. tauto.
  - destruct M as [M0 M]. split; [assumption|]. exact (IH i t v M N H).
Qed.
Lemma members_fail : forall ts i t v, nth_error ts i = Some t -> movable t v = false ->
  forall vs, length vs = length ts -> movable_members ts (firstn i vs ++ v :: skipn (S i) vs) = false.
Proof.
  induction ts as [|t0 ts IH]; intros [|i] t v N H [|x vs] L; cbn in N, L; try discriminate; cbn [firstn skipn app movable_members].
  - injection N as ->. now rewrite H.
  - assert (M : movable_members ts (firstn i vs ++ v :: skipn (S i) vs) = false) by (apply (IH i t v N H vs); lia).
    change (movable t0 x && movable_members ts (firstn i vs ++ v :: skipn (S i) vs) = false). rewrite M. apply andb_false_r.
Qed.

Lemma carried_forged t : carries t -> wf_ty (erase t) -> exists v, has_ty (erase t) v /\ movable t v = false.
Proof.
  induction 1 as [|a b C IH|a b C IH|t C IH|ts t I C IH|ts t I C IH]; intros W; cbn [erase] in *.
  - exists (VInt 2). split; [|reflexivity]. cbn. lia.
  - destruct W as [Wa Wb]. destruct (IH Wa) as (v & T & M). exists (VPair v (dflt (erase b))). split; [split; [assumption | now apply dflt_has_ty]|].
    cbn [movable]. now rewrite M.
  - destruct W as [Wa Wb]. destruct (IH Wb) as (v & T & M). exists (VPair (dflt (erase a)) v). split; [split; [now apply dflt_has_ty | assumption]|].
    cbn [movable]. rewrite M. apply andb_false_r.
  - destruct (IH W) as (v & T & M). exists (VOpt (Some v)). auto.
  - apply wf_var in W. destruct W as [_ W]. rewrite Forall_forall in W. destruct (IH (W _ (in_map erase _ _ I))) as (v & T & M).
    apply In_nth_error in I. destruct I as [i I]. exists (VVar i v). rewrite movable_var, I. split; [|assumption].
    cbn [has_ty]. rewrite pick_ty, nth_error_map, I. exact T.
  - pose proof (wf_rec _ W) as W'. rewrite Forall_forall in W'. destruct (IH (W' _ (in_map erase _ _ I))) as (v & T & M).
    apply In_nth_error in I. destruct I as [i I].
    exists (VSeq (firstn i (map dflt (map erase ts)) ++ v :: skipn (S i) (map dflt (map erase ts)))). split.
    + apply members_ty_rec. apply (members_replace _ i (erase t)); [|now rewrite nth_error_map, I|assumption].
      pose proof (dflt_has_ty _ W) as D. exact D.
    + rewrite movable_rec. apply (members_fail _ i t); [assumption..|]. now rewrite !map_length.
Qed.
