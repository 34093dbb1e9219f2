(** Types that can be streamed: lemmas. *)
From Coq Require Import List Arith Bool Lia.
From Verif Require Import StrmModel StrmSpec.
Import ListNotations.

Section Deep.
  Context (P : ty -> Prop).
  Context (H1 : forall k, P (Number k)) (H2 : P Boolean) (H3 : forall k, P (Endian k)) (H4 : P Str).
  Context (H5 : forall t, regular t -> P t -> P (Vec t)) (H6 : forall t, regular t -> P t -> P (Set_ t)).
  Context (H7 : forall k t, regular k -> regular t -> P k -> P t -> P (Map k t)) (H8 : forall t u, regular t -> regular u -> P t -> P u -> P (Pair t u)).
  Context (H9 : forall t, regular t -> P t -> P (Opt t)).
  Context (H10 : forall ts, ts <> [] -> Forall regular ts -> Forall P ts -> P (Var ts)).
  Context (H11 : forall k triv str base, P (User k true true true triv str base)).
  Context (H12 : forall k triv b, regular b -> P b -> P (User k false false true triv false (Some b))).
  Fixpoint regular_deep (t : ty) (R : regular t) {struct R} : P t :=
    match R with
    | r_number k => H1 k
    | r_bool => H2
    | r_endian k => H3 k
    | r_string => H4
    | r_vec t r => H5 t r (regular_deep t r)
    | r_set t r => H6 t r (regular_deep t r)
    | r_map k t r s => H7 k t r s (regular_deep k r) (regular_deep t s)
    | r_pair k t r s => H8 k t r s (regular_deep k r) (regular_deep t s)
    | r_opt t r => H9 t r (regular_deep t r)
    | r_var ts n f => H10 ts n f ((fix go (l : list ty) (f : Forall regular l) : Forall P l :=
        match f with Forall_nil _ => Forall_nil _ | Forall_cons x r f' => Forall_cons x (regular_deep x r) (go _ f') end) ts f)
    | r_own k triv str base => H11 k triv str base
    | r_derived k triv b r => H12 k triv b r (regular_deep b r)
    end.
End Deep.

Lemma same_eqb : forall a b, ty_eqb a b = true <-> same a b.
Proof.
  fix IH 1. intros a b.
  assert (S1 : forall x y, ty_eqb x y = true -> ty_eqb x y = true) by auto.
  destruct a; destruct b; cbn [ty_eqb]; try (split; [discriminate | intros H; inversion H; fail]).
  - rewrite Nat.eqb_eq. split; [intros ->; constructor | intros H; inversion H; reflexivity].
  - split; [constructor | reflexivity].
  - rewrite Nat.eqb_eq. split; [intros ->; constructor | intros H; inversion H; reflexivity].
  - split; [constructor | reflexivity].
  - split; [constructor | reflexivity].
  - rewrite IH. split; [constructor; assumption | intros H; inversion H; assumption].
  - rewrite IH. split; [constructor; assumption | intros H; inversion H; assumption].
  - rewrite andb_true_iff, IH, IH. split; [intros []; constructor; assumption | intros H; inversion H; auto].
  - rewrite andb_true_iff, IH, IH. split; [intros []; constructor; assumption | intros H; inversion H; auto].
  - rewrite IH. split; [constructor; assumption | intros H; inversion H; assumption].
  - assert (L : forall xs ys, (fix lists (xs ys : list ty) := match xs, ys with [], [] => true | x :: xs', y :: ys' => ty_eqb x y && lists xs' ys' | _, _ => false end) xs ys = true <-> Forall2 same xs ys).
    { fix IL 1. intros [|x xs] [|y ys]; try (split; [discriminate | intros H; inversion H; fail]).
      - split; constructor.
      - rewrite andb_true_iff, IH, IL. split; [intros []; constructor; assumption | intros H; inversion H; auto]. }
    rewrite L. split; [constructor; assumption | intros H; inversion H; assumption].
  - rewrite andb_true_iff, IH, eqb_true_iff. split; [intros [-> H]; constructor; assumption | intros H; inversion H; auto].
  - rewrite IH. split; [constructor; assumption | intros H; inversion H; assumption].
  - rewrite Nat.eqb_eq. split; [intros ->; constructor | intros H; inversion H; reflexivity].
  - rewrite Nat.eqb_eq. split; [intros ->; constructor | intros H; inversion H; reflexivity].
Qed.

Lemma once_false : forall ts, once ts = false <-> exists l t m u n, ts = l ++ t :: m ++ u :: n /\ same t u.
Proof.
  induction ts as [|x ts IH]; cbn [once].
  - split; [discriminate|]. intros (l & t & m & u & n & E & _). destruct l; discriminate E.
  - rewrite andb_false_iff, negb_false_iff, IH, existsb_exists. split.
    + intros [(u & I & E)|(l & t & m & u & n & -> & S)].
      * apply in_split in I. destruct I as (m & n & ->). apply same_eqb in E. exists [], x, m, u, n. auto.
      * exists (x :: l), t, m, u, n. auto.
    + intros (l & t & m & u & n & E & S). destruct l as [|y l]; injection E as -> ->.
      * left. exists u. split; [apply in_or_app; right; left; reflexivity | apply same_eqb, S].
      * right. eauto 10.
Qed.

Lemma forallb_false : forall (f : ty -> bool) ts, forallb f ts = false <-> exists t, In t ts /\ f t = false.
Proof.
  induction ts as [|x ts IH]; cbn [forallb].
  - split; [discriminate | intros (t & [] & _)].
  - rewrite andb_false_iff, IH. split.
    + intros [E|(t & I & E)]; [exists x | exists t]; cbn; auto.
    + intros (t & [<-|I] & E); eauto.
Qed.

Lemma regular_default : forall t, regular t -> default_constructible t = true.
Proof.
  apply regular_deep; cbn [default_constructible]; auto.
  - intros k t _ _ -> ->. reflexivity.
  - intros ts N _ F. destruct F; [contradiction N; reflexivity | assumption].
Qed.

Lemma regular_simple : forall t, regular t -> is_simple t = true -> simple t.
Proof. intros t R S. unfold simple. destruct R; try discriminate S; eauto. Qed.

Lemma write_false : forall t, regular t -> (can_write t = false <-> bits_in t).
Proof.
  apply regular_deep; cbn [can_write]; intros; try (split; [discriminate | intros B; inversion B; fail]).
  - destruct (is_simple t) eqn:S.
    + destruct (regular_simple t H S) as [->|[k ->]]; split; try discriminate; try reflexivity; [constructor|].
      intros B. inversion B as [|? B'| | | | | | | |]; inversion B'.
    + rewrite H0. split; [apply b_vec | intros B; inversion B; subst; [discriminate S | assumption]].
  - rewrite H0. split; [apply b_set | intros B; inversion B; assumption].
  - rewrite andb_false_iff, H1, H2. split; [intros []; [apply b_key | apply b_mapped]; assumption | intros B; inversion B; auto].
  - rewrite andb_false_iff, H1, H2. split; [intros []; [apply b_first | apply b_second]; assumption | intros B; inversion B; auto].
  - rewrite H0. split; [apply b_opt | intros B; inversion B; assumption].
  - rewrite forallb_false. rewrite Forall_forall in H1. split.
    + intros (t & I & E). apply (b_var ts t I). apply H1; assumption.
    + intros B. inversion B as [| | | | | | | |? t I B'|]; subst. exists t. split; [exact I | apply H1; assumption].
  - cbn [orb]. rewrite orb_false_r, H0. split; [apply b_base | intros B; inversion B; assumption].
Qed.

Lemma read_false : forall t, regular t -> (can_read t = false <-> bits_in t \/ twice_in t).
Proof.
  apply regular_deep; cbn [can_read]; intros; try (split; [discriminate | intros [B|B]; inversion B; fail]).
  - destruct (is_simple t) eqn:S.
    + destruct (regular_simple t H S) as [->|[k ->]]; split; try discriminate; try reflexivity; [intros _; left; constructor|].
      intros [B|B]; [inversion B as [|? B'| | | | | | | |] | inversion B as [|? B'| | | | | | | |]]; inversion B'.
    + rewrite (regular_default t H). cbn [andb]. rewrite H0. split.
      * intros [B|B]; [left; apply b_vec, B | right; apply t_vec, B].
      * intros [B|B]; inversion B; subst; [discriminate S | |]; auto.
  - rewrite (regular_default t H). cbn [andb]. rewrite H0. split; (intros [B|B]; [left | right]); try (constructor; assumption); inversion B; auto.
  - rewrite (regular_default k H), (regular_default t H0). cbn [andb]. rewrite andb_false_iff, H1, H2. split.
    + intros [[B|B]|[B|B]]; [left; apply b_key | right; apply t_key | left; apply b_mapped | right; apply t_mapped]; exact B.
    + intros [B|B]; inversion B; auto.
  - rewrite andb_false_iff, H1, H2. split.
    + intros [[B|B]|[B|B]]; [left; apply b_first | right; apply t_first | left; apply b_second | right; apply t_second]; exact B.
    + intros [B|B]; inversion B; auto.
  - rewrite (regular_default t H). cbn [andb]. rewrite H0. split; (intros [B|B]; [left | right]); try (constructor; assumption); inversion B; auto.
  - rewrite andb_false_iff, forallb_false, once_false. rewrite Forall_forall in H0, H1. split.
    + intros [(t & I & E)|(l & t & m & u & n & -> & S)].
      * rewrite (regular_default t (H0 t I)) in E. cbn [andb] in E. apply H1 in E; [|exact I].
        destruct E as [B|B]; [left; apply (b_var ts t I B) | right; apply (t_var ts t I B)].
      * right. apply t_here, S.
    + intros [B|B].
      * inversion B as [| | | | | | | |? t I B'|]; subst. left. exists t. split; [exact I|]. rewrite (regular_default t (H0 t I)). apply H1; auto.
      * inversion B as [l t m u n S E| | | | | | | |? t I B'|]; subst.
        -- right. eauto 10.
        -- left. exists t. split; [exact I|]. rewrite (regular_default t (H0 t I)). apply H1; auto.
  - cbn [orb]. rewrite H0. split; (intros [B|B]; [left | right]); try (constructor; assumption); inversion B; auto.
Qed.

Lemma writable_iff : forall t, regular t -> (can_write t = true <-> ~ bits_in t).
Proof. intros t R. pose proof (write_false t R) as W. destruct (can_write t); split; intros H; try discriminate H; auto; [intros B; apply W in B; discriminate B|]. exfalso. apply H, W. reflexivity. Qed.
Lemma readable_iff : forall t, regular t -> (can_read t = true <-> ~ bits_in t /\ ~ twice_in t).
Proof.
  intros t R. pose proof (read_false t R) as W. destruct (can_read t).
  - split; [intros _; split; intros B; (assert (X : true = false) by (apply W; auto)); discriminate X | reflexivity].
  - split; [discriminate|]. intros [B T]. exfalso. destruct (proj1 W eq_refl); auto.
Qed.
Lemma read_written : forall t, regular t -> can_read t = true -> can_write t = true.
Proof. intros t R H. apply (writable_iff t R). apply (readable_iff t R) in H. apply H. Qed.

(** * Spans *)
Section All.
  Context (P : ty -> Prop).
  Context (A1 : forall k, P (Number k)) (A2 : P Boolean) (A3 : forall k, P (Endian k)) (A4 : P Str) (A5 : P Chars).
  Context (A6 : forall t, P t -> P (Vec t)) (A7 : forall t, P t -> P (Set_ t)) (A8 : forall k t, P k -> P t -> P (Map k t)).
  Context (A9 : forall t u, P t -> P u -> P (Pair t u)) (A10 : forall t, P t -> P (Opt t)) (A11 : forall ts, (forall t, In t ts -> P t) -> P (Var ts)).
  Context (A12 : forall c t, P t -> P (Span c t)) (A13 : forall t, P t -> P (Const t)) (A14 : forall k w r d v s b, P (User k w r d v s b)).
  Context (A15 : forall k, P (Other k)).
  Fixpoint ty_all (t : ty) : P t :=
    match t with
    | Number k => A1 k | Boolean => A2 | Endian k => A3 k | Str => A4 | Chars => A5
    | Vec t => A6 t (ty_all t) | Set_ t => A7 t (ty_all t) | Map k t => A8 k t (ty_all k) (ty_all t)
    | Pair k t => A9 k t (ty_all k) (ty_all t) | Opt t => A10 t (ty_all t)
    | Var ts => A11 ts ((fix go (l : list ty) : forall t, In t l -> P t :=
        match l with
        | [] => fun t i => match i with end
        | x :: l' => fun t i => match i with or_introl e => eq_ind x P (ty_all x) t e | or_intror i' => go l' t i' end
        end) ts)
    | Span c t => A12 c t (ty_all t) | Const t => A13 t (ty_all t) | User k w r d v s b => A14 k w r d v s b | Other k => A15 k
    end.
End All.

Lemma trivial_iff : forall t, trivially_copyable t = true <-> trivial t.
Proof.
  apply ty_all; cbn [trivially_copyable]; intros;
    try (split; [intros _; constructor | reflexivity]); try (split; [discriminate | inversion 1]).
  - split; [intros T; constructor; tauto | inversion 1; subst; tauto].
  - rewrite forallb_forall. split.
    + intros T. constructor. intros t I. apply H; auto.
    + inversion 1; subst. intros t I. apply H; auto.
  - split; [intros T; constructor; tauto | inversion 1; subst; tauto].
  - destruct v; split; intros T; try discriminate; try constructor; inversion T.
Qed.

Lemma unmade_iff : forall t, default_constructible t = false <-> unmade t.
Proof.
  apply ty_all; cbn [default_constructible]; intros; try (split; [discriminate | inversion 1]).
  - rewrite andb_false_iff, H, H0. split; [intros [?|?]; [now apply m_first | now apply m_second] | inversion 1; subst; auto].
  - destruct ts as [|t ts]; [split; constructor|]. rewrite (H t (or_introl eq_refl)). split; [now constructor | inversion 1; subst; auto].
  - rewrite H. split; [now constructor | inversion 1; subst; auto].
  - destruct d; split; intros T; try discriminate; try constructor; inversion T.
Qed.

Lemma spans : forall t c, (can_write (Span c t) = true <-> c = true /\ trivial t) /\
  (can_read (Span c t) = true <-> c = false /\ trivial t /\ forall u, t <> Const u) /\
  (can_read (Const (Span c t)) = true <-> c = false /\ trivial t /\ forall u, t <> Const u).
Proof.
  intros t c. cbn [can_write can_read]. rewrite <- trivial_iff, andb_true_iff.
  assert (N : (match t with Const _ => false | _ => true end) = true <-> forall u, t <> Const u).
  { destruct t; split; intros H; try reflexivity; try discriminate; try (intros u E; discriminate). exfalso. exact (H t eq_refl). }
  destruct c; cbn [negb]; rewrite ?andb_true_iff, ?N; intuition discriminate.
Qed.

Lemma made_false : forall t, default_constructible t = true <-> ~ unmade t.
Proof. intros t. rewrite <- unmade_iff. destruct (default_constructible t); intuition discriminate. Qed.

Lemma elements : forall t, (can_read (Set_ t) = true <-> ~ unmade t /\ can_read t = true) /\
  (can_read (Opt t) = true <-> ~ unmade t /\ can_read t = true) /\
  (~ simple t -> (forall u, t <> Const u) -> can_read (Vec t) = true <-> ~ unmade t /\ can_read t = true).
Proof.
  intros t. cbn [can_read]. rewrite <- made_false, andb_true_iff. split; [reflexivity|]. split; [reflexivity|].
  intros NS NC. destruct (is_simple t) eqn:E; [|now rewrite andb_true_iff]. exfalso. apply NS. destruct t; try discriminate E; unfold simple; eauto.
  exfalso. exact (NC t eq_refl).
Qed.
