(** Proofs that the slots are given what they are to be given. *)
From Coq Require Import List Arith Bool Lia.
From Verif Require Import PassModel PassSpec PassProofs.
Import ListNotations.

Section Deliver.
Context {V : Type}.
Local Notation cell := (cell V).
Local Notation store := (store V).
Local Notation slot := (slot V).
Local Notation signal := (signal V).
Local Notation log := (log V).
Local Notation env := (env V).
Local Notation arg := (arg V).
Local Notation read := (read V).
Local Notation cells := (cells V).
Local Notation bind_all := (bind_all V).
Local Notation size st := (length (cells st)).

(** Cells below [n] are the variables of the caller. *)
Variable n : nat.
Definition good (st : store) (v : env) : Prop := n <= size st /\ forall x, x < n -> v x = read st x.

Definition rep (st : store) (e : expr) (a : arg) : Prop :=
  match a with
  | Const _ c => n <= object_of e < size st /\ read st (object_of e) = c
  | Var _ x => e = LValue x /\ x < n
  | View _ x => e = ConstLValue x /\ x < n
  | Own _ x => e = XValue x /\ x < n
  end.
(** What a bound parameter is. *)
Definition bound (st : store) (p : param) (b : nat) (a : arg) : Prop :=
  match a with
  | Const _ c => (n <= b < size st /\ read st b = c) /\ p_pass p <> Ref
  | Var _ x => b = x /\ x < n /\ p_pass p = Ref
  | View _ x => b = x /\ x < n /\ p_pass p = CRef
  | Own _ _ => False
  end.
Inductive all3 {A B C} (R : A -> B -> C -> Prop) : list A -> list B -> list C -> Prop :=
| all3_nil : all3 R [] [] []
| all3_cons : forall x y z l m k, R x y z -> all3 R l m k -> all3 R (x :: l) (y :: m) (z :: k).

Definition apart (e e' : expr) : Prop := n <= object_of e -> object_of e = object_of e' -> category_of e <> X /\ category_of e' <> X.
Fixpoint separate (es : list expr) : Prop :=
  match es with [] => True | e :: es' => Forall (apart e) es' /\ separate es' end.
(** No private cell is passed by reference, no variable given away to a reference. *)
Definition decent (p : param) (e : expr) : Prop :=
  match e with
  | LValue a => n <= a -> p_pass p = Value
  | XValue a => a < n -> p_pass p <> RRef
  | ConstLValue _ => True
  end.
(** Where a parameter ends up. *)
Definition place (lo hi : nat) (p : param) (e : expr) (b : nat) : Prop :=
  (p_pass p = Value /\ lo <= b < hi) \/ (p_pass p <> Value /\ b = object_of e /\ (p_pass p = RRef -> category_of e = X)).

Definition frame (es : list expr) (st st' : store) : Prop :=
  size st <= size st' /\ forall a, n <= a < size st -> ~ In (XValue a) es -> read st' a = read st a.

Lemma all3_impl : forall A B C (R S : A -> B -> C -> Prop) l m k, (forall x y z, R x y z -> S x y z) -> all3 R l m k -> all3 S l m k.
Proof. intros A B C R S l m k I H. induction H; constructor; auto. Qed.

Lemma read_app : forall (st : store) c k a, a < size st -> read (mkstore V (cells st ++ [c]) k) a = read st a.
Proof. intros st c k a H. unfold PassModel.read. cbn. now apply app_nth1. Qed.

Lemma set_same : forall (v : env) x c y, set V v x c y = if Nat.eqb y x then c else v y.
Proof. reflexivity. Qed.

Lemma bind_good : forall p e (st st' : store) b v a v' a', good st v -> rep st e a -> decent p e -> object_of e < size st ->
  PassModel.bind V p e st = Some (st', b) -> settle V p a v = (v', a') ->
  good st' v' /\ bound st' p b a' /\ place (size st) (size st') p e b /\ frame [e] st st' /\
  (forall x, x < size st -> x <> object_of e \/ category_of e <> X -> read st' x = read st x).
Proof.
  intros p e st st' b v a v' a' [G1 G2] R D O B Se. unfold PassModel.bind in B. unfold settle in Se.
  assert (frame [e] st st' /\ (forall x, x < size st -> x <> object_of e \/ category_of e <> X -> read st' x = read st x) ->
          good st' v' /\ bound st' p b a' /\ place (size st) (size st') p e b ->
          good st' v' /\ bound st' p b a' /\ place (size st) (size st') p e b /\ frame [e] st st' /\
          (forall x, x < size st -> x <> object_of e \/ category_of e <> X -> read st' x = read st x)) as Fin by tauto.
  destruct (p_pass p) eqn:P.
  - (* by value *)
    assert (K : exists st1 : store, st' = mkstore V (cells st1 ++ [read st (object_of e)]) (copies V st') /\ size st1 = size st /\ b = size st /\
                ((category_of e <> X /\ cells st1 = cells st) \/ (category_of e = X /\ cells st1 = put V (cells st) (object_of e) (Moved V)))).
    { destruct e as [x|x|x]; cbn [object_of category_of].
      - destruct (p_copy p); [|discriminate]. injection B as <- <-. exists st. cbn. repeat split. left. split; [discriminate|reflexivity].
      - destruct (p_copy p); [|discriminate]. injection B as <- <-. exists st. cbn. repeat split. left. split; [discriminate|reflexivity].
      - injection B as <- <-. exists (mkstore V (put V (cells st) x (Moved V)) 0). cbn. rewrite length_put. repeat split. right. split; reflexivity. }
    destruct K as (st1 & E & N & -> & K). clear B.
    assert (Rb : read st' (size st) = read st (object_of e)).
    { rewrite E. unfold PassModel.read at 1. cbn. rewrite app_nth2 by lia. rewrite N, Nat.sub_diag. reflexivity. }
    assert (Sz : size st' = S (size st)). { rewrite E. cbn. rewrite app_length. cbn. lia. }
    assert (Ro : forall x, x < size st -> read st' x = if Nat.eqb x (object_of e) && match category_of e with X => true | _ => false end then Moved V else read st x).
    { intros x Hx. rewrite E. rewrite read_app by lia. unfold PassModel.read.
      destruct K as [[K1 K2]|[K1 K2]]; rewrite K2.
      - destruct (category_of e); try (rewrite Bool.andb_false_r; reflexivity). now destruct K1.
      - rewrite K1, Bool.andb_true_r, nth_put, (proj2 (Nat.ltb_lt _ _) O), Bool.andb_true_r. reflexivity. }
    assert (Rk : forall x, x < size st -> x <> object_of e \/ category_of e <> X -> read st' x = read st x).
    { intros x Hx Hn. rewrite Ro by assumption. destruct (Nat.eqb_spec x (object_of e)) as [->|_]; [|reflexivity].
      destruct Hn as [Hn|Hn]; [now destruct Hn|]. destruct (category_of e); try reflexivity. now destruct Hn. }
    apply Fin.
    + split; [split; [lia|]|assumption]. intros x Hx Hn. apply Rk; [lia|].
      destruct (Nat.eq_dec x (object_of e)) as [->|]; [right|now left].
      destruct e; cbn in *; try discriminate. exfalso. apply Hn. now left.
    + destruct a as [c|x|x|x]; cbn [rep] in R; injection Se as <- <-.
      * destruct R as [R1 R2]. split; [|split].
        -- split; [lia|]. intros y Hy. rewrite Rk by lia. now apply G2.
        -- cbn. split; [|rewrite P; discriminate]. split; [lia|]. now rewrite Rb, R2.
        -- left. split; [assumption|lia].
      * destruct R as [-> R2]. split; [|split].
        -- split; [lia|]. intros y Hy. rewrite Rk by (lia || (right; discriminate)). now apply G2.
        -- cbn. split; [|rewrite P; discriminate]. split; [lia|]. rewrite Rb. cbn. symmetry. now apply G2.
        -- left. split; [assumption|lia].
      * destruct R as [-> R2]. split; [|split].
        -- split; [lia|]. intros y Hy. rewrite Rk by (lia || (right; discriminate)). now apply G2.
        -- cbn. split; [|rewrite P; discriminate]. split; [lia|]. rewrite Rb. cbn. symmetry. now apply G2.
        -- left. split; [assumption|lia].
      * destruct R as [-> R2]. split; [|split].
        -- split; [lia|]. intros y Hy. rewrite Ro by lia. cbn [object_of category_of]. rewrite Bool.andb_true_r, set_same.
           destruct (Nat.eqb y x); [reflexivity | now apply G2].
        -- cbn. split; [|rewrite P; discriminate]. split; [lia|]. rewrite Rb. cbn. symmetry. now apply G2.
        -- left. split; [assumption|lia].
  - (* by reference *)
    destruct e as [x|x|x]; try discriminate. injection B as <- <-.
    apply Fin; [split; [split; [lia|reflexivity]|reflexivity]|].
    destruct a as [c|y|y|y]; cbn [rep object_of] in R.
    + destruct R as [R1 R2]. cbn in D. specialize (D (proj1 R1)). congruence.
    + destruct R as [E R2]. injection E as ->. injection Se as <- <-. split; [split; assumption|]. split; [cbn; auto|].
      right. rewrite P. repeat split; discriminate.
    + destruct R as [E R2]. discriminate.
    + destruct R as [E R2]. discriminate.
  - (* by reference to const *)
    assert (Bx : st' = st /\ b = object_of e) by (destruct e; injection B as <- <-; split; reflexivity). destruct Bx as [-> ->].
    apply Fin; [split; [split; [lia|reflexivity]|reflexivity]|].
    assert (Pl : place (size st) (size st) p e (object_of e)) by (right; rewrite P; repeat split; discriminate).
    destruct a as [c|y|y|y]; cbn [rep] in R; injection Se as <- <-; (split; [split; assumption|]); (split; [|exact Pl]).
    + cbn. split; [assumption|]. rewrite P. discriminate.
    + destruct R as [-> R2]. cbn. auto.
    + destruct R as [-> R2]. cbn. auto.
    + destruct R as [-> R2]. cbn. auto.
  - (* by rvalue reference *)
    destruct e as [x|x|x]; try discriminate. injection B as <- <-.
    apply Fin; [split; [split; [lia|reflexivity]|reflexivity]|].
    destruct a as [c|y|y|y]; cbn [rep object_of] in R.
    + injection Se as <- <-. split; [split; assumption|]. split; [cbn; split; [assumption|rewrite P; discriminate]|].
      right. rewrite P. repeat split; discriminate.
    + destruct R as [E R2]. discriminate.
    + destruct R as [E R2]. discriminate.
    + destruct R as [E R2]. injection E as ->. cbn in D. now specialize (D R2).
Qed.

Lemma rep_object : forall (st : store) v e a, good st v -> rep st e a -> object_of e < size st.
Proof.
  intros st v e a [G1 G2] R. destruct a as [c|x|x|x]; cbn in R; [lia| | |]; destruct R as [-> R]; cbn; lia.
Qed.
Lemma rep_kept : forall (st st' : store) e a, rep st e a -> size st <= size st' ->
  (n <= object_of e -> object_of e < size st -> read st' (object_of e) = read st (object_of e)) -> rep st' e a.
Proof.
  intros st st' e a R S K. destruct a as [c|x|x|x]; cbn [rep] in *; try assumption.
  destruct R as [R1 R2]. split; [lia|]. rewrite K by lia. assumption.
Qed.
Lemma bound_kept : forall (st st' : store) p b a, bound st p b a -> size st <= size st' ->
  (n <= b < size st -> read st' b = read st b) -> bound st' p b a.
Proof.
  intros st st' p b a R S K. destruct a as [c|x|x|x]; cbn [bound] in *; try assumption.
  destruct R as [[R1 R2] R3]. split; [|assumption]. split; [lia|]. rewrite K by lia. assumption.
Qed.
Lemma place_weaken : forall lo hi lo' hi' p e b, lo' <= lo -> hi <= hi' -> place lo hi p e b -> place lo' hi' p e b.
Proof. intros lo hi lo' hi' p e b A B [[P H]|H]; [left; split; [assumption|lia] | now right]. Qed.

Lemma bind_all_good : forall ps es (st st' : store) l v args v' args',
  good st v -> Forall2 (rep st) es args -> separate es -> Forall2 decent ps es ->
  bind_all ps es st = Some (st', l) -> settle_all V ps args v = (v', args') ->
  good st' v' /\ all3 (bound st') ps l args' /\ all3 (place (size st) (size st')) ps es l /\ frame es st st' /\
  separate (zip forward ps l).
Proof.
  induction ps as [|p ps IH]; intros [|e es] st st' l v args v' args' G R Sp D B Se; cbn [PassModel.bind_all] in B; try discriminate.
  - injection B as <- <-. inversion R; subst. cbn in Se. injection Se as <- <-.
    split; [assumption|]. split; [constructor|]. split; [constructor|]. split; [split; [lia|reflexivity]|exact I].
  - destruct (PassModel.bind V p e st) as [[st1 b]|] eqn:B1; [|discriminate].
    destruct (PassModel.bind_all V ps es st1) as [[st2 l2]|] eqn:B2; [|discriminate]. injection B as <- <-.
    inversion R as [|? a ? args0 R1 R2]; subst. inversion D as [|? ? ? ? D1 D2]; subst. destruct Sp as [Sp1 Sp2].
    cbn [settle_all] in Se. destruct (settle V p a v) as [v1 a1] eqn:S1. destruct (settle_all V ps args0 v1) as [v2 l3] eqn:S2.
    injection Se as <- <-.
    destruct (bind_good _ _ _ _ _ _ _ _ _ G R1 D1 (rep_object _ _ _ _ G R1) B1 S1) as (G1 & Bd & Pl & Fr & Kp).
    assert (R2' : Forall2 (rep st1) es args0).
    { rewrite Forall_forall in Sp1. clear - R2 Sp1 Fr Kp. induction R2 as [|e' a' es args Ra R2 IH]; constructor.
      - eapply rep_kept; [exact Ra | exact (proj1 Fr) |]. intros H1 H2. apply Kp; [assumption|].
        destruct (Nat.eq_dec (object_of e') (object_of e)) as [E|]; [right|now left].
        apply (Sp1 e' (or_introl eq_refl)); lia.
      - apply IH. intros x Hx. apply Sp1. now right. }
    destruct (IH _ _ _ _ _ _ _ _ G1 R2' Sp2 D2 B2 S2) as (G2 & Bd2 & Pl2 & Fr2 & Sep).
    assert (Bb : b < size st1) by (destruct a1 as [c|x|x|x]; cbn in Bd; destruct G1; intuition lia).
    assert (Ap : n <= b -> In (XValue b) es -> False).
    { intros Hb J. rewrite Forall_forall in Sp1. specialize (Sp1 _ J). unfold apart in Sp1. cbn [object_of category_of] in Sp1.
      destruct Pl as [[P Hl]|(P & -> & Px)].
      - (* fresh: not among the others *)
        clear - R2 J Hl G.
        induction R2 as [|e' a' es' args' Ra R2 IH]; [destruct J|]. destruct J as [->|J]; [|now apply IH].
        pose proof (rep_object _ _ _ _ G Ra) as Q. cbn in Q. lia.
      - destruct (Sp1 Hb eq_refl) as [_ Q]. now apply Q. }
    split; [assumption|]. split.
    { constructor; [|assumption]. eapply bound_kept; [exact Bd | exact (proj1 Fr2) |]. intros Hb. apply Fr2; [assumption|].
      intros J. now apply (Ap (proj1 Hb)). }
    split.
    { constructor; [eapply place_weaken; [reflexivity | exact (proj1 Fr2) | exact Pl]|].
      eapply all3_impl; [|exact Pl2]. intros x y z. apply place_weaken; [exact (proj1 Fr) | reflexivity]. }
    split.
    { destruct Fr as [F1 F2], Fr2 as [F3 F4]. split; [lia|]. intros x Hx Hn. rewrite F4; [apply F2; [assumption|]|lia|].
      - intros [E|[]]. apply Hn. now left.
      - intros J. apply Hn. now right. }
    cbn [zip separate]. split; [|assumption].
    (* the new expressions are apart *)
    assert (Ob : object_of (forward p b) = b) by (unfold forward; destruct (p_pass p); reflexivity).
    assert (Ct : category_of (forward p b) = X -> p_pass p = Value \/ p_pass p = RRef) by (unfold forward; destruct (p_pass p); cbn; auto; discriminate).
    assert (Rl : Forall (fun e' => object_of e' < size st) es).
    { clear - R2 G. induction R2; constructor; [eapply rep_object; eassumption | assumption]. }
    clear - Pl Pl2 Sp1 Ob Ct Bb Rl R1 G Fr.
    revert Sp1 Rl. induction Pl2 as [|q e' b' ps es l Hq Pl2 IH]; intros Sp1 Rl; cbn [zip]; constructor.
    + intros H1 H2. rewrite Ob in *.
      assert (Ob' : object_of (forward q b') = b') by (unfold forward; destruct (p_pass q); reflexivity).
      assert (Ct' : category_of (forward q b') = X -> p_pass q = Value \/ p_pass q = RRef) by (unfold forward; destruct (p_pass q); cbn; auto; discriminate).
      rewrite Ob' in H2. subst b'. inversion Sp1 as [|? ? A1 A2]; subst. inversion Rl as [|? ? L1 L2]; subst.
      destruct Hq as [[Q Hq]|(Q & -> & Qx)]; [lia|].
      destruct Pl as [[P Hp]|(P & E & Px)]; [lia|].
      destruct (A1 ltac:(lia) ltac:(congruence)) as [A3 A4].
      split; intros K; [apply Ct in K | apply Ct' in K]; destruct K as [K|K]; try contradiction; [now apply A3, Px | now apply A4, Qx].
    + inversion Sp1; subst. inversion Rl; subst. now apply IH.
Qed.

(** * Functions *)

Lemma bound_read : forall (st : store) v ps l args, good st v -> all3 (bound st) ps l args -> map (read st) l = map (look V v) args.
Proof.
  intros st v ps l args G H. induction H as [|p b a ps l args Hb H IH]; [reflexivity|].
  cbn [map]. rewrite IH. f_equal. destruct a as [c|x|x|x]; cbn in *; try tauto.
  - destruct Hb as (-> & Hx & _). symmetry. now apply G.
  - destruct Hb as (-> & Hx & _). symmetry. now apply G.
Qed.
Lemma size_write : forall (st : store) b c, size (write V st b c) = size st.
Proof. intros st b c. unfold write. cbn. apply length_put. Qed.
Definition kind (k : nat) (p : param) (b : nat) (a : arg) : Prop :=
  match a with
  | Const _ _ => n <= b < k /\ p_pass p <> Ref
  | Var _ x => b = x /\ x < n /\ p_pass p = Ref
  | View _ x => b = x /\ x < n /\ p_pass p = CRef
  | Own _ _ => False
  end.
Lemma bound_kind : forall st p b a, bound st p b a -> kind (size st) p b a.
Proof. intros st p b a H. destruct a; cbn in *; tauto. Qed.
Lemma store_back_good : forall ps l args cs (st : store) v, good st v -> all3 (kind (size st)) ps l args ->
  good (store_back V ps l cs st) (changed V ps args cs v) /\ size (store_back V ps l cs st) = size st /\
  (forall x, n <= x < size st -> ~ In (XValue x) (zip forward ps l) -> read (store_back V ps l cs st) x = read st x).
Proof.
  intros ps l args cs st v G H. revert cs st v G H.
  assert (K : forall k cs st v, size st = k -> good st v -> all3 (kind k) ps l args ->
    good (store_back V ps l cs st) (changed V ps args cs v) /\ size (store_back V ps l cs st) = k /\
    (forall x, n <= x < k -> ~ In (XValue x) (zip forward ps l) -> read (store_back V ps l cs st) x = read st x)).
  { intros k cs st v E G H. revert cs st v E G. induction H as [|p b a ps l args Hk H IH]; intros cs st v E G.
    - cbn. auto.
    - destruct cs as [|c cs]; [cbn; auto|]. cbn [store_back changed].
      assert (Sx : size (match p_pass p with CRef => st | _ => write V st b c end) = k).
      { destruct (p_pass p); rewrite ?size_write; assumption. }
      assert (Bk : b < size st) by (destruct G; destruct a; cbn in Hk; intuition lia).
      assert (Gx : good (match p_pass p with CRef => st | _ => write V st b c end) (match p_pass p, a with Ref, Var _ x => set V v x c | _, _ => v end)).
      { destruct G as [G1 G2]. split; [rewrite Sx; rewrite E in G1; exact G1|]. intros x Hx.
        destruct a as [c0|y|y|y]; cbn [kind] in Hk; [| | |contradiction].
        - assert (Z : x <> b) by lia.
          replace (match p_pass p with Ref => v | _ => v end) with v by (destruct (p_pass p); reflexivity).
          destruct (p_pass p); rewrite ?read_write by assumption;
            try (rewrite (proj2 (Nat.eqb_neq _ _) Z)); now apply G2.
        - destruct Hk as (-> & Hy & ->). rewrite read_write by assumption. rewrite set_same. destruct (Nat.eqb x y); [reflexivity | now apply G2].
        - destruct Hk as (-> & Hy & ->). now apply G2. }
      specialize (IH cs _ _ Sx Gx). destruct IH as (I1 & I2 & I3). split; [assumption|]. split; [assumption|].
      intros x Hx Hn. rewrite I3; [|assumption|].
      + destruct a as [c0|y|y|y]; cbn [kind] in Hk; [| | |contradiction].
        * destruct (Nat.eq_dec x b) as [->|Z].
          -- destruct (p_pass p) eqn:P; [| |reflexivity|].
             ++ exfalso. apply Hn. cbn [zip]. left. unfold forward. rewrite P. reflexivity.
             ++ now destruct Hk.
             ++ exfalso. apply Hn. cbn [zip]. left. unfold forward. rewrite P. reflexivity.
          -- destruct (p_pass p); rewrite ?read_write by assumption; try (rewrite (proj2 (Nat.eqb_neq _ _) Z)); reflexivity.
        * destruct Hk as (-> & Hy & ->). rewrite read_write by assumption. rewrite (proj2 (Nat.eqb_neq x y)) by lia. reflexivity.
        * destruct Hk as (-> & Hy & ->). reflexivity.
      + intros J. apply Hn. cbn [zip]. now right. }
  intros cs st v G H. now apply (K (size st)).
Qed.

Lemma all3_places : forall lo hi ps es l x, all3 (place lo hi) ps es l -> In (XValue x) (zip forward ps l) -> lo <= x \/ In (XValue x) es.
Proof.
  intros lo hi ps es l x H. induction H as [|p e b ps es l Hp H IH]; [intros []|]. cbn [zip]. intros [E|J].
  - unfold forward in E. destruct Hp as [[P Hb]|(P & -> & Px)].
    + rewrite P in E. injection E as ->. left. lia.
    + destruct (p_pass p); try discriminate; [now destruct P|]. injection E as <-. specialize (Px eq_refl).
      right. left. destruct e; cbn in *; try discriminate. reflexivity.
  - destruct (IH J) as [K|K]; [now left | right; now right].
Qed.

Lemma run_good : forall id qs f es (st st' : store) g v args,
  good st v -> Forall2 (rep st) es args -> separate es -> Forall2 decent qs es ->
  run V id qs f es st = Some (st', g) ->
  exists v', deliver_to V id qs f args v = (v', g) /\ good st' v' /\ frame es st st'.
Proof.
  intros id qs f es st st' g v args G R Sp D H. unfold run in H.
  destruct (PassModel.bind_all V qs es st) as [[st1 l]|] eqn:B; [|discriminate]. injection H as <- <-.
  unfold deliver_to. destruct (settle_all V qs args v) as [v1 args1] eqn:S1.
  destruct (bind_all_good _ _ _ _ _ _ _ _ _ G R Sp D B S1) as (G1 & Bd & Pl & Fr & _).
  assert (K : all3 (kind (size st1)) qs l args1) by (eapply all3_impl; [|exact Bd]; intros; now apply bound_kind).
  rewrite (bound_read _ _ _ _ _ G1 Bd).
  destruct (store_back_good qs l args1 (f (map (look V v1) args1)) st1 v1 G1 K) as (G2 & Z & F2).
  eexists. split; [reflexivity|]. split; [assumption|]. destruct Fr as [F3 F4]. split; [lia|].
  intros x Hx Hn. rewrite F2; [now apply F4 | lia |]. intros J. destruct (all3_places _ _ _ _ _ _ Pl J) as [Q|Q]; [lia | contradiction].
Qed.

(** * Signals *)

Definition tame (e : expr) : Prop := match e with LValue a => a < n | _ => True end.
Definition settled (p : param) : Prop := p_pass p <> RRef.

Lemma names_rep : forall st ps l args, all3 (bound st) ps l args -> Forall settled ps -> Forall2 (rep st) (zip name ps l) args.
Proof.
  intros st ps l args H S. induction H as [|p b a ps l args Hb H IH]; cbn [zip]; constructor.
  - unfold name. destruct a as [c|x|x|x]; cbn in Hb |- *; [|destruct Hb as (-> & Hx & ->); auto|destruct Hb as (-> & Hx & ->); auto|contradiction].
    destruct (p_pass p); apply Hb.
  - inversion S; subst. now apply IH.
Qed.
Lemma names_separate : forall ps l, separate (zip name ps l).
Proof.
  assert (N : forall p b, category_of (name p b) <> X) by (intros p b; unfold name; destruct (p_pass p); discriminate).
  induction ps as [|p ps IH]; intros [|b l]; cbn [zip separate]; auto. split; [|apply IH].
  clear IH. revert l. induction ps as [|q ps IH]; intros [|b' l]; cbn [zip]; constructor; [|apply IH].
  intros _ _. split; apply N.
Qed.
Lemma names_decent : forall st ps l args, all3 (bound st) ps l args -> Forall settled ps -> Forall2 decent ps (zip name ps l).
Proof.
  intros st ps l args H S. induction H as [|p b a ps l args Hb H IH]; cbn [zip]; constructor; [|inversion S; subst; now apply IH].
  inversion S as [|? ? S1 S2]; subst. unfold settled in S1.
  unfold name, decent. destruct (p_pass p) eqn:P; auto; [|contradiction].
  intros Hn. destruct a as [c|x|x|x]; cbn in Hb; [|destruct Hb as (-> & Hx & _); lia|destruct Hb as (-> & Hx & _); lia|contradiction].
  destruct Hb as [_ Hb]. contradiction.
Qed.
Lemma settle_again : forall st ps l args v, all3 (bound st) ps l args -> Forall settled ps -> settle_all V ps args v = (v, args).
Proof.
  intros st ps l args v H S. induction H as [|p b a ps l args Hb H IH]; [reflexivity|].
  inversion S as [|? ? S1 S2]; subst. cbn [settle_all].
  assert (K : settle V p a v = (v, a)).
  { unfold settle. destruct a as [c|x|x|x]; cbn in Hb; [|destruct Hb as (-> & Hx & ->); reflexivity|destruct Hb as (-> & Hx & ->); reflexivity|contradiction].
    destruct (p_pass p); reflexivity. }
  rewrite K, (IH S2). reflexivity.
Qed.
Lemma forward_rep : forall st ps l args, all3 (bound st) ps l args -> Forall2 (rep st) (zip forward ps l) args /\ Forall tame (zip forward ps l) /\
  Forall (fun e => n <= object_of e \/ category_of e <> X) (zip forward ps l).
Proof.
  intros st ps l args H. induction H as [|p b a ps l args Hb H (I1 & I2 & I3)]; cbn [zip]; [repeat constructor|].
  assert (K : rep st (forward p b) a /\ tame (forward p b) /\ (n <= object_of (forward p b) \/ category_of (forward p b) <> X)).
  { unfold forward. destruct a as [c|x|x|x]; cbn in Hb; [| | |contradiction].
    - destruct Hb as [Hb Hp]. destruct (p_pass p); cbn; intuition lia.
    - destruct Hb as (-> & Hx & ->). cbn. repeat split; try assumption. right. discriminate.
    - destruct Hb as (-> & Hx & ->). cbn. repeat split; try assumption. right. discriminate. }
  destruct K as (K1 & K2 & K3). repeat split; constructor; assumption.
Qed.
Lemma tame_decent : forall (qs : list param) es, length qs = length es -> Forall tame es ->
  Forall (fun e => n <= object_of e \/ category_of e <> X) es -> Forall2 decent qs es.
Proof.
  induction qs as [|q qs IH]; intros [|e es] E T K; try discriminate; constructor.
  - inversion T as [|? ? T1 T2]; subst. inversion K as [|? ? K1 K2]; subst. destruct e as [x|x|x]; cbn in *; try lia; auto.
    intros Hx. destruct K1 as [K1|K1]; [lia | now destruct K1].
  - inversion T; subst. inversion K; subst. apply IH; auto.
Qed.
Lemma tame_settled_decent : forall (qs : list param) es, length qs = length es -> Forall tame es -> Forall settled qs -> Forall2 decent qs es.
Proof.
  induction qs as [|q qs IH]; intros [|e es] E T K; try discriminate; constructor.
  - inversion T as [|? ? T1 T2]; subst. inversion K as [|? ? K1 K2]; subst. destruct e as [x|x|x]; cbn in *; try lia; auto.
  - inversion T; subst. inversion K; subst. apply IH; auto.
Qed.
Lemma bind_all_length2 : forall ps es (st st' : store) l, bind_all ps es st = Some (st', l) -> length ps = length es.
Proof.
  induction ps as [|p ps IH]; intros [|e es] st st' l H; cbn [PassModel.bind_all] in H; try discriminate; [reflexivity|].
  destruct (PassModel.bind V p e st) as [[st1 a]|]; [|discriminate].
  destruct (PassModel.bind_all V ps es st1) as [[st2 l']|] eqn:E; [|discriminate]. cbn. f_equal. eapply IH. eassumption.
Qed.

Definition emits_well (sg : signal) : Prop := forall es (st st' : store) g v args,
  good st v -> Forall2 (rep st) es args -> separate es -> Forall tame es -> emit V sg es st = Some (st', g) ->
  exists v', deliver V sg args v = (v', g) /\ good st' v' /\ frame es st st'.
Definition calls_well (s : slot) : Prop := forall ps l (st st' : store) g v args,
  good st v -> all3 (bound st) ps l args -> Forall settled ps -> call V ps s (zip name ps l) st = Some (st', g) ->
  exists v', deliver_slot V s args v = (v', g) /\ good st' v' /\ frame [] st st'.

Lemma call_prepared : forall ps l (st : store) v args st1 l1, good st v -> all3 (bound st) ps l args -> Forall settled ps ->
  bind_all ps (zip name ps l) st = Some (st1, l1) ->
  good st1 v /\ all3 (bound st1) ps l1 args /\ all3 (place (size st) (size st1)) ps (zip name ps l) l1 /\ frame [] st st1 /\
  separate (zip forward ps l1).
Proof.
  intros ps l st v args st1 l1 G B S E.
  destruct (bind_all_good _ _ _ _ _ _ _ _ _ G (names_rep _ _ _ _ B S) (names_separate ps l) (names_decent _ _ _ _ B S) E (settle_again _ _ _ _ v B S))
    as (G1 & B1 & P1 & F1 & S1).
  repeat (split; [assumption|]). split; [|assumption]. destruct F1 as [F1 F2]. split; [assumption|]. intros a Ha _. apply F2; [assumption|].
  clear. intros J. revert l J. induction ps as [|p ps IH]; intros [|b l] J; cbn [zip] in J; try contradiction.
  destruct J as [J|J]; [unfold name in J; destruct (p_pass p); discriminate | eapply IH; eassumption].
Qed.
Lemma frame_join : forall ps l l1 (st st1 st2 : store), all3 (place (size st) (size st1)) ps (zip name ps l) l1 ->
  frame [] st st1 -> frame (zip forward ps l1) st1 st2 -> frame [] st st2.
Proof.
  intros ps l l1 st st1 st2 P [F1 F2] [F3 F4]. split; [lia|]. intros a Ha _. rewrite F4; [apply F2; auto | lia |].
  intros J. destruct (all3_places _ _ _ _ _ _ P J) as [Q|Q]; [lia|].
  revert Q. clear. revert l. induction ps as [|p ps IH]; intros [|b l] J; cbn [zip] in J; try contradiction.
  destruct J as [J|J]; [unfold name in J; destruct (p_pass p); discriminate | eapply IH; eassumption].
Qed.

Lemma function_calls : forall id qs f ps l (st st' : store) g v args,
  good st v -> all3 (bound st) ps l args -> Forall settled ps ->
  match bind_all ps (zip name ps l) st with None => None | Some (st1, l1) => run V id qs f (zip forward ps l1) st1 end = Some (st', g) ->
  exists v', deliver_to V id qs f args v = (v', g) /\ good st' v' /\ frame [] st st'.
Proof.
  intros id qs f ps l st st' g v args G B S H.
  destruct (PassModel.bind_all V ps (zip name ps l) st) as [[st1 l1]|] eqn:E; [|discriminate].
  destruct (call_prepared _ _ _ _ _ _ _ G B S E) as (G1 & B1 & P1 & F1 & S1).
  destruct (forward_rep _ _ _ _ B1) as (R1 & T1 & K1).
  assert (D : Forall2 decent qs (zip forward ps l1)).
  { apply tame_decent; auto. unfold run in H. destruct (PassModel.bind_all V qs (zip forward ps l1) st1) as [[st2 l2]|] eqn:E2; [|discriminate].
    eapply bind_all_length2. eassumption. }
  destruct (run_good _ _ _ _ _ _ _ _ _ G1 R1 S1 D H) as (v' & D1 & D2 & D3).
  exists v'. split; [assumption|]. split; [assumption|]. eapply frame_join; eassumption.
Qed.

Lemma emission_good : forall sg, emits_well sg.
Proof.
  apply (signal_rect_ emits_well calls_well).
  - intros id qs f ps l st st' g v args G B S H. rewrite call_eq in H. cbn [target deliver_slot] in *. eapply function_calls; eassumption.
  - intros id qs f ps l st st' g v args G B S H. rewrite call_eq in H. cbn [target deliver_slot] in *. eapply function_calls; eassumption.
  - intros sg IH ps l st st' g v args G B S H. rewrite call_eq in H. cbn [target] in H.
    destruct (PassModel.bind_all V ps (zip name ps l) st) as [[st1 l1]|] eqn:E; [|discriminate].
    destruct (call_prepared _ _ _ _ _ _ _ G B S E) as (G1 & B1 & P1 & F1 & S1).
    destruct (forward_rep _ _ _ _ B1) as (R1 & T1 & K1).
    destruct (IH _ _ _ _ _ _ G1 R1 S1 T1 H) as (v' & D1 & D2 & D3).
    exists v'. split; [exact D1|]. split; [assumption|]. eapply frame_join; eassumption.
  - intros ps ss F es st st' g v args G R Sp T H. rewrite emit_eq in H. rewrite deliver_eq.
    destruct (forallb can_call ps) eqn:C; [|discriminate].
    assert (S : Forall settled ps).
    { apply can_call_repeatable in C. eapply Forall_impl; [|exact C]. intros p [Hp _]. exact Hp. }
    destruct (PassModel.bind_all V ps es st) as [[st1 l]|] eqn:E; [|discriminate].
    destruct (settle_all V ps args v) as [v1 args1] eqn:Se.
    destruct (bind_all_good _ _ _ _ _ _ _ _ _ G R Sp (tame_settled_decent _ _ (bind_all_length2 _ _ _ _ _ E) T S) E Se) as (G1 & B1 & P1 & F1 & _).
    clear E Se C.
    assert (K : exists v', deliver_each args1 ss v1 = (v', g) /\ good st' v' /\ frame [] st1 st').
    { clear - F G1 B1 S H. revert st1 v1 g G1 B1 H. induction F as [|s ss Hs F IH]; intros st1 v1 g G1 B1 H.
      - injection H as <- <-. exists v1. split; [reflexivity|]. split; [assumption|]. split; [lia|reflexivity].
      - rewrite each_cons in H. rewrite deliver_each_cons.
        destruct (call V ps s (zip name ps l) st1) as [[st2 g2]|] eqn:Ec; [|discriminate].
        destruct (each ps l ss st2) as [[st3 g3]|] eqn:Ee; [|discriminate]. injection H as <- <-.
        destruct (Hs _ _ _ _ _ _ _ G1 B1 S Ec) as (v2 & D1 & D2 & [D3 D4]). rewrite D1.
        assert (B2 : all3 (bound st2) ps l args1).
        { clear - B1 D3 D4. induction B1 as [|p b a ps l args Hb H IH]; constructor; [|assumption].
          eapply bound_kept; [exact Hb | exact D3 |]. intros Hx. apply D4; [assumption | intros []]. }
        destruct (IH _ _ _ D2 B2 Ee) as (v3 & E1 & E2 & [E3 E4]). rewrite E1. exists v3. split; [reflexivity|]. split; [assumption|].
        split; [lia|]. intros a Ha _. rewrite E4 by (try lia; intros []). apply D4; [assumption | intros []]. }
    destruct K as (v' & K1 & K2 & [K3 K4]). exists v'. split; [assumption|]. split; [assumption|].
    destruct F1 as [F1 F2]. split; [lia|]. intros a Ha Hn. rewrite K4 by (try lia; intros []). now apply F2.
Qed.
End Deliver.

(** The caller's objects are the variables. *)
Lemma emission_delivers : forall V (sg : signal V) es st st' g,
  Forall (fun e => object_of e < length (cells V st)) es -> emit V sg es st = Some (st', g) ->
  snd (deliver V sg (map (arg_of V) es) (read V st)) = g /\
  forall x, x < length (cells V st) -> read V st' x = fst (deliver V sg (map (arg_of V) es) (read V st)) x.
Proof.
  intros V sg es st st' g O H. set (n := length (cells V st)) in *.
  assert (G : good n st (read V st)) by (split; [reflexivity | auto]).
  assert (R : Forall2 (rep n st) es (map (arg_of V) es)).
  { clear - O. induction es as [|e es IH]; cbn [map]; constructor; [|inversion O; subst; auto].
    inversion O; subst. destruct e; cbn in *; auto. }
  assert (S : separate n es).
  { clear - O. induction es as [|e es IH]; cbn [separate]; [exact I|]. inversion O; subst. split; [|now apply IH].
    rewrite Forall_forall. intros e' _ K. lia. }
  assert (T : Forall (tame n) es).
  { eapply Forall_impl; [|exact O]. intros [x|x|x]; cbn; auto. }
  destruct (emission_good n sg es st st' g _ _ G R S T H) as (v' & D & [G1 G2] & _). rewrite D. cbn.
  split; [reflexivity|]. intros x Hx. symmetry. now apply G2.
Qed.
