From Coq Require Import List Arith Bool Lia.
From Verif Require Import Base HandModel HandSpec.
Import ListNotations.

(** * Counting *)

Definition occ (l : list nat) (a : nat) : nat := count_occ Nat.eq_dec l a.
Definition ptr (v : option handle) : list nat := match v with Some (_, Some a) => [a] | _ => [] end.
Definition bptr (v : option handle) : list nat := match v with Some (Blocker, Some a) => [a] | _ => [] end.
Definition elems (o : option (list nat)) : list nat := match o with Some l => l | None => [] end.

Lemma occ_app l r a : occ (l ++ r) a = occ l a + occ r a.
Proof. apply count_occ_app. Qed.
Lemma occ_cons b l a : occ (b :: l) a = (if Nat.eqb b a then 1 else 0) + occ l a.
Proof. unfold occ. cbn. destruct (Nat.eq_dec b a) as [->|H]; [now rewrite Nat.eqb_refl | now apply Nat.eqb_neq in H as ->]. Qed.
Lemma occ_in l a : 0 < occ l a <-> In a l.
Proof. unfold occ. symmetry. exact (count_occ_In Nat.eq_dec l a). Qed.
Lemma occ_nodup l a : NoDup l -> In a l -> occ l a = 1.
Proof. intros N. exact (proj1 (NoDup_count_occ' Nat.eq_dec l) N a). Qed.

Lemma occ_upd {A} (f : A -> list nat) d l i v a : f d = [] ->
  i < length l -> occ (flat_map f (upd l i v)) a + occ (f (nth i l d)) a = occ (flat_map f l) a + occ (f v) a.
Proof.
  intros D. revert i. induction l as [|x l IH]; intros i H; [cbn in H; lia|].
  destruct i as [|i]; cbn [upd nth flat_map]; rewrite !occ_app; [lia|]. cbn in H. specialize (IH i ltac:(lia)). lia.
Qed.
Lemma upd_out {A} (l : list A) i v : length l <= i -> upd l i v = l.
Proof. revert i. induction l as [|x l IH]; intros i H; destruct i; cbn in *; try lia; try reflexivity. f_equal. apply IH. lia. Qed.
Lemma nth_in {A} (l : list (option A)) i x : nth i l None = Some x -> i < length l.
Proof. intros H. destruct (Nat.lt_ge_cases i (length l)) as [L|L]; [exact L|]. rewrite nth_overflow in H by exact L. discriminate. Qed.
Lemma nth_upd {A} (l : list A) i j v d : nth j (upd l i v) d = if Nat.eqb i j && Nat.ltb i (length l) then v else nth j l d.
Proof.
  revert i j. induction l as [|x l IH]; intros i j; [destruct i, j; cbn; try reflexivity; now rewrite andb_false_r|].
  destruct i, j; cbn [upd nth length Nat.eqb]; try reflexivity.
  - rewrite IH. reflexivity.
Qed.
Lemma map_upd {A B} (f : A -> B) l i v : map f (upd l i v) = upd (map f l) i (f v).
Proof. revert i. induction l as [|x l IH]; intros i; destruct i; cbn; try reflexivity. now rewrite IH. Qed.
Lemma in_elems (sg : list (option (list nat))) a : In a (flat_map elems sg) <-> exists s l, nth s sg None = Some l /\ In a l.
Proof.
  split.
  - intros H. apply in_flat_map in H as (o & Ho & Ha). destruct o as [l|]; [|destruct Ha].
    apply (In_nth _ _ None) in Ho as (s & _ & E). exists s, l. now split.
  - intros (s & l & E & Ha). apply in_flat_map. exists (Some l). split; [|exact Ha]. rewrite <- E. apply nth_In, (nth_in _ _ _ E).
Qed.
Lemma in_ptrs (vs : list (option handle)) a : In a (flat_map ptr vs) <-> exists i k, nth i vs None = Some (k, Some a).
Proof.
  split.
  - intros H. apply in_flat_map in H as (o & Ho & Ha). destruct o as [[k [b|]]|]; cbn in Ha; try tauto. destruct Ha as [<-|[]].
    apply (In_nth _ _ None) in Ho as (i & _ & E). now exists i, k.
  - intros (i & k & E). apply in_flat_map. exists (Some (k, Some a)). split; [|now left]. rewrite <- E. apply nth_In, (nth_in _ _ _ E).
Qed.
Lemma in_bptrs (vs : list (option handle)) a : In a (flat_map bptr vs) <-> exists i, nth i vs None = Some (Blocker, Some a).
Proof.
  split.
  - intros H. apply in_flat_map in H as (o & Ho & Ha). destruct o as [[[] [b|]]|]; cbn in Ha; try tauto. destruct Ha as [<-|[]].
    apply (In_nth _ _ None) in Ho as (i & _ & E). now exists i.
  - intros (i & E). apply in_flat_map. exists (Some (Blocker, Some a)). split; [|now left]. rewrite <- E. apply nth_In, (nth_in _ _ _ E).
Qed.

(** * The invariant *)

Definition vrefs st a : nat := occ (flat_map ptr (st_vars st)) a.
Definition srefs st a : nat := occ (flat_map elems (st_sigs st)) a.
Definition brefs st a : nat := occ (flat_map bptr (st_vars st)) a.
Definition sends st s a : Prop := exists l, sig st s = Some l /\ In a l.

(** [x], [y]: references and blocks held by the operation that runs; [z]: slots whose sender is being changed *)
Record inv (st : state) (x y : nat -> nat) (z : list nat) : Prop := mkinv {
  i_count : forall a c, st_mem st a = Some c -> c_count c = vrefs st a + srefs st a + x a /\ 0 < c_count c;
  i_live : forall a, 0 < vrefs st a + srefs st a + x a -> st_mem st a <> None;
  i_blocks : forall a c, st_mem st a = Some c -> c_blocks c = brefs st a + y a;
  i_uniq : forall a b c d, st_mem st a = Some c -> st_mem st b = Some d -> c_call c = c_call d -> a = b;
  i_calls : forall a c, st_mem st a = Some c -> c_call c < st_calls st;
  i_sender : forall a c s, st_mem st a = Some c -> ~ In a z -> c_sender c = Some s <-> sends st s a;
  i_nodup : forall s l, sig st s = Some l -> NoDup l }.
Definition zero : nat -> nat := fun _ => 0.

(** The slots that there still are are what they were. *)
Definition keeps (m m' : memory) : Prop := forall a c', m' a = Some c' -> exists c, m a = Some c /\ c_call c = c_call c'.
Lemma keeps_refl m : keeps m m.
Proof. intros a c H. now exists c. Qed.
Lemma keeps_trans m m1 m2 : keeps m m1 -> keeps m1 m2 -> keeps m m2.
Proof. intros A B a c H. destruct (B a c H) as (c1 & H1 & E1). destruct (A a c1 H1) as (c0 & H0 & E0). exists c0. split; [exact H0 | congruence]. Qed.

Lemma inv_ext st x x' y y' z : inv st x y z -> (forall a, x' a = x a) -> (forall a, y' a = y a) -> inv st x' y' z.
Proof.
  intros [A B C D E F G] X Y. constructor; try assumption.
  - intros a c H. rewrite X. exact (A a c H).
  - intros a. rewrite X. exact (B a).
  - intros a c H. rewrite Y. exact (C a c H).
Qed.
Lemma inv_vars st vars' x y z x' y' : inv st x y z ->
  (forall a, occ (flat_map ptr vars') a + x' a = vrefs st a + x a) ->
  (forall a, occ (flat_map bptr vars') a + y' a = brefs st a + y a) -> inv (with_vars st vars') x' y' z.
Proof.
  intros [A B C D E F G] X Y. constructor; try assumption; cbn [with_vars with_sigs with_mem st_vars st_sigs st_mem].
  - intros a c H. destruct (A a c H) as [A1 A2]. split; [|exact A2]. rewrite A1. specialize (X a). unfold vrefs, srefs in *. cbn [with_vars with_sigs with_mem st_vars st_sigs]. lia.
  - intros a H. apply B. specialize (X a). unfold vrefs, srefs in *. cbn [with_vars with_sigs with_mem st_vars st_sigs] in H. lia.
  - intros a c H. rewrite (C a c H). specialize (Y a). unfold brefs in *. cbn [with_vars with_sigs with_mem st_vars st_sigs]. lia.
Qed.
Lemma inv_sigs st sigs' x y z x' z' : inv st x y z ->
  (forall a, occ (flat_map elems sigs') a + x' a = srefs st a + x a) ->
  (forall a, ~ In a z' -> ~ In a z /\ forall s, sends (with_sigs st sigs') s a <-> sends st s a) ->
  (forall s l, nth s sigs' None = Some l -> NoDup l) -> inv (with_sigs st sigs') x' y z'.
Proof.
  intros [A B C D E F G] X S N. constructor; try assumption; cbn [with_vars with_sigs with_mem st_vars st_sigs st_mem].
  - intros a c H. destruct (A a c H) as [A1 A2]. split; [|exact A2]. rewrite A1. specialize (X a). unfold vrefs, srefs in *. cbn [with_vars with_sigs with_mem st_vars st_sigs]. lia.
  - intros a H. apply B. specialize (X a). unfold vrefs, srefs in *. cbn [with_vars with_sigs with_mem st_vars st_sigs] in H. lia.
  - intros a c s H Z. destruct (S a Z) as [Z' W]. rewrite W. now apply F.
Qed.

(** * Slots *)

Lemma set_same m a c : set m a c a = c.
Proof. unfold set. now rewrite Nat.eqb_refl. Qed.
Lemma set_other m a b c : a <> b -> set m a c b = m b.
Proof. intros H. unfold set. now apply Nat.eqb_neq in H as ->. Qed.

(** A slot with other numbers *)
Lemma inv_cell st x y z a c n s k x' y' z' : inv st x y z -> st_mem st a = Some c ->
  n = vrefs st a + srefs st a + x' a -> 0 < n -> k = brefs st a + y' a ->
  (forall b, b <> a -> x' b = x b /\ y' b = y b) ->
  (forall t, ~ In a z' -> s = Some t <-> sends st t a) -> (forall b, b <> a -> ~ In b z' -> ~ In b z) ->
  inv (with_mem st (set (st_mem st) a (Some (mkcell (c_call c) n s k)))) x' y' z' /\
  keeps (st_mem st) (set (st_mem st) a (Some (mkcell (c_call c) n s k))).
Proof.
  intros [A B C D E F G] M Hn Hp Hk XY S Z. split.
  - constructor; cbn [with_vars with_sigs with_mem st_vars st_sigs st_mem]; try assumption.
    + intros b d H. destruct (Nat.eq_dec a b) as [<-|Ne].
      * rewrite set_same in H. injection H as <-. now split.
      * rewrite set_other in H by exact Ne. destruct (XY b ltac:(congruence)) as [-> _]. exact (A b d H).
    + intros b H. destruct (Nat.eq_dec a b) as [<-|Ne]; [rewrite set_same; discriminate|].
      rewrite set_other by exact Ne. apply B. destruct (XY b ltac:(congruence)) as [<- _]. exact H.
    + intros b d H. destruct (Nat.eq_dec a b) as [<-|Ne].
      * rewrite set_same in H. injection H as <-. exact Hk.
      * rewrite set_other in H by exact Ne. destruct (XY b ltac:(congruence)) as [_ ->]. exact (C b d H).
    + intros b1 b2 d1 d2 H1 H2 H. destruct (Nat.eq_dec a b1) as [<-|N1], (Nat.eq_dec a b2) as [<-|N2]; try reflexivity;
        rewrite ?set_same, ?(set_other _ a b1), ?(set_other _ a b2) in * by assumption.
      * injection H1 as <-. exact (D a b2 c d2 M H2 H).
      * injection H2 as <-. exact (D b1 a d1 c H1 M H).
      * exact (D b1 b2 d1 d2 H1 H2 H).
    + intros b d H. destruct (Nat.eq_dec a b) as [<-|Ne].
      * rewrite set_same in H. injection H as <-. exact (E a c M).
      * rewrite set_other in H by exact Ne. exact (E b d H).
    + intros b d t H Nz. destruct (Nat.eq_dec a b) as [<-|Ne].
      * rewrite set_same in H. injection H as <-. exact (S t Nz).
      * rewrite set_other in H by exact Ne. apply (F b d t H). apply (Z b); [congruence | exact Nz].
  - intros b d H. destruct (Nat.eq_dec a b) as [<-|Ne].
    + rewrite set_same in H. injection H as <-. now exists c.
    + rewrite set_other in H by exact Ne. now exists d.
Qed.

Lemma add_ref_inv st x y z a : inv st x y z -> st_mem st a <> None ->
  exists m, add_ref a (st_mem st) = Ok m /\ inv (with_mem st m) (fun b => occ [a] b + x b) y z /\ keeps (st_mem st) m.
Proof.
  intros I L. unfold add_ref. destruct (st_mem st a) as [c|] eqn:M; [|now destruct L]. eexists. split; [reflexivity|].
  destruct (i_count _ _ _ _ I a c M) as [N P].
  apply (inv_cell st x y z a c _ _ _ _ _ _ I M); try lia.
  - rewrite occ_cons, Nat.eqb_refl. cbn. lia.
  - exact (i_blocks _ _ _ _ I a c M).
  - intros b Hb. rewrite occ_cons. apply not_eq_sym, Nat.eqb_neq in Hb. rewrite Hb. now split.
  - intros t Z. exact (i_sender _ _ _ _ I a c t M Z).
  - now intros b _ Z.
Qed.
Lemma release_inv st x y z a : inv st (fun b => occ [a] b + x b) y z ->
  exists m, release a (st_mem st) = Ok m /\ inv (with_mem st m) x y z /\ keeps (st_mem st) m.
Proof.
  intros I. unfold release.
  assert (Xa : occ [a] a = 1) by (rewrite occ_cons, Nat.eqb_refl; reflexivity).
  assert (L : st_mem st a <> None) by (apply (i_live _ _ _ _ I); rewrite Xa; lia).
  destruct (st_mem st a) as [c|] eqn:M; [|now destruct L].
  destruct (i_count _ _ _ _ I a c M) as [N P]. rewrite Xa in N.
  destruct (c_count c) as [|[|n]] eqn:Ec; [lia| |].
  - eexists. split; [reflexivity|]. split.
    + pose proof I as [A B C D E F G]. constructor; cbn [with_vars with_sigs with_mem st_vars st_sigs st_mem]; try assumption.
      * intros b d H. destruct (Nat.eq_dec a b) as [<-|Ne]; [now rewrite set_same in H|]. rewrite set_other in H by exact Ne.
        destruct (A b d H) as [A1 A2]. split; [|exact A2]. rewrite A1, occ_cons. apply Nat.eqb_neq in Ne. rewrite Ne. reflexivity.
      * intros b H. destruct (Nat.eq_dec a b) as [<-|Ne]; [unfold vrefs, srefs in *; cbn [with_vars with_sigs with_mem st_vars st_sigs] in H; lia|].
        rewrite set_other by exact Ne. apply B. unfold vrefs, srefs in *. cbn [with_vars with_sigs with_mem st_vars st_sigs] in H. lia.
      * intros b d H. destruct (Nat.eq_dec a b) as [<-|Ne]; [now rewrite set_same in H|]. rewrite set_other in H by exact Ne. exact (C b d H).
      * intros b1 b2 d1 d2 H1 H2. destruct (Nat.eq_dec a b1) as [<-|N1]; [now rewrite set_same in H1|].
        destruct (Nat.eq_dec a b2) as [<-|N2]; [now rewrite set_same in H2|]. rewrite set_other in H1, H2 by assumption. exact (D _ _ _ _ H1 H2).
      * intros b d H. destruct (Nat.eq_dec a b) as [<-|Ne]; [now rewrite set_same in H|]. rewrite set_other in H by exact Ne. exact (E b d H).
      * intros b d t H Z. destruct (Nat.eq_dec a b) as [<-|Ne]; [now rewrite set_same in H|]. rewrite set_other in H by exact Ne. exact (F b d t H Z).
    + intros b d H. destruct (Nat.eq_dec a b) as [<-|Ne]; [now rewrite set_same in H|]. rewrite set_other in H by exact Ne. now exists d.
  - eexists. split; [reflexivity|]. apply (inv_cell st _ y z a c _ _ _ _ _ _ I M); try lia.
    + exact (i_blocks _ _ _ _ I a c M).
    + intros b Hb. rewrite occ_cons. apply not_eq_sym, Nat.eqb_neq in Hb. rewrite Hb. now split.
    + intros t Z. exact (i_sender _ _ _ _ I a c t M Z).
    + now intros b _ Z.
Qed.
Lemma block_inv st x y z a : inv st x y z -> st_mem st a <> None ->
  exists m, block a (st_mem st) = Ok m /\ inv (with_mem st m) x (fun b => occ [a] b + y b) z /\ keeps (st_mem st) m.
Proof.
  intros I L. unfold block. destruct (st_mem st a) as [c|] eqn:M; [|now destruct L]. eexists. split; [reflexivity|].
  destruct (i_count _ _ _ _ I a c M) as [N P].
  apply (inv_cell st x y z a c _ _ _ _ _ _ I M); try lia.
  - rewrite occ_cons, Nat.eqb_refl, (i_blocks _ _ _ _ I a c M). cbn. lia.
  - intros b Hb. rewrite occ_cons. apply not_eq_sym, Nat.eqb_neq in Hb. rewrite Hb. now split.
  - intros t Z. exact (i_sender _ _ _ _ I a c t M Z).
  - now intros b _ Z.
Qed.
Lemma unblock_inv st x y z a : inv st x (fun b => occ [a] b + y b) z -> st_mem st a <> None ->
  exists m, unblock a (st_mem st) = Ok m /\ inv (with_mem st m) x y z /\ keeps (st_mem st) m.
Proof.
  intros I L. unfold unblock. destruct (st_mem st a) as [c|] eqn:M; [|now destruct L].
  destruct (i_count _ _ _ _ I a c M) as [N P]. pose proof (i_blocks _ _ _ _ I a c M) as Bk.
  cbv beta in Bk. rewrite occ_cons, Nat.eqb_refl in Bk. cbn [occ count_occ] in Bk. destruct (c_blocks c) as [|k] eqn:Ek; [lia|].
  eexists. split; [reflexivity|]. apply (inv_cell st x _ z a c _ _ _ _ _ _ I M); try lia.
  - intros b Hb. rewrite occ_cons. apply not_eq_sym, Nat.eqb_neq in Hb. rewrite Hb. now split.
  - intros t Z. exact (i_sender _ _ _ _ I a c t M Z).
  - now intros b _ Z.
Qed.
Lemma rebind_inv st x y z z' a o : inv st x y z -> st_mem st a <> None ->
  (forall t, ~ In a z' -> o = Some t <-> sends st t a) -> (forall b, b <> a -> ~ In b z' -> ~ In b z) ->
  exists m, rebind o a (st_mem st) = Ok m /\ inv (with_mem st m) x y z' /\ keeps (st_mem st) m /\
    (forall b, st_mem st b <> None -> m b <> None) /\ (forall b, b <> a -> m b = st_mem st b).
Proof.
  intros I L S Z. unfold rebind. destruct (st_mem st a) as [c|] eqn:M; [|now destruct L]. eexists. split; [reflexivity|].
  destruct (i_count _ _ _ _ I a c M) as [N P].
  destruct (inv_cell st x y z a c (c_count c) o (c_blocks c) x y z' I M N P (i_blocks _ _ _ _ I a c M)) as [J K];
    [now split | exact S | exact Z|].
  split; [exact J|]. split; [exact K|]. split.
  - intros b Hb. destruct (Nat.eq_dec a b) as [<-|Ne]; [rewrite set_same; discriminate|]. now rewrite set_other.
  - intros b Hb. apply set_other. congruence.
Qed.
