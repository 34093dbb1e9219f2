(** Lookup finds the innermost namespace with the name. *)
From Coq Require Import List Arith Bool Lia.
From Verif Require Import Base NsModel NsSpec.
Import ListNotations.

Lemma ns_eqb_spec : forall a b, ns_eqb a b = true <-> a = b.
Proof.
  induction a as [|x a IH]; destruct b as [|y b]; cbn [ns_eqb]; split; intros H; try discriminate; auto.
  - apply andb_true_iff in H. destruct H as [H1 H2]. apply Nat.eqb_eq in H1. apply IH in H2. congruence.
  - injection H as -> ->. apply andb_true_iff. split; [apply Nat.eqb_refl|apply IH; reflexivity].
Qed.

Lemma inside_refl : forall n, inside n n.
Proof. intros n. exists []. reflexivity. Qed.

Lemma inside_trans : forall a b c, inside a b -> inside b c -> inside a c.
Proof. intros a b c [x ->] [y ->]. exists (x ++ y). rewrite app_assoc. reflexivity. Qed.

Lemma inside_nil : forall n, inside n [].
Proof. intros n. exists n. rewrite app_nil_r. reflexivity. Qed.

Lemma inside_cons : forall x n m, inside (x :: n) m <-> m = x :: n \/ inside n m.
Proof.
  intros x n m. split.
  - intros [[|y z] H]; cbn in H; [left; congruence|]. injection H as -> ->. right. exists z. reflexivity.
  - intros [->|[y ->]]; [apply inside_refl|]. exists (x :: y). reflexivity.
Qed.

Lemma inside_of_nil : forall m, inside [] m -> m = [].
Proof. intros m [x H]. symmetry in H. apply app_eq_nil in H. tauto. Qed.

Lemma inside_len : forall a b, inside a b -> length b <= length a.
Proof. intros a b [x ->]. rewrite app_length. lia. Qed.

Lemma inside_anti : forall a b, inside a b -> inside b a -> a = b.
Proof.
  intros a b [x ->] H. apply inside_len in H. rewrite app_length in H. destruct x; [reflexivity|cbn in H; lia].
Qed.

(** Two namespaces around a third are inside each other. *)
Lemma inside_total : forall n a b, inside n a -> inside n b -> inside a b \/ inside b a.
Proof.
  induction n as [|x n IH]; intros a b Ha Hb.
  - apply inside_of_nil in Ha, Hb. subst. left. apply inside_refl.
  - pose proof Ha as Ha0. pose proof Hb as Hb0. apply inside_cons in Ha, Hb.
    destruct Ha as [->|Ha]; [left; exact Hb0|]. destruct Hb as [->|Hb]; [right; exact Ha0|]. exact (IH _ _ Ha Hb).
Qed.

Lemma chain_in : forall n m, In m (chain n) <-> inside n m.
Proof.
  induction n as [|x n IH]; intros m.
  - cbn. split; [intros [<-|[]]; apply inside_refl|intros H; left; symmetry; exact (inside_of_nil _ H)].
  - cbn [chain]. rewrite inside_cons. split.
    + intros [<-|H]; [left; reflexivity|right; apply IH; exact H].
    + intros [->|H]; [left; reflexivity|right; apply IH; exact H].
Qed.

Lemma existsb_chain : forall m n, existsb (ns_eqb m) (chain n) = true <-> inside n m.
Proof.
  intros m n. rewrite existsb_exists. split.
  - intros (k & Hk & He). apply ns_eqb_spec in He. subst k. apply chain_in. exact Hk.
  - intros H. exists m. split; [apply chain_in; exact H|apply ns_eqb_spec; reflexivity].
Qed.

Lemma meet_nearest : forall n m, nearest n m (meet n m).
Proof.
  induction n as [|x n IH]; intros m; cbn [meet].
  - destruct (existsb (ns_eqb []) (chain m)); (split; [apply inside_refl|split; [apply inside_nil|]]);
      intros j H _; exact H.
  - destruct (existsb (ns_eqb (x :: n)) (chain m)) eqn:E.
    + apply existsb_chain in E. split; [apply inside_refl|split; [exact E|]]. intros j H _. exact H.
    + destruct (IH m) as (H1 & H2 & H3). split; [apply inside_cons; right; exact H1|split; [exact H2|]].
      intros j Hj Hm. apply inside_cons in Hj. destruct Hj as [->|Hj]; [|exact (H3 _ Hj Hm)].
      apply existsb_chain in Hm. rewrite Hm in E. discriminate.
Qed.

Lemma nearest_unique : forall n m k j, nearest n m k -> nearest n m j -> k = j.
Proof.
  intros n m k j (A1 & A2 & A3) (B1 & B2 & B3). apply inside_anti; [apply A3; assumption|apply B3; assumption].
Qed.

Lemma declared_in : forall P n t at_ f, In f (declared P n t at_) <-> declares P n t f at_.
Proof.
  intros P n t at_ f. unfold declared, declares. rewrite in_map_iff. split.
  - intros (d & Hf & Hd). apply filter_In in Hd. destruct Hd as [Hd He].
    apply andb_true_iff in He. destruct He as [He Hl]. apply andb_true_iff in He. destruct He as [He Ht].
    exists d. repeat split; [exact Hd|apply ns_eqb_spec; exact He|apply Nat.eqb_eq; exact Ht|exact Hf|apply Nat.ltb_lt; exact Hl].
  - intros (d & Hd & Hn & Ht & Hf & Hl). exists d. split; [exact Hf|]. apply filter_In. split; [exact Hd|].
    rewrite (proj2 (ns_eqb_spec _ _) Hn), (proj2 (Nat.eqb_eq _ _) Ht), (proj2 (Nat.ltb_lt _ _) Hl). reflexivity.
Qed.

Lemma active_in : forall P p k q, In (k, q) (active P p) <-> exists m, nominates P p m q /\ nearest m q k.
Proof.
  intros P p k q. unfold active. rewrite in_app_iff, !in_map_iff. split.
  - intros [(q' & He & Hq)|(u & He & Hu)].
    + injection He as <- <-. exists (p_ns p). split; [left; auto|apply meet_nearest].
    + injection He as <- <-. apply filter_In in Hu. destruct Hu as [Hu Hb]. apply andb_true_iff in Hb.
      destruct Hb as [Hb Hl]. apply existsb_chain in Hb. apply Nat.ltb_lt in Hl.
      exists (u_in u). split; [right; exists u; auto|apply meet_nearest].
  - intros (m & [[-> Hq]|(u & Hu & Hm & Hq & Hl & Hi)] & Hn).
    + left. exists q. split; [|exact Hq]. f_equal. exact (nearest_unique _ _ _ _ (meet_nearest _ _) Hn).
    + right. exists u. subst m q. split; [f_equal; exact (nearest_unique _ _ _ _ (meet_nearest _ _) Hn)|].
      apply filter_In. split; [exact Hu|]. apply andb_true_iff. split; [apply existsb_chain; exact Hi|apply Nat.ltb_lt; exact Hl].
Qed.

Lemma appear_in : forall P p t n f, In f (appear P p t n) <-> introduced P p t n f.
Proof.
  intros P p t n f. unfold appear, introduced. rewrite in_app_iff, declared_in, in_flat_map. split.
  - intros [H|([k q] & Ha & Hf)]; [left; exact H|]. apply filter_In in Ha. destruct Ha as [Ha Hk].
    apply ns_eqb_spec in Hk. cbn in Hk, Hf. subst k. apply active_in in Ha. destruct Ha as (m & Hm & Hn).
    apply declared_in in Hf. right. exists m, q. auto.
  - intros [H|(m & q & Hm & Hn & Hd)]; [left; exact H|]. right. exists (n, q). split.
    + apply filter_In. split; [apply active_in; exists m; auto|apply ns_eqb_spec; reflexivity].
    + apply declared_in. exact Hd.
Qed.

Lemma local_in : forall p t f, In f (local p t) <-> In (t, f) (p_decls p).
Proof.
  intros p t f. unfold local. rewrite in_map_iff. split.
  - intros ([u g] & <- & H). apply filter_In in H. destruct H as [H He]. apply Nat.eqb_eq in He. cbn in He. subst u. exact H.
  - intros H. exists (t, f). split; [reflexivity|]. apply filter_In. split; [exact H|apply Nat.eqb_refl].
Qed.

Lemma nil_iff : forall (l : list func), l = [] <-> forall g, ~ In g l.
Proof.
  intros l. split; [intros -> g []|]. intros H. destruct l as [|g l]; [reflexivity|]. destruct (H g). left. reflexivity.
Qed.

Lemma first_found_cons : forall l rest f,
  In f (first_found (l :: rest)) <-> In f l \/ (l = [] /\ In f (first_found rest)).
Proof.
  intros [|g l] rest f; cbn [first_found]; split; intros H.
  - right. auto.
  - destruct H as [[]|[_ H]]; exact H.
  - left. exact H.
  - destruct H as [H|[H _]]; [exact H|discriminate].
Qed.

Lemma first_found_chain : forall P p t f n,
  In f (first_found (map (appear P p t) (chain n))) <->
  exists m, inside n m /\ introduced P p t m f /\
    forall k g, inside n k -> inside k m -> k <> m -> ~ introduced P p t k g.
Proof.
  intros P p t f. induction n as [|x n IH].
  - cbn [chain map]. rewrite first_found_cons. split.
    + intros [H|[_ []]]. exists []. split; [apply inside_refl|split; [apply appear_in; exact H|]].
      intros k g Hk _ Hne. exfalso. apply Hne. exact (inside_of_nil _ Hk).
    + intros (m & Hm & Hi & _). left. apply inside_of_nil in Hm. subst m. apply appear_in. exact Hi.
  - cbn [chain map]. rewrite first_found_cons, IH, nil_iff. split.
    + intros [H|[Hno (m & Hm & Hi & Hk)]].
      * exists (x :: n). split; [apply inside_refl|split; [apply appear_in; exact H|]].
        intros k g H1 H2 Hne. exfalso. apply Hne. exact (inside_anti _ _ H2 H1).
      * exists m. split; [apply inside_cons; right; exact Hm|split; [exact Hi|]].
        intros k g H1 H2 Hne. apply inside_cons in H1. destruct H1 as [->|H1].
        -- intros Hg. apply (Hno g). apply appear_in. exact Hg.
        -- exact (Hk _ _ H1 H2 Hne).
    + intros (m & Hm & Hi & Hk). apply inside_cons in Hm. destruct Hm as [->|Hm].
      * left. apply appear_in. exact Hi.
      * right. split.
        -- intros g Hg. apply appear_in in Hg. apply (Hk (x :: n) g); [apply inside_refl|apply inside_cons; right; exact Hm| |exact Hg].
           intros <-. apply inside_len in Hm. cbn in Hm. lia.
        -- exists m. split; [exact Hm|split; [exact Hi|]]. intros k g H1. apply Hk. apply inside_cons. right. exact H1.
Qed.

Theorem unqualified_seen : forall P p t f, In f (unqualified P p t) <-> seen P p t f.
Proof.
  intros P p t f. unfold unqualified, seen. rewrite first_found_cons, first_found_chain, local_in, nil_iff.
  split; intros [H|[H1 H2]]; auto; right; (split; [|exact H2]); intros g Hg; apply (H1 g); apply local_in; exact Hg.
Qed.

Lemma op_eqb_spec : forall a b, op_eqb a b = true <-> a = b.
Proof. intros a b. split; [destruct a, b; (reflexivity || discriminate)|intros ->; destruct b; reflexivity]. Qed.

Lemma func_eqb_spec : forall a b, func_eqb a b = true <-> a = b.
Proof.
  intros a b. split.
  - destruct a, b; cbn; try discriminate; try reflexivity; intros H;
      try (apply op_eqb_spec in H; congruence); apply Nat.eqb_eq in H; congruence.
  - intros ->. destruct b; cbn; try reflexivity; try (apply op_eqb_spec; reflexivity). apply Nat.eqb_refl.
Qed.

Lemma dedup_in : forall l f, In f (dedup l) <-> In f l.
Proof.
  induction l as [|g l IH]; intros f; cbn [dedup]; [tauto|]. destruct (existsb (func_eqb g) l) eqn:E.
  - rewrite IH. cbn. split; [auto|]. intros [<-|H]; [|exact H].
    apply existsb_exists in E. destruct E as (h & Hh & He). apply func_eqb_spec in He. subst h. exact Hh.
  - cbn. rewrite IH. tauto.
Qed.

Lemma dedup_nodup : forall l, NoDup (dedup l).
Proof.
  induction l as [|g l IH]; cbn [dedup]; [constructor|]. destruct (existsb (func_eqb g) l) eqn:E; [exact IH|].
  constructor; [|exact IH]. intros H. apply (proj1 (dedup_in l g)) in H.
  assert (existsb (func_eqb g) l = true) as E' by (apply existsb_exists; exists g; split; [exact H|apply func_eqb_spec; reflexivity]).
  congruence.
Qed.

Lemma found_in : forall P p t args f,
  In f (found P p t args) <->
  seen P p t f \/ exists a n, In a args /\ In n (associated a) /\ declares P n t f (p_known p).
Proof.
  intros P p t args f. unfold found, dependent. rewrite dedup_in, in_app_iff, unqualified_seen, in_flat_map. split.
  - intros [H|(n & Hn & Hf)]; [left; exact H|right]. apply in_flat_map in Hn. destruct Hn as (a & Ha & Hn).
    exists a, n. rewrite <- declared_in. auto.
  - intros [H|(a & n & Ha & Hn & Hf)]; [left; exact H|right]. exists n. rewrite declared_in. split; [|exact Hf].
    apply in_flat_map. exists a. auto.
Qed.
