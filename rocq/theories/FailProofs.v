From Coq Require Import List Arith Bool Lia.
From Verif Require Import Base FailModel FailSpec.
Import ListNotations.

Lemma same_iff a b : same a b = true <-> a = b.
Proof. unfold same. destruct (list_eq_dec Nat.eq_dec a b); split; congruence. Qed.
Lemma has_iff t key : has_key t key = true <-> known t key.
Proof.
  unfold has_key, known. rewrite existsb_exists, in_map_iff. split.
  - intros [e [I E]]. apply same_iff in E. eauto.
  - intros [e [E I]]. exists e. split; [exact I|apply same_iff; exact E].
Qed.
Lemma has_not t key : has_key t key = false <-> ~ known t key.
Proof. rewrite <- has_iff. destruct (has_key t key); split; congruence. Qed.

Lemma gen_map t key g key' :
  gen (map (fun e => if same (fst e) key then (fst e, g) else e) t) key' =
  if has_key t key && same key key' then g else gen t key'.
Proof.
  unfold gen, has_key. induction t as [|[k x] t IH]; [reflexivity|]. cbn [map find existsb fst].
  destruct (same k key) eqn:Q.
  - apply same_iff in Q. subst k. cbn [fst snd orb andb]. destruct (list_eq_dec Nat.eq_dec key key') as [E|N].
    + replace (same key key') with true by (symmetry; apply same_iff; exact E). reflexivity.
    + rewrite IH. replace (same key key') with false by (destruct (same key key') eqn:W; [apply same_iff in W; contradiction|reflexivity]).
      rewrite andb_false_r. reflexivity.
  - cbn [fst snd orb]. destruct (list_eq_dec Nat.eq_dec k key') as [E|M].
    + subst k. replace (same key key') with false.
      * rewrite andb_false_r. reflexivity.
      * destruct (same key key') eqn:W; [apply same_iff in W; subst; rewrite (proj2 (same_iff _ _) eq_refl) in Q; discriminate|reflexivity].
    + exact IH.
Qed.
Lemma find_app {A} (f : A -> bool) l m : find f (l ++ m) = match find f l with Some x => Some x | None => find f m end.
Proof. induction l as [|a l IH]; cbn; [reflexivity|]. destruct (f a); [reflexivity|exact IH]. Qed.
Lemma gen_store t key g key' : gen (store t key g) key' = if list_eq_dec Nat.eq_dec key key' then g else gen t key'.
Proof.
  unfold store. destruct (has_key t key) eqn:H.
  - rewrite gen_map, H. unfold same. destruct (list_eq_dec Nat.eq_dec key key'); reflexivity.
  - unfold gen. rewrite find_app. cbn [find fst]. destruct (list_eq_dec Nat.eq_dec key key') as [E|N].
    + subst key'. match goal with |- context [find ?f t] => destruct (find f t) as [e|] eqn:F end; [|reflexivity]. exfalso.
      apply find_some in F as [I E]. destruct (list_eq_dec Nat.eq_dec (fst e) key) as [Q|Q]; [|discriminate].
      apply has_not in H. apply H. subst. apply in_map. exact I.
    + match goal with |- context [find ?f t] => destruct (find f t) end; reflexivity.
Qed.
Lemma known_store t key g key' : known (store t key g) key' <-> key = key' \/ known t key'.
Proof.
  unfold store. destruct (has_key t key) eqn:H.
  - apply has_iff in H. unfold known in *. rewrite map_map. replace (map _ t) with (map fst t).
    + split; [auto|]. intros [E|K]; [subst; exact H|exact K].
    + apply map_ext. intros e. destruct (same (fst e) key); reflexivity.
  - unfold known. rewrite map_app, in_app_iff. cbn. tauto.
Qed.

Section One.
Variable V : Type.
Variable moved torn : V -> V.
Variable fails : nat -> bool.
Notation world := (world V).
Notation attempt := (attempt V fails).

Lemma attempt_cases can w : exists t w', attempt can w = (t, w') /\ untouched w w' /\ (t = true -> can = true) /\ (no_failure fails -> t = false).
Proof.
  unfold FailModel.attempt. destruct can; do 2 eexists; (split; [reflexivity|]); repeat split; auto.
Qed.

Lemma untouched_refl (w : world) : untouched w w.
Proof. repeat split. Qed.
Lemma untouched_trans (a b c : world) : untouched a b -> untouched b c -> untouched a c.
Proof. unfold untouched. intros [A1 [A2 [A3 A4]]] [B1 [B2 [B3 B4]]]. repeat split; congruence. Qed.

(** Keys in order: told are those before the one that failed. *)
Lemma mark_spec keys g : forall w, exists t w', mark V fails keys g w = (t, w') /\ cell V w' = cell V w /\ now V w' = now V w /\ subtrees V w' = subtrees V w /\
  exists a b, keys = a ++ b /\
    (forall key, gen (nodes V w') key = if in_dec (list_eq_dec Nat.eq_dec) key a then g else gen (nodes V w) key) /\
    (t = false -> b = []) /\
    (t = true -> exists k b', b = k :: b' /\ ~ known (nodes V w) k /\ ~ In k a) /\
    (no_failure fails -> t = false).
Proof.
  induction keys as [|k keys IH]; intros w; cbn [mark].
  - exists false, w. repeat split. exists [], []. repeat split; auto. discriminate.
  - destruct (attempt_cases (negb (has_key (nodes V w) k)) w) as [t [w1 [E [[U1 [U2 [U3 U4]]] [C N]]]]]. rewrite E. destruct t.
    + exists true, w1. repeat split; auto. exists [], (k :: keys). cbn. repeat split; auto; try discriminate.
      * intros key. rewrite U3. reflexivity.
      * intros _. exists k, keys. repeat split; auto. apply has_not. specialize (C eq_refl). destruct (has_key (nodes V w) k); [discriminate|reflexivity].
    + set (w2 := set_tables V w1 (store (nodes V w1) k g) (subtrees V w1)).
      destruct (IH w2) as [t [w' [E' [H1 [H2 [H3 [a [b [Hk [Hg [Hf [Ht Hn]]]]]]]]]]]]. exists t, w'. split; [exact E'|].
      split; [rewrite H1; exact U1|]. split; [rewrite H2; exact U2|]. split; [rewrite H3; exact U4|].
      exists (k :: a), b. split; [cbn; congruence|]. split; [|split; [exact Hf|split; [|exact Hn]]].
      * intros key. rewrite Hg. unfold w2. cbn [nodes set_tables]. rewrite gen_store, U3.
        destruct (in_dec (list_eq_dec Nat.eq_dec) key a) as [I|I]; destruct (in_dec (list_eq_dec Nat.eq_dec) key (k :: a)) as [J|J]; cbn in J;
          destruct (list_eq_dec Nat.eq_dec k key) as [Q|Q]; try reflexivity; exfalso; tauto.
      * intros T. destruct (Ht T) as [k' [b' [Eb [K I]]]]. exists k', b'. split; [exact Eb|]. unfold w2 in K. cbn [nodes set_tables] in K.
        rewrite known_store, U3 in K. split; [tauto|]. intros [J|J]; tauto.
Qed.
End One.

Lemma prefix_index (p key : path) k : k <= S (length p) ->
  (In key (map (fun i => firstn i p) (seq 0 k)) <-> firstn (length key) p = key /\ length key < k).
Proof.
  intros L. rewrite in_map_iff. split.
  - intros [i [E I]]. apply in_seq in I. assert (Hl : length key = i) by (rewrite <- E, firstn_length; lia). rewrite Hl. split; [exact E|lia].
  - intros [E I]. exists (length key). split; [exact E|]. apply in_seq. lia.
Qed.
Lemma split_seq (p : path) n a b : map (fun i => firstn i p) (seq 0 n) = a ++ b -> a = map (fun i => firstn i p) (seq 0 (length a)) /\ length a <= n /\
  (forall k b', b = k :: b' -> k = firstn (length a) p /\ length a < n).
Proof.
  intros E. assert (L : length a + length b = n) by (rewrite <- app_length, <- E, map_length, seq_length; reflexivity).
  assert (S0 : seq 0 n = seq 0 (length a) ++ seq (length a) (length b)) by (rewrite <- L; apply seq_app).
  rewrite S0, map_app in E. apply app_eq_app in E. destruct E as [l [[E1 E2]|[E1 E2]]].
  - assert (l = []). { apply (f_equal (@length _)) in E1. rewrite map_length, seq_length, app_length in E1. destruct l; [reflexivity|cbn in E1; lia]. }
    subst l. rewrite app_nil_r in E1. cbn in E2. split; [congruence|]. split; [lia|]. intros k b' ->. cbn in L, E2. split; [|lia].
    replace (length (k :: b')) with (S (length b')) in E2 by reflexivity. cbn in E2. congruence.
  - assert (l = []). { apply (f_equal (@length _)) in E1. rewrite app_length, map_length, seq_length in E1. destruct l; [reflexivity|cbn in E1; lia]. }
    subst l. rewrite app_nil_r in E1. cbn in E2. split; [congruence|]. split; [lia|]. intros k b' ->. cbn in L, E2. split; [|lia]. congruence.
Qed.

Section Two.
Variable V : Type.
Variable moved torn : V -> V.
Variable fails : nat -> bool.
Notation world := (world V).
Notation attempt := (attempt V fails).

Lemma notify_spec (w0 w : world) v p sub : now V w = now V w0 -> nodes V w = nodes V w0 -> subtrees V w = subtrees V w0 -> cell V w = v ->
  exists t w', notify_changed V fails p sub w = (t, w') /\
    (if t then half_told w0 w' v p sub else told w0 w' v p sub) /\ (no_failure fails -> t = false).
Proof.
  intros En Em Es Ec. unfold notify_changed.
  set (w1 := mkworld V (cell V w) (S (now V w)) (nodes V w) (subtrees V w) (tick V w)).
  destruct (mark_spec V fails (map (fun i => firstn i p) (seq 0 (S (length p)))) (S (now V w)) w1)
    as [t [w2 [E [H1 [H2 [H3 [a [b [Hk [Hg [Hf [Ht Hn]]]]]]]]]]]]. rewrite E.
  destruct (split_seq p _ a b Hk) as [Ea [La Lb]].
  assert (Hgk : forall key, gen (nodes V w2) key =
     if list_eq_dec Nat.eq_dec (firstn (length key) p) key then (if length key <? length a then S (now V w0) else gen (nodes V w0) key) else gen (nodes V w0) key).
  { intros key. rewrite Hg. change (nodes V w1) with (nodes V w). rewrite Em, En. assert (PI : In key a <-> firstn (length key) p = key /\ length key < length a) by (rewrite Ea at 1; exact (prefix_index p key (length a) La)).
    destruct (in_dec (list_eq_dec Nat.eq_dec) key a) as [I|I].
    - apply PI in I as [I1 I2]. destruct (list_eq_dec Nat.eq_dec (firstn (length key) p) key); [|contradiction].
      rewrite (proj2 (Nat.ltb_lt _ _) I2). reflexivity.
    - destruct (list_eq_dec Nat.eq_dec (firstn (length key) p) key) as [Q|Q]; [|reflexivity].
      destruct (length key <? length a) eqn:X; [|reflexivity]. exfalso. apply I. apply PI. split; [exact Q|]. apply Nat.ltb_lt. exact X. }
  destruct t.
  - exists true, w2. split; [reflexivity|]. split; [|exact Hn]. destruct (Ht eq_refl) as [k [b' [Eb [K I]]]]. destruct (Lb k b' Eb) as [Ek Lk].
    split; [rewrite H1; exact Ec|]. split; [rewrite H2; cbn; congruence|]. split; [rewrite H3; exact Es|]. exists (length a). split; [exact Hgk|].
    left. split; [exact (proj1 (Nat.lt_succ_r _ _) Lk)|]. change (nodes V w1) with (nodes V w) in K. rewrite Em in K. rewrite Ek in K. exact K.
  - specialize (Hf eq_refl). subst b. rewrite app_nil_r in Hk.
    assert (Lf : length a = S (length p)) by (rewrite <- Hk, map_length, seq_length; reflexivity).
    assert (Hgp : forall key, gen (nodes V w2) key = if list_eq_dec Nat.eq_dec (firstn (length key) p) key then S (now V w0) else gen (nodes V w0) key).
    { intros key. rewrite Hgk. destruct (list_eq_dec Nat.eq_dec (firstn (length key) p) key) as [Q|Q]; [|reflexivity].
      assert (X : length key < length a). { rewrite <- Q, firstn_length. lia. } rewrite (proj2 (Nat.ltb_lt _ _) X). reflexivity. }
    destruct sub.
    + destruct (attempt_cases V fails (negb (has_key (subtrees V w2) p)) w2) as [t [w3 [E3 [[U1 [U2 [U3 U4]]] [C N]]]]]. rewrite E3. destruct t.
      * exists true, w3. split; [reflexivity|]. split; [|exact N]. split; [rewrite U1, H1; exact Ec|]. split; [rewrite U2, H2; cbn; congruence|].
        split; [rewrite U4, H3; exact Es|]. exists (length a). split; [intros key; rewrite U3; apply Hgk|]. right. split; [exact Lf|]. split; [reflexivity|].
        specialize (C eq_refl). rewrite <- Es. change (subtrees V w) with (subtrees V w1). rewrite <- H3. apply has_not. destruct (has_key (subtrees V w2) p); [discriminate|reflexivity].
      * eexists false, _. split; [reflexivity|]. split; [|auto]. split; [cbn; rewrite U1, H1; exact Ec|]. split; [cbn; rewrite U2, H2; cbn; congruence|].
        split; [intros key; cbn; rewrite U3; apply Hgp|]. intros key. cbn [subtrees set_tables]. rewrite gen_store, U4, H3. change (subtrees V w1) with (subtrees V w).
        rewrite Es, En. destruct (list_eq_dec Nat.eq_dec p key); reflexivity.
    + exists false, w2. split; [reflexivity|]. split; [|auto]. split; [rewrite H1; exact Ec|]. split; [rewrite H2; cbn; congruence|]. split; [exact Hgp|].
      intros key. rewrite H3. change (subtrees V w1) with (subtrees V w). rewrite Es. destruct (list_eq_dec Nat.eq_dec p key); reflexivity.
Qed.
End Two.
