From Coq Require Import List Arith Bool Lia.
From Verif Require Import Base HandModel HandSpec HandProofs HandStepProofs HandRunProofs HandAllProofs.
Import ListNotations.

Lemma start_abs : abs start = nothing.
Proof. reflexivity. Qed.
Theorem run_ok pick os : honest pick -> exists st, run pick os start = Ok st /\ good st /\ abs st = acts os nothing.
Proof. intros H. exact (run_does pick os H start start_good). Qed.
Lemma run_good pick os st : honest pick -> run pick os start = Ok st -> good st /\ abs st = acts os nothing.
Proof. intros H E. destruct (run_ok pick os H) as (st' & E' & I & A). rewrite E in E'. injection E' as <-. now split. Qed.

(** * Comparing *)

Lemma named_inv st i k n : good st -> named (abs st) i = Some (k, n) ->
  exists p, var st i = Some (k, p) /\ n = option_map (name (st_mem st)) p /\ forall a, p = Some a -> st_mem st a <> None.
Proof.
  intros I H. unfold abs in H. rewrite named_view in H. destruct (var st i) as [[k' p]|] eqn:E; [|discriminate]. injection H as <- <-.
  exists p. split; [reflexivity|]. split; [reflexivity|]. intros a ->. exact (ptr_live st _ _ _ i k' a I E).
Qed.
Lemma name_inj st a b : good st -> st_mem st a <> None -> st_mem st b <> None -> name (st_mem st) a = name (st_mem st) b -> a = b.
Proof.
  intros I A B. unfold name. destruct (st_mem st a) as [c|] eqn:Ea; [|now destruct A]. destruct (st_mem st b) as [d|] eqn:Eb; [|now destruct B].
  exact (i_uniq _ _ _ _ I a b c d Ea Eb).
Qed.
Lemma both_comparable st i j n n' f : good st -> comparable (abs st) i j n n' ->
  exists p q, both st i j f = Some (f p q) /\ (p = q <-> n = n').
Proof.
  intros I (k & Hk & Ei & Ej). destruct (named_inv st i k n I Ei) as (p & Ep & En & Lp). destruct (named_inv st j k n' I Ej) as (q & Eq & En' & Lq).
  exists p, q. unfold both. rewrite Ep, Eq. split.
  - destruct k; [reflexivity | reflexivity | now destruct Hk].
  - subst n n'. destruct p as [a|], q as [b|]; cbn; split; intros H; try discriminate H; try reflexivity.
    + now injection H as ->.
    + injection H as H. f_equal. apply (name_inj st a b I (Lp a eq_refl) (Lq b eq_refl) H).
Qed.
Lemma pointer_eqb_eq p q : pointer_eqb p q = true <-> p = q.
Proof.
  destruct p as [a|], q as [b|]; cbn; try (split; [discriminate | discriminate]); [|now split].
  rewrite Nat.eqb_eq. split; [now intros -> | now intros [= ->]].
Qed.
Lemma pointer_tri p q : (p = q -> pointer_ltb p q = false) /\ (p <> q -> pointer_ltb p q = negb (pointer_ltb q p)).
Proof.
  destruct p as [a|], q as [b|]; cbn [pointer_ltb]; split; intros H; try reflexivity; try discriminate H; try now destruct H.
  - injection H as ->. apply Nat.ltb_irrefl.
  - destruct (Nat.ltb_spec a b), (Nat.ltb_spec b a); try reflexivity; exfalso; [lia|]. apply H. f_equal. lia.
Qed.

Theorem equal_names st i j n n' : good st -> comparable (abs st) i j n n' -> exists b, equal st i j = Some b /\ (b = true <-> n = n').
Proof.
  intros I C. destruct (both_comparable st i j n n' pointer_eqb I C) as (p & q & E & H). eexists. split; [exact E|]. now rewrite pointer_eqb_eq.
Qed.
Lemma comparable_sym w i j n n' : comparable w i j n n' -> comparable w j i n' n.
Proof. intros (k & H & A & B). exists k. auto. Qed.
Theorem less_names st i j n n' : good st -> comparable (abs st) i j n n' ->
  exists b b', less st i j = Some b /\ less st j i = Some b' /\ (n = n' -> b = false /\ b' = false) /\ (n <> n' -> b = negb b').
Proof.
  intros I (k & Hk & Ei & Ej). destruct (named_inv st i k n I Ei) as (p & Ep & En & Lp). destruct (named_inv st j k n' I Ej) as (q & Eq & En' & Lq).
  destruct (both_comparable st i j n n' pointer_ltb I ltac:(exists k; auto)) as (p' & q' & E & H).
  assert (p' = p /\ q' = q \/ pointer_ltb p' q' = pointer_ltb p q) as X.
  { right. unfold both in E. rewrite Ep, Eq in E. destruct k; cbn in E; [injection E as E; now symmetry.. | now destruct Hk]. }
  clear X E H p' q'. exists (pointer_ltb p q), (pointer_ltb q p). unfold less, both. rewrite Ep, Eq.
  split; [destruct k; [reflexivity | reflexivity | now destruct Hk]|]. split; [destruct k; [reflexivity | reflexivity | now destruct Hk]|].
  assert (X : p = q <-> n = n').
  { subst n n'. destruct p as [a|], q as [b|]; cbn; split; intros H; try discriminate H; try reflexivity.
    - now injection H as ->.
    - injection H as H. f_equal. apply (name_inj st a b I (Lp a eq_refl) (Lq b eq_refl) H). }
  split; intros H.
  - apply X in H. subst q. split; now apply pointer_tri.
  - apply pointer_tri. now rewrite X.
Qed.
Theorem less_trans st i j k : less st i j = Some true -> less st j k = Some true -> less st i k = Some true.
Proof.
  unfold less, both. destruct (var st i) as [[ki p]|]; [|discriminate]. destruct (var st j) as [[kj q]|]; [|discriminate].
  destruct (var st k) as [[kk r]|]; [|intros _; discriminate].
  destruct (kind_eqb ki kj) eqn:E1; [|discriminate]. apply kind_eqb_eq in E1. subst kj.
  destruct (kind_eqb ki kk) eqn:E2; [|intros _; discriminate]. apply kind_eqb_eq in E2. subst kk.
  destruct (kind_eqb ki Blocker); [discriminate|]. cbn.
  intros [= A] [= B]. f_equal. destruct p as [a|], q as [b|], r as [c|]; cbn [pointer_ltb] in *; try discriminate; try reflexivity.
  apply Nat.ltb_lt in A, B. apply Nat.ltb_lt. lia.
Qed.
Theorem hash_names h st i j n : good st -> comparable (abs st) i j n n -> exists x, hash h st i = Some x /\ hash h st j = Some x.
Proof.
  intros I C. destruct (both_comparable st i j n n pointer_eqb I C) as (p & q & E & H).
  pose proof (proj2 H eq_refl). subst q. clear E H. destruct C as (k & Hk & Ei & Ej).
  destruct (named_inv st i k n I Ei) as (p1 & Ep & En & Lp). destruct (named_inv st j k n I Ej) as (q & Eq & En' & Lq).
  assert (p1 = q).
  { destruct p1 as [a|], q as [b|]; cbn in *; try congruence. f_equal. apply (name_inj st a b I (Lp a eq_refl) (Lq b eq_refl)). congruence. }
  subst q. unfold hash. rewrite Ep, Eq. destruct k; [now exists (h p1) | now exists (h p1) | now destruct Hk].
Qed.

(** * Connected, blocked *)

Lemma slots_inv st s l : slots (abs st) s = Some l -> exists r, sig st s = Some r /\ l = map (name (st_mem st)) r.
Proof. unfold abs. rewrite slots_view. destruct (sig st s) as [r|]; [|discriminate]. intros [= <-]. now exists r. Qed.
Lemma sender_on st a c : good st -> st_mem st a = Some c -> (exists s, c_sender c = Some s) <-> on (abs st) (c_call c).
Proof.
  intros I M. split.
  - intros (s & E). apply (i_sender _ _ _ _ I a c s M (fun H => H)) in E as (l & El & Hl). exists s, (map (name (st_mem st)) l).
    unfold abs. rewrite slots_view, El. split; [reflexivity|]. apply in_map_iff. exists a. split; [|exact Hl]. unfold name. now rewrite M.
  - intros (s & l & El & Hl). destruct (slots_inv st s l El) as (r & Er & ->). apply in_map_iff in Hl as (b & Eb & Hb).
    assert (Lb : st_mem st b <> None) by exact (live_on st _ _ _ s r b I Er Hb).
    assert (a = b) as <-. { apply (name_inj st a b I); [congruence | exact Lb|]. rewrite Eb. unfold name. now rewrite M. }
    exists s. apply (i_sender _ _ _ _ I a c s M (fun H => H)). now exists r.
Qed.
Theorem connected_on st i : good st -> exists b, connected st i = Ok b /\ (b = true <-> exists k g, named (abs st) i = Some (k, Some g) /\ on (abs st) g).
Proof.
  intros I. unfold connected. pose proof (named_view (st_mem st) st i) as V. fold (abs st) in V. rewrite V. clear V. destruct (var st i) as [[k [a|]]|] eqn:E.
  - pose proof (ptr_live st _ _ _ i k a I E) as L. destruct (st_mem st a) as [c|] eqn:M; [|now destruct L]. eexists. split; [reflexivity|].
    pose proof (sender_on st a c I M) as S. assert (Nm : name (st_mem st) a = c_call c) by (unfold name; now rewrite M).
    unfold named_by. cbn [option_map fst snd]. rewrite Nm. split.
    + intros H. exists k, (c_call c). split; [reflexivity|]. apply S. destruct (c_sender c) as [s|]; [now exists s | discriminate].
    + intros (k' & g & [= <- <-] & H). apply S in H as (s & ->). reflexivity.
  - exists false. split; [reflexivity|]. split; [discriminate|]. intros (k' & g & H & _). discriminate H.
  - exists false. split; [reflexivity|]. split; [discriminate|]. intros (k' & g & H & _). discriminate H.
Qed.
Lemma blocks_blocked st a c : good st -> st_mem st a = Some c -> c_blocks c = 0 <-> ~ blocked (abs st) (c_call c).
Proof.
  intros I M. rewrite (i_blocks _ _ _ _ I a c M). unfold zero. rewrite Nat.add_0_r.
  assert (X : 0 < brefs st a <-> blocked (abs st) (c_call c)); [|split; [intros E H; apply X in H; lia | intros H; destruct (brefs st a) eqn:E; [reflexivity|]; exfalso; apply H, X; lia]].
  unfold brefs. rewrite occ_in, in_bptrs. split.
  - intros (i & E). exists i. unfold abs. rewrite named_view. unfold var. rewrite E. cbn. unfold named_by. cbn. unfold name. now rewrite M.
  - intros (i & E). destruct (named_inv st i _ _ I E) as (p & Ep & En & Lp). destruct p as [b|]; [|discriminate]. injection En as En.
    exists i. fold (var st i). rewrite Ep. do 2 f_equal. f_equal. apply (name_inj st b a I (Lp b eq_refl)); [congruence|].
    rewrite <- En. unfold name. now rewrite M.
Qed.
Theorem emit_calls st s l : good st -> slots (abs st) s = Some l ->
  exists f, (forall g, f g = true <-> In g l /\ ~ blocked (abs st) g) /\ emit st s = Ok (filter f l).
Proof.
  intros I E. destruct (slots_inv st s l E) as (r & Er & ->).
  assert (X : forall g, In g (map (name (st_mem st)) r) -> exists a c, In a r /\ st_mem st a = Some c /\ c_call c = g).
  { intros g Hg. apply in_map_iff in Hg as (a & <- & Ha). pose proof (live_on st _ _ _ s r a I Er Ha) as L. unfold name.
    destruct (st_mem st a) as [c|] eqn:M; [|now destruct L]. now exists a, c. }
  exists (fun g => existsb (fun a => match st_mem st a with Some c => Nat.eqb (c_call c) g && Nat.eqb (c_blocks c) 0 | None => false end) r). split.
  - intros g. rewrite existsb_exists. split.
    + intros (a & Ha & H). destruct (st_mem st a) as [c|] eqn:M; [|discriminate]. apply andb_true_iff in H as [H1 H2]. apply Nat.eqb_eq in H1, H2.
      subst g. split; [|now apply (blocks_blocked st a c I M)]. apply in_map_iff. exists a. split; [|exact Ha]. unfold name. now rewrite M.
    + intros [Hg Nb]. destruct (X g Hg) as (a & c & Ha & M & <-). exists a. split; [exact Ha|]. rewrite M, Nat.eqb_refl. cbn.
      apply Nat.eqb_eq. now apply (blocks_blocked st a c I M).
  - unfold emit. rewrite Er.
    assert (Y : forall q, incl q r -> calls (st_mem st) q = Ok (filter (fun g => existsb (fun a => match st_mem st a with
        Some c => Nat.eqb (c_call c) g && Nat.eqb (c_blocks c) 0 | None => false end) r) (map (name (st_mem st)) q))); [|exact (Y r (incl_refl r))].
    induction q as [|a q IH]; intros Hq; [reflexivity|]. cbn [calls map filter].
    assert (Ha : In a r) by (apply Hq; now left). pose proof (live_on st _ _ _ s r a I Er Ha) as L.
    destruct (st_mem st a) as [c|] eqn:M; [|now destruct L].
    rewrite IH by (intros b Hb; apply Hq; now right). cbn [obind].
    assert (Sd : exists t, c_sender c = Some t). { exists s. apply (i_sender _ _ _ _ I a c s M (fun H => H)). now exists r. }
    destruct Sd as (t & ->). assert (Nm : name (st_mem st) a = c_call c) by (unfold name; now rewrite M). rewrite Nm.
    destruct (Nat.eqb (c_blocks c) 0) eqn:B.
    + replace (existsb _ r) with true; [reflexivity|]. symmetry. apply existsb_exists. exists a. split; [exact Ha|]. now rewrite M, Nat.eqb_refl, B.
    + replace (existsb _ r) with false; [reflexivity|]. symmetry. apply not_true_iff_false. intros H. apply existsb_exists in H as (b & Hb & H).
      destruct (st_mem st b) as [d|] eqn:Md; [|discriminate]. apply andb_true_iff in H as [H1 H2]. apply Nat.eqb_eq in H1.
      assert (b = a) by exact (i_uniq _ _ _ _ I b a d c Md M H1). subst b. rewrite M in Md. injection Md as <-. congruence.
Qed.
Theorem num_slots_length st s l : good st -> slots (abs st) s = Some l -> num_slots st s = Ok (length l).
Proof.
  intros I E. destruct (slots_inv st s l E) as (r & Er & ->). unfold num_slots. rewrite Er, map_length.
  assert (Y : forall q, incl q r -> count_valid (st_mem st) q = Ok (length q)); [|exact (Y r (incl_refl r))].
  induction q as [|a q IH]; intros Hq; [reflexivity|]. cbn [count_valid].
  assert (Ha : In a r) by (apply Hq; now left). pose proof (live_on st _ _ _ s r a I Er Ha) as L.
  destruct (st_mem st a) as [c|] eqn:M; [|now destruct L]. rewrite IH by (intros b Hb; apply Hq; now right). cbn [obind].
  assert (Sd : exists t, c_sender c = Some t). { exists s. apply (i_sender _ _ _ _ I a c s M (fun H => H)). now exists r. }
  destruct Sd as (t & ->). reflexivity.
Qed.
Theorem alive_in_use st g : good st -> (exists a c, st_mem st a = Some c /\ c_call c = g) <-> in_use (abs st) g.
Proof.
  intros I. split.
  - intros (a & c & M & <-). destruct (i_count _ _ _ _ I a c M) as [N P].
    assert (Nm : name (st_mem st) a = c_call c) by (unfold name; now rewrite M).
    destruct (Nat.eq_dec (srefs st a) 0) as [Z|Z].
    + right. assert (V : 0 < vrefs st a) by (unfold zero in N; lia). apply occ_in, in_ptrs in V as (i & k & E). exists i, k.
      unfold abs. rewrite named_view. unfold var. rewrite E. cbn. unfold named_by. cbn. now rewrite Nm.
    + left. assert (V : 0 < srefs st a) by lia. apply occ_in, in_elems in V as (s & l & E & H). exists s, (map (name (st_mem st)) l).
      unfold abs. rewrite slots_view. unfold sig. rewrite E. split; [reflexivity|]. apply in_map_iff. now exists a.
  - intros [(s & l & E & H)|(i & k & E)].
    + destruct (slots_inv st s l E) as (r & Er & ->). apply in_map_iff in H as (a & <- & Ha). pose proof (live_on st _ _ _ s r a I Er Ha) as L.
      unfold name. destruct (st_mem st a) as [c|] eqn:M; [|now destruct L]. now exists a, c.
    + destruct (named_inv st i _ _ I E) as (p & Ep & En & Lp). destruct p as [a|]; [|discriminate]. injection En as ->. specialize (Lp a eq_refl).
      unfold name. destruct (st_mem st a) as [c|] eqn:M; [|now destruct Lp]. now exists a, c.
Qed.

(** * Variables that are not written to *)

Lemma var_app st h i : var st i <> None -> nth i (st_vars st ++ [Some h]) None = var st i.
Proof. intros H. unfold var in *. rewrite nth_app_one. destruct (Nat.eqb_spec i (length (st_vars st))) as [->|_]; [|reflexivity]. now rewrite nth_overflow in H. Qed.
Lemma var_upd st i v j : i <> j -> nth j (upd (st_vars st) i v) None = var st j.
Proof. intros H. rewrite nth_upd. apply Nat.eqb_neq in H. now rewrite H. Qed.

Lemma slot_disconnect_vars a st st' : slot_disconnect a st = Ok st' -> st_vars st' = st_vars st.
Proof.
  unfold slot_disconnect. destruct (st_mem st a) as [c|]; [|discriminate]. destruct (rebind None a (st_mem st)) as [m| |]; try discriminate. cbn [obind].
  destruct (c_sender c) as [s|]; [|now intros [= <-]]. unfold signal_disconnect. destruct (sig _ s) as [l|]; [|discriminate].
  destruct (existsb _ l); [|now intros [= <-]]. destruct (rebind None a _) as [m1| |]; try discriminate. cbn [obind].
  destruct (release a m1) as [m2| |]; try discriminate. now intros [= <-].
Qed.
Lemma disconnect_vars p st st' : disconnect p st = Ok st' -> st_vars st' = st_vars st.
Proof.
  destruct p as [a|]; [|now intros [= <-]]. cbn [disconnect]. destruct (slot_disconnect a st) as [st1| |] eqn:E; try discriminate. cbn [obind].
  destruct (release a (st_mem st1)) as [m| |]; try discriminate. intros [= <-]. exact (slot_disconnect_vars a st st1 E).
Qed.
Lemma obind_ok {A B} (x : outcome A) (f : A -> outcome B) r : obind x f = Ok r -> exists a, x = Ok a /\ f a = Ok r.
Proof. destruct x; cbn; try discriminate. intros H. now exists a. Qed.

Ltac parts := repeat match goal with
  | H : obind _ _ = Ok _ |- _ => apply obind_ok in H; destruct H as (? & ? & H)
  | H : Ok _ = Ok _ |- _ => injection H; clear H; intros; subst
  | H : match ?x with _ => _ end = Ok _ |- _ => let E := fresh "E" in destruct x eqn:E; try discriminate H
  end.
Lemma var_both st i u h j : i <> j -> var st j <> None -> nth j (upd (st_vars st) i u ++ [Some h]) None = var st j.
Proof.
  intros N H. rewrite nth_app_one, length_upd. destruct (Nat.eqb_spec j (length (st_vars st))) as [E|_].
  - exfalso. apply H. unfold var. subst j. now rewrite nth_overflow.
  - now apply var_upd.
Qed.
Lemma step_vars pick o st st' j : step pick o st = Ok st' -> var st j <> None -> ~ In j (writes o) -> var st' j = var st j.
Proof.
  intros H Hj W. destruct o; cbn [step writes In] in *; unfold clear in *; parts;
    try reflexivity; unfold var at 1; cbn [new_var set_var with_mem with_vars with_sigs set_sig st_vars];
    repeat match goal with
      | D : disconnect _ _ = Ok _ |- _ => apply disconnect_vars in D; rewrite D
      end;
    try reflexivity; rewrite ?nth_upd;
    repeat match goal with |- context [Nat.eqb ?a ?b] => destruct (Nat.eqb_spec a b); [exfalso; subst; tauto|] end; cbn [andb];
    try reflexivity; try (now apply var_app); try (apply var_both; tauto).
Qed.
