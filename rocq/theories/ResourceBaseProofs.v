(** Equality of values, references into values, views of paths. *)
From Coq Require Import List NArith ZArith Arith Bool Lia.
From Verif Require Import Base PathModel PathSpec PathProofs TrackerModel TrackerSpec EnumModel EnumProofs
  SerialModel SerialSpec SerialBaseProofs ResourceModel ResourceSpec.
From Verif Require TrackerProofs TextSpec TextProofs.
Import ListNotations.

Local Notation str := (list N) (only parsing).

(* ------------------------------------------------------------------ *)
(** ** Equality of values *)

Lemma val_ind0 (P : val -> Prop) :
  (forall b, P (VBool b)) -> (forall z, P (VInt z)) -> (forall b, P (VDbl b)) -> (forall b, P (VFlt b)) ->
  (forall s, P (VStr s)) -> P VNone -> (forall v, P v -> P (VSome v)) ->
  (forall vs, Forall P vs -> P (VSeq vs)) -> (forall m, Forall (fun kv : str * val => P (snd kv)) m -> P (VMap m)) ->
  (forall vs, Forall P vs -> P (VRec vs)) -> forall v, P v.
Proof.
  intros Hb Hi Hd Hf Hs Hn Ho Hq Hm Hr. fix IH 1. intros [b|z|b|b|s| |v|vs|m|vs].
  - apply Hb.
  - apply Hi.
  - apply Hd.
  - apply Hf.
  - apply Hs.
  - exact Hn.
  - apply Ho, IH.
  - apply Hq. induction vs as [|v vs IHvs]; constructor; [apply IH|exact IHvs].
  - apply Hm. induction m as [|[k v] m IHm]; constructor; [apply IH|exact IHm].
  - apply Hr. induction vs as [|v vs IHvs]; constructor; [apply IH|exact IHvs].
Qed.

Lemma val_eqb_true a : forall b, val_eqb a b = true <-> a = b.
Proof.
  induction a as [x|x|x|x|x| |x IH|xs IH|xs IH|xs IH] using val_ind0; intros y; destruct y; cbn [val_eqb];
    try (split; [discriminate|congruence]).
  - rewrite Bool.eqb_true_iff. split; congruence.
  - rewrite Z.eqb_eq. split; congruence.
  - rewrite N.eqb_eq. split; congruence.
  - rewrite N.eqb_eq. split; congruence.
  - rewrite str_eqb_true. split; congruence.
  - split; reflexivity.
  - rewrite IH. split; congruence.
  - revert vs. induction xs as [|x xs IHxs]; intros [|y ys]; try (split; [discriminate|congruence]); [split; reflexivity|].
    inversion IH; subst. rewrite andb_true_iff, H1, (IHxs H2 ys). split; [intros [-> [= ->]]; reflexivity|].
    intros [= -> ->]. auto.
  - revert kvs. induction xs as [|[k x] xs IHxs]; intros [|[k' y] ys]; try (split; [discriminate|congruence]); [split; reflexivity|].
    inversion IH; subst. cbn [snd] in H1. rewrite !andb_true_iff, str_eqb_true, H1, (IHxs H2 ys).
    split; [intros [[-> ->] [= ->]]; reflexivity|]. intros [= -> -> ->]. auto.
  - revert vs. induction xs as [|x xs IHxs]; intros [|y ys]; try (split; [discriminate|congruence]); [split; reflexivity|].
    inversion IH; subst. rewrite andb_true_iff, H1, (IHxs H2 ys). split; [intros [-> [= ->]]; reflexivity|].
    intros [= -> ->]. auto.
Qed.

Lemma same_key_true i a b : same_key i a b = true <-> exists k, key_of i a = Some k /\ key_of i b = Some k.
Proof.
  unfold same_key. destruct (key_of i a) as [x|], (key_of i b) as [y|];
    try (split; [discriminate|intros (k & ? & ?); congruence]).
  rewrite val_eqb_true. split; [intros ->; eauto|intros (k & ? & ?); congruence].
Qed.

Lemma same_key_sym i a b : same_key i a b = same_key i b a.
Proof.
  destruct (same_key i a b) eqn:E, (same_key i b a) eqn:E'; auto.
  - apply same_key_true in E. destruct E as (k & ? & ?). rewrite <- E'. symmetry. apply same_key_true. eauto.
  - apply same_key_true in E'. destruct E' as (k & ? & ?). rewrite <- E. apply same_key_true. eauto.
Qed.

Lemma preserves_sym n a b : preserves_identity n a b = preserves_identity n b a.
Proof. destruct n as [|a'|[k|]]; cbn; auto. apply same_key_sym. Qed.

(* ------------------------------------------------------------------ *)
(** ** References *)

Lemma set_nth_length i x l : length (set_nth i x l) = length l.
Proof. revert i. induction l as [|y l IH]; intros [|i]; cbn; auto. Qed.

Lemma nth_set_nth i x l j : nth_error (set_nth i x l) j =
  if j =? i then match nth_error l i with Some _ => Some x | None => None end else nth_error l j.
Proof.
  revert i j. induction l as [|y l IH]; intros i j.
  - cbn [set_nth]. rewrite !nth_error_nil || idtac. destruct (j =? i); destruct i, j; reflexivity.
  - destruct i as [|i], j as [|j]; cbn; auto.
Qed.

Lemma nth_set_same i x l y : nth_error l i = Some y -> nth_error (set_nth i x l) i = Some x.
Proof. intros H. now rewrite nth_set_nth, Nat.eqb_refl, H. Qed.

Lemma nth_set_other i x l j : j <> i -> nth_error (set_nth i x l) j = nth_error l j.
Proof. intros H. rewrite nth_set_nth. now destruct (Nat.eqb_spec j i). Qed.

Lemma set_nth_twice i x y l : set_nth i y (set_nth i x l) = set_nth i y l.
Proof. revert i. induction l as [|z l IH]; intros [|i]; cbn; auto. now rewrite IH. Qed.

Lemma set_nth_back i x l : nth_error l i = Some x -> set_nth i x l = l.
Proof. revert i. induction l as [|y l IH]; intros [|i]; cbn; auto; intros H; [congruence|]. now rewrite IH. Qed.

Lemma map_assign_twice k x y m : map_assign k y (map_assign k x m) = map_assign k y m.
Proof.
  induction m as [|[k' z] m IH]; cbn; auto. destruct (str_eqb k' k) eqn:E; cbn; rewrite E; [reflexivity|].
  now rewrite IH.
Qed.

Lemma get_set v loc x old : get_at v loc = Some old -> get_at (set_at v loc x) loc = Some x.
Proof.
  revert v. induction loc as [|s loc IH]; intros v; cbn; [reflexivity|].
  destruct s as [i| |i|k], v; cbn; try discriminate.
  - destruct (nth_error vs i) as [y|] eqn:E; [|discriminate]. intros H. cbn. now rewrite (nth_set_same _ _ _ _ E), IH.
  - apply IH.
  - destruct (nth_error vs i) as [y|] eqn:E; [|discriminate]. intros H. cbn. now rewrite (nth_set_same _ _ _ _ E), IH.
  - destruct (map_find k kvs) as [y|] eqn:E; [|discriminate]. intros H. cbn.
    rewrite map_assign_find, E, str_eqb_refl. now apply IH.
Qed.

Lemma set_back v loc old : get_at v loc = Some old -> set_at v loc old = v.
Proof.
  revert v. induction loc as [|s loc IH]; intros v; cbn; [congruence|].
  destruct s as [i| |i|k], v; cbn; try discriminate.
  - destruct (nth_error vs i) as [y|] eqn:E; [|discriminate]. intros H. rewrite (IH _ H). now rewrite set_nth_back.
  - intros H. now rewrite (IH _ H).
  - destruct (nth_error vs i) as [y|] eqn:E; [|discriminate]. intros H. rewrite (IH _ H). now rewrite set_nth_back.
  - destruct (map_find k kvs) as [y|] eqn:E; [|discriminate]. intros H. rewrite (IH _ H). now rewrite map_assign_same.
Qed.

Lemma set_twice v loc x y : set_at (set_at v loc x) loc y = set_at v loc y.
Proof.
  revert v. induction loc as [|s loc IH]; intros v; cbn; [reflexivity|].
  destruct s as [i| |i|k], v; cbn; try reflexivity.
  - destruct (nth_error vs i) as [z|] eqn:E; cbn.
    + rewrite (nth_set_same _ _ _ _ E), IH. now rewrite set_nth_twice.
    + now rewrite E.
  - now rewrite IH.
  - destruct (nth_error vs i) as [z|] eqn:E; cbn.
    + rewrite (nth_set_same _ _ _ _ E), IH. now rewrite set_nth_twice.
    + now rewrite E.
  - destruct (map_find k kvs) as [z|] eqn:E; cbn.
    + rewrite map_assign_find, E, str_eqb_refl, IH. now rewrite map_assign_twice.
    + now rewrite E.
Qed.

Lemma get_at_app v l l' : get_at v (l ++ l') = match get_at v l with Some x => get_at x l' | None => None end.
Proof.
  revert v. induction l as [|s l IH]; intros v; cbn; [reflexivity|]. destruct s as [i| |i|k], v; auto.
  - destruct (nth_error vs i); auto.
  - destruct (nth_error vs i); auto.
  - destruct (map_find k kvs); auto.
Qed.

(** Assigning does not touch other locations. *)
Lemma get_set_other v loc loc' x : ~ inside loc loc' -> ~ inside loc' loc ->
  get_at (set_at v loc x) loc' = get_at v loc'.
Proof.
  revert v loc'. induction loc as [|s loc IH]; intros v loc' H1 H2.
  - exfalso. apply H2. exists loc'. reflexivity.
  - destruct loc' as [|s' loc']; [exfalso; apply H1; now exists (s :: loc)|].
    assert (HI : s' = s -> ~ inside loc loc' /\ ~ inside loc' loc).
    { intros ->. split; intros (r & ->); [apply H1|apply H2]; exists r; reflexivity. }
    cbn [set_at]. destruct s as [i| |i|k], v; try reflexivity.
    + destruct (nth_error vs i) as [y|] eqn:E; [|reflexivity]. destruct s' as [i'| |i'|k']; try reflexivity.
      cbn [get_at]. rewrite nth_set_nth, E. destruct (Nat.eqb_spec i' i) as [->|Hn]; [|reflexivity].
      destruct (HI eq_refl). now rewrite IH, E.
    + destruct s' as [i'| |i'|k']; try reflexivity. cbn [get_at]. destruct (HI eq_refl). now apply IH.
    + destruct (nth_error vs i) as [y|] eqn:E; [|reflexivity]. destruct s' as [i'| |i'|k']; try reflexivity.
      cbn [get_at]. rewrite nth_set_nth, E. destruct (Nat.eqb_spec i' i) as [->|Hn]; [|reflexivity].
      destruct (HI eq_refl). now rewrite IH, E.
    + destruct (map_find k kvs) as [y|] eqn:E; [|reflexivity]. destruct s' as [i'| |i'|k']; try reflexivity.
      cbn [get_at]. rewrite map_assign_find. destruct (str_eqb k k') eqn:Ek.
      * apply str_eqb_true in Ek. subst k'. rewrite E. destruct (HI eq_refl). now rewrite IH.
      * destruct (map_find k' kvs); reflexivity.
Qed.

(** Inside the place assigned to, what was assigned is found. *)
Lemma get_set_below v loc x old rest : get_at v loc = Some old ->
  get_at (set_at v loc x) (loc ++ rest) = get_at x rest.
Proof. intros H. now rewrite get_at_app, (get_set _ _ _ _ H). Qed.

(* ------------------------------------------------------------------ *)
(** ** Views *)

(** The view shows these segments. *)
Definition shows (p : path_view) (segs : list str) : Prop :=
  exists all b n, view_rep p all b n /\ segs = firstn n (skipn b all).

Lemma shows_size p segs : shows p segs -> view_size p = length segs.
Proof.
  intros (all & b & n & (q & junk & _ & -> & Hle) & ->). cbn. rewrite firstn_length, skipn_length. lia.
Qed.

Lemma skipn_cons {A} (l : list A) b x : nth_error l b = Some x -> skipn b l = x :: skipn (b + 1) l.
Proof.
  revert b. induction l as [|y l IH]; intros [|b] H; cbn in *; try discriminate; [congruence|]. apply (IH _ H).
Qed.

Lemma shows_cons p s segs : shows p (s :: segs) ->
  view_front p = Ok s /\ exists p', drop_front p = Ok p' /\ shows p' segs.
Proof.
  intros (all & b & n & R & E). destruct n as [|n]; [discriminate|].
  destruct (view_at_spec p all b (S n) 0 R) as (x & Hx & Hv); [lia|]. rewrite Nat.add_0_r in Hx.
  rewrite (skipn_cons _ _ _ Hx) in E. cbn [firstn] in E. injection E as -> ->. split; [exact Hv|].
  destruct (drop_front_spec p all b n R) as (p' & Hp & R'). exists p'. split; [exact Hp|]. exists all, (b + 1), n. auto.
Qed.

Lemma denotes_shows p l : denotes p l -> shows p l.
Proof.
  intros (q & s & pp & segs & n & M & P & V & ->).
  pose proof (path_set_rep q s segs pp M P) as R. pose proof (view_of_rep pp segs 0 n p R V) as HV.
  exists segs, 0, n. split; [exact HV|reflexivity].
Qed.

Lemma denotes_size p l : denotes p l -> view_size p = length l.
Proof. intros H. apply shows_size, denotes_shows, H. Qed.

Lemma denotes_drop_back p l s : denotes p (l ++ [s]) -> exists p', drop_back p = Ok p' /\ denotes p' l.
Proof.
  intros D. pose proof (denotes_size _ _ D) as Hsz. destruct D as (q & s0 & pp & segs & n & M & P & V & E).
  pose proof (path_set_rep q s0 segs pp M P) as R. pose proof (view_of_rep pp segs 0 n p R V) as HV.
  assert (Hn : n <= length segs) by (destruct HV as (? & ? & _ & _ & H); exact H).
  assert (Hl : length l + 1 = n).
  { rewrite <- (firstn_length_le segs Hn), <- E, app_length. reflexivity. }
  destruct n as [|n]; [lia|]. destruct (drop_back_spec p segs 0 n HV) as (p' & Hp & _). exists p'. split; [exact Hp|].
  exists q, s0, pp, segs, n. repeat split; auto.
  - exact (view_back_dropped pp 0 n p p' V Hp).
  - assert (length l = n) by lia. subst n.
    assert (firstn (length l) (l ++ [s]) = l) by (rewrite firstn_app, Nat.sub_diag, firstn_all; cbn; apply app_nil_r).
    transitivity (firstn (length l) (l ++ [s])); [now symmetry|]. rewrite E, firstn_firstn. f_equal. lia.
Qed.

(** Notifying with a well-formed path always succeeds. *)
Lemma notify_total t p l w : denotes p l -> exists t' g, notify_changed t p w = Ok (t', g).
Proof.
  intros D. pose proof (TrackerProofs.denotes_prefixes p l D) as HP. unfold notify_changed.
  destruct HP as (Hok & Hsz & Hpre).
  destruct (TrackerProofs.assign_prefixes_spec p l ((current_ t + 1) mod gen_modulus)%N (conj Hok (conj Hsz Hpre)) (view_size p + 1) 0
              (node_generation_ t)) as (m & Hm & _); [lia|].
  rewrite Hm. cbn [obind]. destruct w; [|eauto]. rewrite Hpre by (rewrite Hsz; apply le_n). cbn [obind]. eauto.
Qed.
