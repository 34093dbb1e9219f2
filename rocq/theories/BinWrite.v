(** What the writer does to the buffer. *)
From Coq Require Import List NArith ZArith Arith Bool Lia ZifyBool ZifyNat ZifyN.
From Verif Require Import Base BinModel BinSpec BinOrder BinProofs.
Import ListNotations.
Local Open Scope outcome_scope.
Arguments N.add : simpl never.
Arguments N.mul : simpl never.
Arguments N.sub : simpl never.
Arguments N.modulo : simpl never.

Definition written (c c' : cursor) (bs : list N) : Prop :=
  exists n, n <= length bs /\ (pos c + N.of_nat n <= size_bytes c)%N /\
    buf c' = stored (buf c) (N.to_nat (pos c)) (firstn n bs) /\
    pos c' = (pos c + N.of_nat n)%N /\
    (err c' = false -> n = length bs) /\
    (err c = true -> n = 0 /\ err c' = true) /\
    (err c = false -> err c' = true -> (size_bytes c < pos c + N.of_nat (length bs))%N) .

Lemma stored_nil b p : stored b p [] = b.
Proof. unfold stored. rewrite Nat.add_0_r. cbn. apply firstn_skipn. Qed.

Lemma stored_length b p d : p + length d <= length b -> length (stored b p d) = length b.
Proof. intros H. unfold stored. rewrite !app_length, firstn_length, skipn_length. lia. Qed.

Lemma skipn_skipn {A} i j (l : list A) : skipn i (skipn j l) = skipn (j + i) l.
Proof. revert l; induction j as [|j IH]; intros [|x l]; cbn; auto. now rewrite !skipn_nil. Qed.

Lemma stored_stored b p a d : p + length a <= length b ->
  stored (stored b p a) (p + length a) d = stored b p (a ++ d).
Proof.
  intros H. unfold stored at 1. unfold stored.
  assert (Hf : length (firstn p b) = p) by (rewrite firstn_length; lia).
  rewrite firstn_app, Hf. replace (p + length a - p) with (length a) by lia.
  rewrite firstn_firstn. replace (min (p + length a) p) with p by lia.
  rewrite firstn_app, firstn_all, Nat.sub_diag. cbn [firstn]. rewrite app_nil_r.
  rewrite <- !app_assoc. f_equal. f_equal. f_equal.
  rewrite skipn_app, Hf. rewrite (skipn_all2 (firstn p b)) by lia. cbn [app].
  rewrite skipn_app. rewrite skipn_all2 by lia. cbn [app].
  rewrite skipn_skipn. f_equal. rewrite app_length. lia.
Qed.

Lemma stored_octets b p d : Forall is_octet b -> Forall is_octet d -> Forall is_octet (stored b p d).
Proof.
  intros Hb Hd. unfold stored. rewrite !Forall_app. split; [|split; [assumption|]].
  - rewrite <- (firstn_skipn p b) in Hb. apply Forall_app in Hb. apply Hb.
  - rewrite <- (firstn_skipn (p + length d) b) in Hb. apply Forall_app in Hb. apply Hb.
Qed.

Lemma written_size c c' bs : written c c' bs -> size_bytes c' = size_bytes c.
Proof.
  intros (n & Hn & Hs & Hb & _). unfold size_bytes in *. rewrite Hb, stored_length; [reflexivity|].
  rewrite firstn_length. lia.
Qed.

Lemma written_inside c c' bs : inside c -> written c c' bs -> Forall is_octet bs -> inside c'.
Proof.
  intros (H1 & H2 & H3) Hw Ho. pose proof (written_size _ _ _ Hw) as Hs.
  destruct Hw as (n & Hn & Hl & Hb & Hp & _). unfold inside. rewrite Hs, Hp, Hb.
  split; [assumption|]. split; [assumption|]. apply stored_octets; [assumption|].
  rewrite <- (firstn_skipn n bs) in Ho. apply Forall_app in Ho. apply Ho.
Qed.

Lemma written_nil c : inside c -> written c c [].
Proof.
  intros (H1 & H2 & H3). exists 0. cbn [length firstn]. rewrite stored_nil.
  repeat split; auto; try lia. intros; congruence.
Qed.

Lemma written_app c c1 c2 a b : written c c1 a -> written c1 c2 b -> written c c2 (a ++ b).
Proof.
  intros H1 H2. pose proof (written_size _ _ _ H1) as Hs1.
  destruct H1 as (n & Hn & Hs & Hb & Hp & Hok & Hst & Her).
  destruct H2 as (m & Hm & Hs2 & Hb2 & Hp2 & Hok2 & Hst2 & Her2).
  unfold written, size_bytes in *.
  destruct (err c1) eqn:E1.
  - destruct (Hst2 eq_refl) as [-> He2]. exists n. rewrite app_length.
    rewrite firstn_app. replace (n - length a) with 0 by lia. cbn [firstn] in *. rewrite app_nil_r.
    rewrite stored_nil in Hb2. split; [lia|]. split; [exact Hs|]. split; [congruence|]. split; [lia|].
    split; [congruence|]. split; [intros He; split; [apply (Hst He)|assumption]|].
    intros He _. specialize (Her He eq_refl). lia.
  - assert (E : err c = false) by (destruct (err c); [destruct (Hst eq_refl); congruence|reflexivity]).
    specialize (Hok eq_refl). subst n. rewrite firstn_all in Hb.
    exists (length a + m). rewrite app_length, firstn_app_2. split; [lia|]. split; [lia|]. split.
    + rewrite Hb2, Hp, Hb. replace (N.to_nat (pos c + N.of_nat (length a))) with (N.to_nat (pos c) + length a) by lia.
      apply stored_stored. lia.
    + split; [lia|]. split; [intros He; rewrite (Hok2 He); reflexivity|]. split; [congruence|].
      intros _ He. specialize (Her2 eq_refl He). lia.
Qed.

Lemma write_impl_spec c data : inside c -> exists c', write_impl c data = Ok c' /\ written c c' data.
Proof.
  intros Hi. pose proof Hi as (H1 & H2 & H3). unfold write_impl. rewrite (left_inside c Hi).
  destruct (err c) eqn:E; cbn [orb].
  - eexists. split; [reflexivity|]. exists 0. cbn [firstn]. rewrite stored_nil. cbn [notify_error buf pos err].
    repeat split; auto; try lia; congruence.
  - destruct (N.ltb_spec (size_bytes c - pos c) (N.of_nat (length data))) as [Hlt|Hge].
    + eexists. split; [reflexivity|]. exists 0. cbn [firstn]. rewrite stored_nil. cbn [notify_error buf pos err].
      repeat split; auto; try lia; congruence.
    + unfold copy_in. unfold size_bytes in *.
      destruct (N.ltb_spec (N.of_nat (length (buf c))) (pos c + N.of_nat (length data))); [lia|]. cbn [obind].
      eexists. split; [reflexivity|]. exists (length data). rewrite firstn_all. cbn [set_pos set_buf buf pos err].
      split; [lia|]. split; [unfold size_bytes; lia|]. split; [reflexivity|]. split.
      * apply N.mod_small. unfold size_modulus. change (2 ^ 63)%N with 9223372036854775808%N in H2. lia.
      * split; [reflexivity|]. split; congruence.
Qed.

Lemma write_uint_spec w n c : inside c -> exists c', write_uint w n c = Ok c' /\ written c c' (number w n).
Proof. intros Hi. unfold write_uint. rewrite number_spec. now apply write_impl_spec. Qed.

Lemma for_each_spec {A} (f : A -> cursor -> outcome cursor) (enc : A -> list N) l :
  (forall x c, In x l -> inside c -> exists c', f x c = Ok c' /\ written c c' (enc x)) ->
  (forall x, In x l -> Forall is_octet (enc x)) ->
  forall c, inside c -> exists c', for_each f l c = Ok c' /\ written c c' (concat (map enc l)).
Proof.
  induction l as [|x l IH]; intros Hf Ho c Hi; cbn [for_each map concat].
  - exists c. split; [reflexivity|]. now apply written_nil.
  - destruct (Hf x c (or_introl eq_refl) Hi) as (c1 & E1 & W1). rewrite E1. cbn [obind].
    destruct (IH (fun y c H => Hf y c (or_intror H)) (fun y H => Ho y (or_intror H)) c1) as (c2 & E2 & W2).
    { eapply written_inside; eauto. apply Ho. now left. }
    exists c2. split; [assumption|]. eapply written_app; eauto.
Qed.

Lemma concat_octets {A} (enc : A -> list N) l : (forall x, In x l -> Forall is_octet (enc x)) ->
  Forall is_octet (concat (map enc l)).
Proof.
  induction l as [|x l IH]; intros H; cbn [map concat]; [constructor|]. apply Forall_app. split.
  - apply H. now left.
  - apply IH. intros y Hy. apply H. now right.
Qed.

Lemma byte_of_octet z i : is_octet (byte_of z i).
Proof. unfold is_octet, byte_of. pose proof (Z.mod_pos_bound (z / 256 ^ Z.of_nat i) 256). lia. Qed.

Fixpoint write_members (ts : list ty) (vs : list val) (c : cursor) : outcome cursor :=
  match ts, vs with
  | [], [] => Ok c
  | t0 :: ts', v0 :: vs' => c1 <- write_binary t0 v0 c ;; write_members ts' vs' c1
  | _, _ => UB
  end.

Lemma write_rec ts vs c : write_binary (TRec ts) (VSeq vs) c = write_members ts vs c.
Proof. reflexivity. Qed.

Lemma members_octets ts : Forall (fun t => forall v, has_ty t v -> Forall is_octet (encode t v)) ts ->
  forall vs, members_ty ts vs -> Forall is_octet (encode_members ts vs).
Proof.
  induction 1 as [|t ts Ht _ IH]; intros [|v vs] Hv; cbn [members_ty encode_members] in *; try contradiction; [constructor|].
  destruct Hv. apply Forall_app. auto.
Qed.

Lemma encode_octets t : forall v, has_ty t v -> Forall is_octet (encode t v).
Proof.
  induction t as [o s w|s w| |t IH|k t IHk IH|t IH|a b IHa IHb|t IH|ts IH|ts IH] using ty_induct;
    intros v Hv; destruct v; cbn [has_ty encode] in *; try contradiction; try (constructor; fail).
  - apply Forall_map. apply Forall_forall. intros. apply byte_of_octet.
  - apply Hv.
  - apply Forall_app. split; [apply number_octets|apply Hv].
  - apply Forall_app. split; [apply number_octets|]. apply concat_octets. intros x Hx. apply IH.
    destruct Hv as [Hv _]. rewrite Forall_forall in Hv. auto.
  - apply Forall_app. split; [apply number_octets|]. apply concat_octets. intros x Hx.
    destruct Hv as [Hv _]. rewrite Forall_forall in Hv. destruct (Hv x Hx). apply Forall_app. auto.
  - apply Forall_app. split; [apply number_octets|]. apply concat_octets. intros x Hx. apply IH.
    destruct Hv as [Hv _]. rewrite Forall_forall in Hv. auto.
  - apply Forall_app. destruct Hv. auto.
  - destruct o as [v|]; [constructor; [reflexivity|auto]|repeat constructor].
  - apply Forall_app. split; [apply number_octets|].
    rewrite (pick_ty (fun t0 => encode t0 v) []). rewrite (pick_ty (fun t0 => has_ty t0 v) False) in Hv.
    destruct (nth_error ts i) as [t0|] eqn:E; [|constructor]. rewrite Forall_forall in IH.
    apply (IH t0); auto. eapply nth_error_In; eauto.
  - exact (members_octets ts IH l Hv).
Qed.

Lemma repr_encode t v : ((exists o s w, t = TInt o s w) \/ (exists s w, t = TRaw s w)) -> has_ty t v -> repr t v = encode t v.
Proof.
  intros [(o & s & w & ->)|(s & w & ->)] Hv; destruct v; cbn in Hv; try contradiction; cbn [repr encode]; [apply int_bytes_spec|reflexivity].
Qed.

Lemma members_written ts : Forall (fun t => forall v c, has_ty t v -> inside c ->
    exists c', write_binary t v c = Ok c' /\ written c c' (encode t v)) ts ->
  forall vs c, members_ty ts vs -> inside c -> exists c', write_members ts vs c = Ok c' /\ written c c' (encode_members ts vs).
Proof.
  induction 1 as [|t ts Ht _ IH]; intros [|v vs] c Hv Hi; cbn [members_ty encode_members write_members] in *; try contradiction.
  - exists c. split; [reflexivity|]. now apply written_nil.
  - destruct Hv as [Hv0 Hv]. destruct (Ht v c Hv0 Hi) as (c1 & E1 & W1). rewrite E1. cbn [obind].
    destruct (IH vs c1 Hv) as (c2 & E2 & W2); [eapply written_inside; eauto; now apply encode_octets|].
    exists c2. split; [assumption|]. eapply written_app; eauto.
Qed.

Lemma write_spec t : forall v c, has_ty t v -> inside c ->
  exists c', write_binary t v c = Ok c' /\ written c c' (encode t v).
Proof.
  induction t as [o s w|s w| |t IH|k t IHk IH|t IH|a b IHa IHb|t IH|ts IH|ts IH] using ty_induct;
    intros v c Hv Hi; pose proof (encode_octets _ _ Hv) as Hoct; destruct v; cbn [has_ty] in Hv; try contradiction; cbn [write_binary].
  - rewrite (repr_encode (TInt o s w)) by (eauto 7). now apply write_impl_spec.
  - rewrite (repr_encode (TRaw s w)) by (eauto 7). now apply write_impl_spec.
  - destruct (write_uint_spec 4 (N.of_nat (length s)) c Hi) as (c1 & E1 & W1). rewrite E1. cbn [obind encode].
    destruct s as [|x s].
    + rewrite app_nil_r. eauto.
    + destruct (write_impl_spec c1 (x :: s)) as (c2 & E2 & W2); [eapply written_inside; eauto; apply number_octets|].
      exists c2. split; [assumption|]. eapply written_app; eauto.
  - destruct (write_uint_spec 4 (N.of_nat (length l)) c Hi) as (c1 & E1 & W1). rewrite E1. cbn [obind encode].
    assert (Hi1 : inside c1) by (eapply written_inside; eauto; apply number_octets).
    destruct Hv as [Hv _]. rewrite Forall_forall in Hv.
    destruct (is_simple t) eqn:Es.
    + replace (map (repr t) l) with (map (encode t) l).
      * destruct (write_impl_spec c1 (concat (map (encode t) l)) Hi1) as (c2 & E2 & W2).
        exists c2. split; [assumption|]. eapply written_app; eauto.
      * apply map_ext_in. intros x Hx. symmetry. apply repr_encode; auto. destruct t; cbn in Es; try discriminate; eauto.
    + destruct (for_each_spec (write_binary t) (encode t) l) with (c := c1) as (c2 & E2 & W2); auto.
      * intros x Hx. apply encode_octets. auto.
      * exists c2. split; [assumption|]. eapply written_app; eauto.
  - destruct (write_uint_spec 4 (N.of_nat (length l)) c Hi) as (c1 & E1 & W1). rewrite E1. cbn [obind encode].
    assert (Hi1 : inside c1) by (eapply written_inside; eauto; apply number_octets).
    destruct Hv as [Hv _]. rewrite Forall_forall in Hv.
    destruct (for_each_spec (fun kv c => c2 <- write_binary k (fst kv) c ;; write_binary t (snd kv) c2)
      (fun kv => encode k (fst kv) ++ encode t (snd kv)) l) with (c := c1) as (c2 & E2 & W2); auto.
    + intros x c0 Hx Hi0. destruct (Hv x Hx) as [H1 H2].
      destruct (IHk (fst x) c0 H1 Hi0) as (c2 & E2 & W2). rewrite E2. cbn [obind].
      destruct (IH (snd x) c2 H2) as (c3 & E3 & W3); [eapply written_inside; eauto; now apply encode_octets|].
      exists c3. split; [assumption|]. eapply written_app; eauto.
    + intros x Hx. destruct (Hv x Hx). apply Forall_app. split; now apply encode_octets.
    + exists c2. split; [assumption|]. eapply written_app; eauto.
  - destruct (write_uint_spec 4 (N.of_nat (length l)) c Hi) as (c1 & E1 & W1). rewrite E1. cbn [obind encode].
    assert (Hi1 : inside c1) by (eapply written_inside; eauto; apply number_octets).
    destruct Hv as [Hv _]. rewrite Forall_forall in Hv.
    destruct (for_each_spec (write_binary t) (encode t) l) with (c := c1) as (c2 & E2 & W2); auto.
    + intros x Hx. apply encode_octets. auto.
    + exists c2. split; [assumption|]. eapply written_app; eauto.
  - destruct Hv as [H1 H2]. destruct (IHa _ c H1 Hi) as (c2 & E2 & W2). rewrite E2. cbn [obind encode].
    destruct (IHb _ c2 H2) as (c3 & E3 & W3); [eapply written_inside; eauto; now apply encode_octets|].
    exists c3. split; [assumption|]. eapply written_app; eauto.
  - destruct o as [v|].
    + destruct (write_uint_spec 1 1 c Hi) as (c1 & E1 & W1). rewrite E1. cbn [obind encode].
      destruct (IH v c1 Hv) as (c2 & E2 & W2); [eapply written_inside; eauto; apply number_octets|].
      exists c2. split; [assumption|]. exact (written_app _ _ _ _ _ W1 W2).
    + exact (write_uint_spec 1 0 c Hi).
  - destruct (write_uint_spec 1 (N.of_nat i) c Hi) as (c1 & E1 & W1). rewrite E1. cbn [obind encode].
    rewrite (pick_ty (fun t0 => encode t0 v) []), (pick_ty (fun t0 => write_binary t0 v c1) UB).
    rewrite (pick_ty (fun t0 => has_ty t0 v) False) in Hv.
    destruct (nth_error ts i) as [t0|] eqn:E; [|contradiction]. rewrite Forall_forall in IH.
    destruct (IH t0 (nth_error_In _ _ E) v c1 Hv) as (c2 & E2 & W2); [eapply written_inside; eauto; apply number_octets|].
    exists c2. split; [assumption|]. eapply written_app; eauto.
  - exact (members_written ts IH l c Hv Hi).
Qed.
