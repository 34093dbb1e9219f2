(** The statements of BinProps.v. *)
From Coq Require Import List NArith ZArith Arith Bool Lia ZifyBool ZifyNat ZifyN.
From Verif Require Import Base BinModel BinSpec BinOrder BinProofs BinSafety BinWrite.
Import ListNotations.
Local Open Scope outcome_scope.
Arguments N.add : simpl never.
Arguments N.mul : simpl never.
Arguments N.sub : simpl never.
Arguments N.modulo : simpl never.

Lemma stored_app b p d : stored b p d = firstn p b ++ d ++ skipn (p + length d) b.
Proof. reflexivity. Qed.

Lemma write_read t v old w r : wf_ty t -> has_ty t v -> has_ty t old ->
  inside w -> err w = false -> (pos w + N.of_nat (length (encode t v)) <= size_bytes w)%N ->
  exists w', write_binary t v w = Ok w' /\ err w' = false /\
    (pos w' = pos w + N.of_nat (length (encode t v)))%N /\
    (buf r = buf w' -> pos r = pos w -> err r = false ->
     exists r', read_binary t old r = Ok (r', v) /\ err r' = false /\ pos r' = pos w' /\ buf r' = buf r).
Proof.
  intros Hw Hv Hold Hi He Hfit.
  destruct (write_spec t v w Hv Hi) as (w' & E & W). exists w'. split; [assumption|].
  pose proof (written_inside _ _ _ Hi W (encode_octets _ _ Hv)) as Hi'.
  destruct W as (n & Hn & Hs & Hb & Hp & Hok & _ & Her).
  assert (He' : err w' = false) by (destruct (err w') eqn:E'; [specialize (Her He eq_refl); lia|reflexivity]).
  split; [assumption|]. specialize (Hok He'). subst n. split; [assumption|].
  intros Hrb Hrp Hre. rewrite firstn_all in Hb.
  assert (Hir : inside r).
  { destruct Hi' as (A & B & C). destruct Hi as (A' & _). unfold inside, size_bytes in *. rewrite Hrb, Hrp. repeat split; auto. lia. }
  assert (Hl : length (firstn (N.to_nat (pos w)) (buf w)) = N.to_nat (pos w)).
  { rewrite firstn_length. unfold size_bytes in Hfit. lia. }
  destruct (round_trip t Hw v Hv r (firstn (N.to_nat (pos w)) (buf w))
     (skipn (N.to_nat (pos w) + length (encode t v)) (buf w)) old Hir Hre) as (r' & Er & (M1 & M2 & M3)); auto.
  - now rewrite Hrb, Hb.
  - rewrite Hl, Hrp. lia.
  - exists r'. rewrite M2, app_length, Hl, Hp. repeat split; auto. lia.
Qed.

Lemma truncated_lemma t v old c pre cut : wf_ty t -> has_ty t v -> has_ty t old ->
  inside c -> (N.of_nat (length (pre ++ encode t v)) < 2 ^ 63)%N -> Forall is_octet pre ->
  buf c = pre ++ firstn cut (encode t v) -> pos c = N.of_nat (length pre) ->
  cut < length (encode t v) ->
  exists c' u, read_binary t old c = Ok (c', u) /\ err c' = true.
Proof.
  intros Hw Hv Hold Hi Hsz Hpre Hb Hp Hcut.
  destruct (read_safe t Hw old c Hi Hold) as (c' & u & E & (S & _)).
  exists c', u. split; [assumption|]. destruct (err c') eqn:He'; [reflexivity|exfalso].
  assert (He : err c = false) by (eapply err_false_before; eauto).
  set (x := skipn cut (encode t v)).
  assert (Hx : can_extend c x).
  { split; [assumption|]. unfold inside, size_bytes, extend. cbn [buf pos]. rewrite Hb, <- app_assoc. unfold x.
    rewrite firstn_skipn. repeat split; auto.
    - rewrite Hp, app_length. lia.
    - apply Forall_app. split; [assumption|now apply encode_octets]. }
  pose proof (read_ext x t Hw old c Hx Hold c' u E He') as Ex.
  destruct (round_trip t Hw v Hv (extend c x) pre [] old) as (c2 & E2 & (M1 & M2 & M3)); auto.
  - apply Hx.
  - cbn [buf extend]. rewrite Hb, <- app_assoc, app_nil_r. unfold x. now rewrite firstn_skipn.
  - rewrite Ex in E2. injection E2 as E2 _. subst c2. cbn [pos extend] in M2.
    destruct S as ((A & _) & B & _). rewrite M2 in A. unfold size_bytes in A. rewrite B, Hb in A.
    rewrite !app_length, firstn_length in A. lia.
Qed.

Lemma failed_container t e old c c' v : wf_ty t -> has_ty t old -> inside c ->
  empty_container t = Some e -> read_binary t old c = Ok (c', v) -> err c' = true -> v = e.
Proof.
  intros Hw Hold Hi He E Ee. destruct (read_safe t Hw old c Hi Hold) as (c2 & v2 & E2 & _ & _ & H).
  assert (c2 = c' /\ v2 = v) as [-> ->] by (split; congruence). auto.
Qed.

Lemma write_all l : forall w, Forall (fun tv => has_ty (fst tv) (snd tv)) l -> inside w ->
  exists w', for_each (fun tv => write_binary (fst tv) (snd tv)) l w = Ok w' /\
    written w w' (concat (map (fun tv => encode (fst tv) (snd tv)) l)).
Proof.
  intros w Hl Hi. rewrite Forall_forall in Hl. apply for_each_spec; auto.
  - intros x c Hx Hc. apply write_spec; auto.
  - intros x Hx. apply encode_octets. auto.
Qed.

Lemma written_outside w w' bs i : written w w' bs ->
  (N.of_nat i < pos w \/ pos w' <= N.of_nat i)%N -> nth_error (buf w') i = nth_error (buf w) i.
Proof.
  intros (n & Hn & Hs & Hb & Hp & _) Hi. unfold size_bytes in Hs. rewrite Hb. unfold stored.
  set (p := N.to_nat (pos w)) in *.
  assert (Hl : length (firstn p (buf w)) = p) by (rewrite firstn_length; lia).
  assert (Hl2 : length (firstn n bs) = n) by (rewrite firstn_length; lia).
  destruct Hi as [Hi|Hi].
  - rewrite nth_error_app1 by lia.
    rewrite <- (firstn_skipn p (buf w)) at 2. rewrite nth_error_app1 by lia. reflexivity.
  - rewrite nth_error_app2 by lia. rewrite nth_error_app2 by lia. rewrite Hl, Hl2.
    rewrite <- (firstn_skipn (p + n) (buf w)) at 2. rewrite nth_error_app2 by (rewrite firstn_length; lia).
    f_equal. rewrite firstn_length. lia.
Qed.

(** Composite of everything said about writing a list of values. *)
Lemma writer_lemma l w : Forall (fun tv => has_ty (fst tv) (snd tv)) l -> inside w ->
  let bs := concat (map (fun tv => encode (fst tv) (snd tv)) l) in
  let fits := (negb (err w) && (pos w + N.of_nat (length bs) <=? size_bytes w)%N)%bool in
  exists w', for_each (fun tv => write_binary (fst tv) (snd tv)) l w = Ok w' /\ inside w' /\
    size_bytes w' = size_bytes w /\
    (forall i, (N.of_nat i < pos w \/ pos w' <= N.of_nat i)%N -> nth_error (buf w') i = nth_error (buf w) i) /\
    (fits = true -> err w' = false /\ pos w' = (pos w + N.of_nat (length bs))%N /\
       firstn (length bs) (skipn (N.to_nat (pos w)) (buf w')) = bs) /\
    (fits = false -> err w' = true /\
       exists n, n <= length bs /\ pos w' = (pos w + N.of_nat n)%N /\
         firstn n (skipn (N.to_nat (pos w)) (buf w')) = firstn n bs) /\
    (err w = true -> w' = mkcursor (buf w) (pos w) true (asked w')).
Proof.
  intros Hl Hi bs fits. destruct (write_all l w Hl Hi) as (w' & E & W). fold bs in W.
  exists w'. split; [assumption|]. split.
  { eapply written_inside; eauto. apply concat_octets. intros x Hx. rewrite Forall_forall in Hl. apply encode_octets; auto. }
  split; [exact (written_size _ _ _ W)|]. split; [intros i; exact (written_outside _ _ _ i W)|].
  destruct W as (n & Hn & Hs & Hb & Hp & Hok & Hst & Her).
  pose proof Hi as (Hpos & _). unfold size_bytes in *.
  assert (Hcut : firstn n (skipn (N.to_nat (pos w)) (buf w')) = firstn n bs).
  { rewrite Hb. unfold stored. rewrite skipn_app. rewrite firstn_length.
    replace (N.to_nat (pos w) - min (N.to_nat (pos w)) (length (buf w))) with 0 by lia.
    rewrite skipn_all2 by (rewrite firstn_length; lia). cbn [app skipn].
    rewrite firstn_app. rewrite firstn_length. replace (n - min n (length bs)) with 0 by lia. cbn [firstn].
    rewrite app_nil_r. rewrite firstn_firstn. f_equal. lia. }
  subst fits. split; [|split].
  - intros Hf. apply andb_true_iff in Hf. destruct Hf as [Hf1 Hf2]. apply negb_true_iff in Hf1. apply N.leb_le in Hf2.
    assert (He' : err w' = false) by (destruct (err w') eqn:E'; [specialize (Her Hf1 eq_refl); lia|reflexivity]).
    split; [assumption|]. specialize (Hok He'). subst n. split; [assumption|]. now rewrite Hcut, firstn_all.
  - intros Hf. split.
    + apply andb_false_iff in Hf. destruct (err w) eqn:Ew.
      * apply (Hst eq_refl).
      * destruct Hf as [Hf|Hf]; [discriminate|]. apply N.leb_gt in Hf.
        destruct (err w') eqn:Ew'; [reflexivity|]. specialize (Hok eq_refl). subst n. lia.
    + exists n. split; [lia|]. split; assumption.
  - intros He. destruct (Hst He) as [-> He']. cbn [firstn] in Hb. rewrite stored_nil in Hb.
    destruct w' as [b' p' e' a']. cbn [buf pos err asked] in *. subst. f_equal. lia.
Qed.

(* ---------- refutations ---------- *)

Lemma big_string_at s c post : N.of_nat (length s) = (2 ^ 32)%N -> inside c -> err c = false -> pos c = 0%N ->
  buf c = encode TStr (VStr s) ++ post ->
  exists c', read_binary TStr (VStr []) c = Ok (c', VStr []) /\ err c' = false.
Proof.
  intros Hs Hi He Hp Hb. cbn [encode] in Hb. rewrite Hs in Hb.
  change (number 4 (2 ^ 32)) with (number 4 0) in Hb. rewrite <- app_assoc in Hb.
  destruct (read_uint_exact 4 0 c [] (s ++ post)) as (c1 & E1 & Hm1); auto; [lia|].
  cbn [read_binary]. rewrite E1. cbn [obind]. exists c1. split; [reflexivity|]. apply Hm1.
Qed.

Lemma big_string_exists : exists s : list N, N.of_nat (length s) = (2 ^ 32)%N /\ Forall is_octet s.
Proof.
  exists (repeat 0%N (N.to_nat (2 ^ 32))). rewrite repeat_length. split; [apply N2Nat.id|].
  apply Forall_forall. intros x Hx. apply repeat_spec in Hx. subst x. reflexivity.
Qed.

Lemma big_string_refuted : exists s, Forall is_octet s /\
  forall c post, inside c -> err c = false -> pos c = 0%N -> buf c = encode TStr (VStr s) ++ post ->
    exists c', read_binary TStr (VStr []) c = Ok (c', VStr []) /\ err c' = false /\ VStr [] <> VStr s.
Proof.
  destruct big_string_exists as (s & Hs & Ho). exists s. split; [assumption|].
  intros c post Hi He Hp Hb. destruct (big_string_at s c post Hs Hi He Hp Hb) as (c' & E & He').
  exists c'. split; [assumption|]. split; [assumption|]. intros H. injection H as <-. cbn in Hs. lia.
Qed.

Lemma skip_lemma c off : inside c -> ptrdiff_ok off ->
  exists c', skip c off = Ok c' /\ buf c' = buf c /\ inside c' /\
    ((err c' = false <-> err c = false /\ (0 <= target c off <= Z.of_N (size_bytes c))%Z) /\
     (err c' = false -> Z.of_N (pos c') = target c off) /\
     (err c' = true -> pos c' = pos c)).
Proof.
  intros Hi Ho. destruct (skip_spec c off Hi Ho) as (c' & E & Hi' & Hb & H).
  exists c'. split; [assumption|]. split; [assumption|]. split; [assumption|]. unfold target.
  destruct (err c); cbn [negb andb] in H.
  - destruct H as [G1 G2]. rewrite G1. repeat split; auto; try discriminate; intuition discriminate.
  - destruct (Z.leb_spec 0 (Z.of_N (pos c) + off)); cbn [andb] in H.
    + destruct (Z.leb_spec (Z.of_N (pos c) + off) (Z.of_N (size_bytes c))); destruct H as [G1 G2]; rewrite G1;
        repeat split; auto; try discriminate; try lia; intros; lia.
    + destruct H as [G1 G2]; rewrite G1; repeat split; auto; try discriminate; try lia; intros; lia.
Qed.

Lemma sticky_lemma c : inside c -> err c = true ->
  (forall os, Forall op_ok os -> exists c', reader_run c os = Ok c' /\ err c' = true /\ pos c' = pos c /\ buf c' = buf c) /\
  (forall t old, read_into t old c = Ok (c, old, false)) /\
  (forall t, read_value t c = Ok (c, dflt t)) /\
  (forall t old, peek t old c = Ok (old, false)) /\
  (forall n mv, exists c', span c n mv = Ok (c', []) /\ err c' = true /\ pos c' = pos c) /\
  (forall l, Forall (fun tv => has_ty (fst tv) (snd tv)) l ->
     exists c', for_each (fun tv => write_binary (fst tv) (snd tv)) l c = Ok c' /\
       err c' = true /\ pos c' = pos c /\ buf c' = buf c).
Proof.
  intros Hi He. split; [|split; [|split; [|split; [|split]]]].
  - intros os Ho. destruct (reader_run_safe os c Hi Ho) as (c' & E & _ & Hb & S). destruct (S He). eauto.
  - intros t old. unfold read_into. now rewrite He.
  - intros t. unfold read_value. now rewrite He.
  - intros t old. unfold peek, peek_impl. now rewrite He.
  - intros n mv. destruct (span_spec c n mv Hi) as (c' & bs & E & _ & H). rewrite He in H. cbn in H.
    destruct H as (H1 & H2 & ->). eauto.
  - intros l Hl. destruct (writer_lemma l c Hl Hi) as (w' & E & _ & _ & _ & _ & _ & H).
    exists w'. split; [assumption|]. rewrite (H He). auto.
Qed.

Lemma bounds_lemma c os : inside c -> Forall op_ok os ->
  exists c', reader_run c os = Ok c' /\ buf c' = buf c /\ (pos c' <= size_bytes c)%N.
Proof.
  intros Hi Ho. destruct (reader_run_safe os c Hi Ho) as (c' & E & (H & _) & Hb & _).
  exists c'. split; [assumption|]. split; [assumption|]. unfold size_bytes in *. now rewrite <- Hb.
Qed.

Lemma typed_lemma t old c : wf_ty t -> has_ty t old -> inside c ->
  exists c' v, read_binary t old c = Ok (c', v) /\ has_ty t v.
Proof. intros Hw Hold Hi. destruct (read_safe t Hw old c Hi Hold) as (c' & v & E & _ & H & _). eauto. Qed.
