(** How much room the binary reader asks for. *)
From Coq Require Import List NArith ZArith Arith Bool Lia ZifyBool ZifyNat ZifyN.
From Verif Require Import Base BinModel BinSpec BinOrder BinProofs BinSafety EdgeSpec.
Import ListNotations.
Local Open Scope outcome_scope.
Arguments N.add : simpl never.
Arguments N.mul : simpl never.
Arguments N.sub : simpl never.
Arguments N.max : simpl never.

Definition cap : N := 4294967295.

(** From [c] to [c']: how far [asked] may rise. *)
Definition within (c c' : cursor) : Prop :=
  inside c' /\ buf c' = buf c /\ (pos c <= pos c')%N /\ (err c = true -> err c' = true) /\
  (asked c' <= N.max (asked c) cap)%N /\
  (err c' = false -> (asked c' <= N.max (asked c) (size_bytes c))%N).

Definition advanced (c c' : cursor) : Prop := err c' = false -> (pos c < pos c')%N.

Lemma within_refl c : inside c -> within c c.
Proof. intros H. unfold within. repeat split; auto; try apply H; lia. Qed.

Lemma size_eq c c' : buf c' = buf c -> size_bytes c' = size_bytes c.
Proof. unfold size_bytes. now intros ->. Qed.

Lemma within_trans a b c : within a b -> within b c -> within a c.
Proof.
  intros (I1 & B1 & P1 & E1 & M1 & S1) (I2 & B2 & P2 & E2 & M2 & S2).
  split; [assumption|]. split; [congruence|]. split; [lia|]. split; [auto|]. split; [lia|].
  intros H. assert (err b = false) by (destruct (err b); [rewrite E2 in H by reflexivity; discriminate|reflexivity]).
  specialize (S1 H0). specialize (S2 H). rewrite (size_eq _ _ B1) in S2. lia.
Qed.

Lemma err_back c c' : within c c' -> err c' = false -> err c = false.
Proof. intros (_ & _ & _ & E & _) H. destruct (err c); [rewrite E in H by reflexivity; discriminate|reflexivity]. Qed.

Lemma within_notify c : inside c -> within c (notify_error c).
Proof. intros H. unfold within. cbn. repeat split; auto; try apply H; try lia. Qed.

Lemma read_impl_within c n : inside c -> exists c' r, read_impl c n = Ok (c', r) /\ inside c' /\ buf c' = buf c /\
  (err c = true -> err c' = true) /\ asked c' = asked c /\ (pos c <= pos c')%N /\
  match r with Some _ => err c' = false /\ pos c' = (pos c + n)%N /\ (pos c + n <= size_bytes c)%N | None => err c' = true end.
Proof.
  intros Hi. destruct (read_impl_ok c n Hi) as (c2 & r2 & E2 & (S2 & _) & _).
  destruct (read_impl_cases c n Hi) as [(_ & E)|(He & Hle & bs & E & _ & Hl & Hb)]; rewrite E in E2 |- *; injection E2 as <- <-.
  - eexists _, _. split; [reflexivity|]. cbn. repeat split; auto; try apply Hi. lia.
  - eexists _, _. split; [reflexivity|]. cbn [buf err pos asked set_pos]. repeat split; auto; try apply S2. lia.
Qed.

Lemma read_uint_within w c : 1 <= w -> inside c -> exists c' n, read_uint w c = Ok (c', n) /\ within c c' /\ advanced c c' /\
  (err c' = true -> n = 0%N) /\ (n < 2 ^ (8 * N.of_nat w))%N /\ asked c' = asked c.
Proof.
  intros Hw Hi. destruct (read_uint_cases w c Hw Hi) as (c' & n & E & H1 & H2 & H3 & H4 & H5 & H6 & H7).
  exists c', n. split; [assumption|]. split; [|split; [|auto]].
  - unfold within. repeat split; auto; try apply H1; try lia. intros H. now apply H4.
  - intros He'. unfold read_uint in E. destruct (err c) eqn:Ec; [injection E as <- _; congruence|].
    destruct (read_impl_within c (N.of_nat w) Hi) as (c2 & r & E2 & _ & _ & _ & _ & _ & R). rewrite E2 in E. cbn [obind] in E.
    destruct r; injection E as <- _; [|congruence]. destruct R as (_ & -> & _). lia.
Qed.

Lemma nloop_within {R} (body : cursor * R -> outcome (cursor * R * bool)) :
  (forall c acc, inside c -> err c = false -> exists c' acc' b, body (c, acc) = Ok (c', acc', b) /\ within c c' /\
     if err c' then b = true else b = false /\ (pos c < pos c')%N) ->
  forall n c acc, inside c -> err c = false -> exists c' acc' b, nloop n body (c, acc) = Ok (c', acc', b) /\ within c c' /\
     (err c' = false -> (pos c + N.of_nat n <= pos c')%N).
Proof.
  intros Hb n. induction n as [|n IH]; intros c acc Hi He; cbn [nloop].
  - exists c, acc, false. split; [reflexivity|]. split; [now apply within_refl|]. intros _. lia.
  - destruct (Hb c acc Hi He) as (c1 & a1 & b1 & E1 & W1 & H1). rewrite E1. cbn [obind]. destruct (err c1) eqn:Ec1.
    + subst b1. exists c1, a1, true. split; [reflexivity|]. split; [assumption|]. congruence.
    + destruct H1 as (-> & Hp). destruct (IH c1 a1 (proj1 W1) Ec1) as (c2 & a2 & b2 & E2 & W2 & H2).
      exists c2, a2, b2. split; [assumption|]. split; [eapply within_trans; eauto|]. intros H. specialize (H2 H). lia.
Qed.

Definition frugal (t : ty) : Prop := forall old c, inside c -> has_ty t old ->
  exists c' v, read_binary t old c = Ok (c', v) /\ within c c' /\ advanced c c'.

Lemma item_within t c : wf_ty t -> frugal t -> inside c -> err c = false ->
  exists c' v, (if err c then Ok (c, dflt t) else read_binary t (dflt t) c) = Ok (c', v) /\ within c c' /\ advanced c c'.
Proof. intros Hw Hf Hi He. rewrite He. apply Hf; [assumption|now apply dflt_has_ty]. Qed.

Lemma asked_ask c n : asked (ask c n) = N.max n (asked c).
Proof. reflexivity. Qed.

(** A container that has been told to hold [n] elements and then got them. *)
Lemma after_ask c c1 n c2 : within c c1 -> asked c1 = asked c -> (n < 2 ^ (8 * N.of_nat 4))%N ->
  within (ask c1 n) c2 -> (err c2 = false -> (pos c1 + n <= pos c2)%N) -> within c c2.
Proof.
  intros W1 A1 Hn (I2 & B2 & P2 & E2 & M2 & S2) Hp. change (2 ^ (8 * N.of_nat 4))%N with 4294967296%N in Hn.
  destruct W1 as (I1 & B1 & P1 & E1 & M1 & S1). cbn [buf pos err] in *. rewrite asked_ask in *.
  split; [assumption|]. split; [cbn in B2; congruence|]. split; [cbn in P2; lia|]. split; [cbn in E2; auto|].
  split; [unfold cap in *; lia|].
  intros H. specialize (S2 H). specialize (Hp H). change (size_bytes (ask c1 n)) with (size_bytes c1) in S2.
  rewrite (size_eq _ _ B1) in S2. destruct I2 as (I2 & _). cbn in B2. rewrite (size_eq _ c2 B2), (size_eq _ _ B1) in I2. lia.
Qed.

Lemma solid_var ts : solid (TVar ts) -> Forall solid ts.
Proof. cbn. induction ts as [|t ts IH]; constructor; [apply H|apply IH, H]. Qed.

Lemma simple_width t : wf_ty t -> solid t -> is_simple t = true -> 1 <= width t.
Proof. intros Hw Hs E. destruct t; cbn in *; try discriminate; lia. Qed.

Lemma raw_frugal t : 1 <= width t -> forall old c, inside c ->
  exists c' v, read_raw t old c = Ok (c', v) /\ within c c' /\ advanced c c'.
Proof.
  intros Hw old c Hi. unfold read_raw. destruct (read_impl_within c (N.of_nat (width t)) Hi) as (c' & r & E & I & B & Er & A & P & R).
  rewrite E. cbn [obind]. assert (W : within c c') by (unfold within; repeat split; auto; try apply I; lia).
  destruct r; eexists _, _; (split; [reflexivity|]); (split; [assumption|]); intros H; [|congruence].
  destruct R as (_ & -> & _). lia.
Qed.

Lemma members_frugal ts : Forall (fun t => wf_ty t -> solid t -> frugal t) ts -> Forall wf_ty ts -> Forall solid ts ->
  forall olds c, inside c -> members_ty ts olds ->
  exists c' vs, read_members ts olds c = Ok (c', vs) /\ within c c' /\ (ts <> [] -> advanced c c').
Proof.
  induction 1 as [|t ts Ht _ IH]; intros Hw Hs olds c Hi Ho;
    destruct olds as [|o olds]; cbn [members_ty] in Ho; try contradiction; cbn [read_members].
  - exists c, []. split; [reflexivity|]. split; [now apply within_refl|]. intros H. now contradiction H.
  - inversion Hw as [|? ? Hw0 Hw']; inversion Hs as [|? ? Hs0 Hs']; subst. destruct Ho as [Ho0 Ho].
    destruct (Ht Hw0 Hs0 o c Hi Ho0) as (c1 & v & E1 & W1 & A1). rewrite E1. cbn [obind].
    destruct (IH Hw' Hs' olds c1 (proj1 W1) Ho) as (c2 & vs & E2 & W2 & A2). rewrite E2. cbn [obind].
    exists c2, (v :: vs). split; [reflexivity|]. split; [eapply within_trans; eauto|]. intros _ He.
    pose proof (A1 (err_back _ _ W2 He)) as P1.
    assert (P2 : (pos c1 <= pos c2)%N) by apply W2. lia.
Qed.

Lemma solid_rec ts : solid (TRec ts) -> ts <> [] /\ Forall solid ts.
Proof. cbn. intros [Hn H]. split; [assumption|]. clear Hn. induction ts as [|t ts IH]; constructor; [apply H|apply IH, H]. Qed.

Theorem reader_frugal t : wf_ty t -> solid t -> frugal t.
Proof.
  induction t as [o s w|s w| |t IH|k t IHk IH|t IH|a b IHa IHb|t IH|ts IH|ts IH] using ty_induct;
    intros Hw Hs old c Hi Hold; cbn [read_binary].
  - apply raw_frugal; [cbn in *; lia|assumption].
  - apply raw_frugal; [cbn in *; lia|assumption].
  - destruct (read_uint_within 4 c ltac:(lia) Hi) as (c1 & n & E1 & W1 & A1 & Z1 & B1 & K1). rewrite E1. cbn [obind].
    destruct (N.eqb_spec n 0) as [En|En]; [eexists _, _; split; [reflexivity|auto]|].
    destruct (read_impl_within (ask c1 n) n (proj1 W1)) as (c2 & r & E2 & I2 & Bf2 & Er2 & K2 & P2 & R2). rewrite E2. cbn [obind].
    assert (W2 : within (ask c1 n) c2) by (unfold within; repeat split; auto; try apply I2; lia).
    assert (W : within c c2).
    { apply (after_ask c c1 n c2); auto. intros H. destruct r; [|congruence]. cbn in R2. lia. }
    assert (A : advanced c c2).
    { intros H. pose proof (err_back _ _ W2 H) as H1. specialize (A1 H1). cbn in P2. lia. }
    destruct (err c2) eqn:Ec2; [|destruct r]; eexists _, _; (split; [reflexivity|auto]).
  - destruct (read_uint_within 4 c ltac:(lia) Hi) as (c1 & n & E1 & W1 & A1 & Z1 & B1 & K1). rewrite E1. cbn [obind].
    destruct (is_simple t) eqn:Es.
    + destruct (N.eqb_spec n 0) as [En|En]; [eexists _, _; split; [reflexivity|auto]|].
      destruct (read_impl_within (ask c1 n) (n * N.of_nat (width t)) (proj1 W1)) as (c2 & r & E2 & I2 & Bf2 & Er2 & K2 & P2 & R2). rewrite E2. cbn [obind].
      assert (W2 : within (ask c1 n) c2) by (unfold within; repeat split; auto; try apply I2; lia).
      pose proof (simple_width t Hw Hs Es) as Hwt.
      assert (W : within c c2).
      { apply (after_ask c c1 n c2); auto. intros H. destruct r; [|congruence]. cbn in R2. nia. }
      assert (A : advanced c c2).
      { intros H. pose proof (err_back _ _ W2 H) as H1. specialize (A1 H1). cbn in P2. lia. }
      destruct (err c2) eqn:Ec2; [|destruct r]; eexists _, _; (split; [reflexivity|auto]).
    + rewrite loop_nloop. match goal with |- context [nloop _ ?body _] => set (B := body) end.
      destruct (err c1) eqn:Ec1.
      { rewrite (Z1 eq_refl). cbn [N.to_nat nloop obind fst snd]. eexists _, _. split; [reflexivity|].
        assert (H0 : ask c1 0 = c1) by (destruct c1; unfold ask; cbn; now rewrite N.max_0_l). rewrite H0. split; [assumption|]. assumption. }
      destruct (nloop_within B) with (n := N.to_nat n) (c := ask c1 n) (acc := @nil val) as (c2 & acc & fl & E2 & W2 & H2); auto.
      * intros c0 acc0 Hi0 He0. unfold B.
        destruct (item_within t c0 Hw (IH Hw Hs) Hi0 He0) as (c3 & x & E3 & W3 & A3). rewrite E3. cbn [obind].
        destruct (err c3) eqn:Ec3; eexists _, _, _; (split; [reflexivity|]); (split; [assumption|]); rewrite Ec3; auto.
      * apply W1.
      * rewrite E2. cbn [obind fst snd]. eexists _, _. split; [reflexivity|].
        split; [apply (after_ask c c1 n c2); auto; intros H; specialize (H2 H); rewrite N2Nat.id in H2; assumption|].
        intros H. specialize (H2 H). cbn in H2. specialize (A1 Ec1). lia.
  - destruct Hw as [Hwk Hwt]. destruct Hs as [Hsk Hst].
    destruct (read_uint_within 4 c ltac:(lia) Hi) as (c1 & n & E1 & W1 & A1 & Z1 & B1 & K1). rewrite E1. cbn [obind].
    rewrite loop_nloop. match goal with |- context [nloop _ ?body _] => set (B := body) end.
    destruct (err c1) eqn:Ec1.
    { rewrite (Z1 eq_refl). cbn [N.to_nat nloop obind fst snd]. eexists _, _. split; [reflexivity|]. auto. }
    destruct (nloop_within B) with (n := N.to_nat n) (c := c1) (acc := @nil (val * val)) as (c2 & acc & fl & E2 & W2 & H2); auto; [|apply W1|].
    + intros c0 acc0 Hi0 He0. unfold B.
      destruct (item_within k c0 Hwk (IHk Hwk Hsk) Hi0 He0) as (c3 & x & E3 & W3 & A3). rewrite E3. cbn [obind].
      destruct (err c3) eqn:Ec3.
      * cbn [obind]. rewrite Ec3. eexists _, _, _. split; [reflexivity|]. split; [assumption|]. now rewrite Ec3.
      * destruct (item_within t c3 Hwt (IH Hwt Hst) (proj1 W3) Ec3) as (c4 & y & E4 & W4 & A4). rewrite Ec3 in E4. rewrite E4. cbn [obind].
        destruct (err c4) eqn:Ec4; eexists _, _, _; (split; [reflexivity|]); (split; [eapply within_trans; eauto|]); rewrite Ec4; auto.
        split; [reflexivity|]. specialize (A3 Ec3). specialize (A4 Ec4). lia.
    + rewrite E2. cbn [obind fst snd]. eexists _, _. split; [reflexivity|]. split; [eapply within_trans; eauto|].
      intros H. specialize (H2 H). specialize (A1 Ec1). lia.
  - destruct (read_uint_within 4 c ltac:(lia) Hi) as (c1 & n & E1 & W1 & A1 & Z1 & B1 & K1). rewrite E1. cbn [obind].
    rewrite loop_nloop. match goal with |- context [nloop _ ?body _] => set (B := body) end.
    destruct (err c1) eqn:Ec1.
    { rewrite (Z1 eq_refl). cbn [N.to_nat nloop obind fst snd]. eexists _, _. split; [reflexivity|]. auto. }
    destruct (nloop_within B) with (n := N.to_nat n) (c := c1) (acc := @nil val) as (c2 & acc & fl & E2 & W2 & H2); auto; [|apply W1|].
    + intros c0 acc0 Hi0 He0. unfold B.
      destruct (item_within t c0 Hw (IH Hw Hs) Hi0 He0) as (c3 & x & E3 & W3 & A3). rewrite E3. cbn [obind].
      destruct (err c3) eqn:Ec3; eexists _, _, _; (split; [reflexivity|]); (split; [assumption|]); rewrite Ec3; auto.
    + rewrite E2. cbn [obind fst snd]. eexists _, _. split; [reflexivity|]. split; [eapply within_trans; eauto|].
      intros H. specialize (H2 H). specialize (A1 Ec1). lia.
  - destruct Hw as [Hwa Hwb]. destruct Hs as [Hsa Hsb].
    destruct old as [| | | | | |x y| |]; cbn in Hold; try contradiction. destruct Hold as [Hx Hy].
    destruct (err c) eqn:Ec.
    { eexists _, _. split; [reflexivity|]. split; [now apply within_refl|]. intros H. congruence. }
    destruct (IHa Hwa Hsa x c Hi Hx) as (c1 & v1 & E1 & W1 & A1). rewrite E1. cbn [obind].
    destruct (err c1) eqn:Ec1; [eexists _, _; split; [reflexivity|auto]|].
    destruct (IHb Hwb Hsb y c1 (proj1 W1) Hy) as (c2 & v2 & E2 & W2 & A2). rewrite E2. cbn [obind].
    eexists _, _. split; [reflexivity|]. split; [eapply within_trans; eauto|].
    intros H. specialize (A1 Ec1). specialize (A2 H). lia.
  - destruct (read_uint_within 1 c ltac:(lia) Hi) as (c1 & n & E1 & W1 & A1 & Z1 & B1 & K1). rewrite E1. cbn [obind].
    destruct (negb (err c1) && negb (n =? 0)%N)%bool eqn:Eb; [|eexists _, _; split; [reflexivity|auto]].
    apply andb_true_iff in Eb. destruct Eb as [Eb _]. apply negb_true_iff in Eb.
    destruct (item_within t c1 Hw (IH Hw Hs) (proj1 W1) Eb) as (c3 & x & E3 & W3 & A3). rewrite E3. cbn [obind].
    eexists _, _. split; [reflexivity|]. split; [eapply within_trans; eauto|].
    intros H. specialize (A3 H). specialize (A1 Eb). lia.
  - apply wf_var in Hw. destruct Hw as [_ Hwf]. apply solid_var in Hs.
    destruct (read_uint_within 1 c ltac:(lia) Hi) as (c1 & n & E1 & W1 & A1 & Z1 & B1 & K1). rewrite E1. cbn [obind]. rewrite visit_spec.
    destruct (err c1) eqn:Ec1; [eexists _, _; split; [reflexivity|auto]|].
    destruct (nth_error ts (N.to_nat n)) as [t0|] eqn:Et.
    2:{ eexists _, _. split; [reflexivity|]. split; [eapply within_trans; [exact W1|apply within_notify, W1]|]. intros H. cbn in H. discriminate. }
    pose proof (nth_error_In _ _ Et) as Hin. rewrite Forall_forall in IH, Hwf, Hs.
    destruct (IH t0 Hin (Hwf t0 Hin) (Hs t0 Hin) (dflt t0) c1 (proj1 W1) (dflt_has_ty t0 (Hwf t0 Hin))) as (c2 & v2 & E2 & W2 & A2).
    rewrite E2. cbn [obind].
    assert (W : within c c2) by (eapply within_trans; eauto).
    assert (A : advanced c c2) by (intros H; specialize (A2 H); specialize (A1 Ec1); lia).
    destruct (err c2); eexists _, _; (split; [reflexivity|auto]).
  - destruct (has_ty_rec _ _ Hold) as (olds & -> & Ho). destruct (solid_rec _ Hs) as [Hn Hs'].
    destruct (members_frugal ts IH (wf_rec _ Hw) Hs' olds c Hi Ho) as (c' & vs & E & W & A).
    change (exists c0 v, (' (c1, vs0) <- read_members ts olds c ;; Ok (c1, VSeq vs0)) = Ok (c0, v) /\ within c c0 /\ advanced c c0).
    rewrite E. cbn [obind]. exists c', (VSeq vs). auto.
Qed.

Lemma frugal_lemma t old c c' v : wf_ty t -> solid t -> inside c -> has_ty t old -> read_binary t old c = Ok (c', v) ->
  (asked c' <= N.max (asked c) 4294967295)%N /\
  (err c' = false -> (asked c' <= N.max (asked c) (size_bytes c))%N /\ (pos c < pos c')%N).
Proof.
  intros Hw Hs Hi Ho E. destruct (reader_frugal t Hw Hs old c Hi Ho) as (c2 & v2 & E2 & W & A).
  assert (c2 = c') by congruence. subst c2. destruct W as (_ & _ & _ & _ & M & S). split; [exact M|]. intros H. auto.
Qed.
