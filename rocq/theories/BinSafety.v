(** Safety, stickiness, truncation and the writer. *)
From Coq Require Import List NArith ZArith Arith Bool Lia ZifyBool ZifyNat ZifyN.
From Verif Require Import Base BinModel BinSpec BinOrder BinProofs.
Import ListNotations.
Local Open Scope outcome_scope.
Ltac Zify.zify_post_hook ::= Z.div_mod_to_equations.
Arguments N.add : simpl never.
Arguments N.mul : simpl never.
Arguments N.sub : simpl never.
Arguments N.modulo : simpl never.

(* ---------- insertion ---------- *)

Lemma map_insert_keys m k v x : In x (map_insert m k v) -> x = (k, v) \/ In x m.
Proof.
  induction m as [|[k' v'] m IH]; cbn [map_insert]; [intros [<-|[]]; auto|].
  destruct (vcmp k k'); cbn [In]; intuition auto.
Qed.

Lemma set_insert_keys m k x : In x (set_insert m k) -> x = k \/ In x m.
Proof.
  induction m as [|k' m IH]; cbn [set_insert]; [intros [<-|[]]; auto|].
  destruct (vcmp k k'); cbn [In]; intuition auto.
Qed.

Lemma set_insert_increasing m k : increasing m -> increasing (set_insert m k).
Proof.
  induction m as [|k' m IH]; cbn [set_insert increasing]; [auto|].
  intros [H1 H2]. destruct (vcmp k k') eqn:E; cbn [increasing].
  - auto.
  - split; [|auto]. constructor; [assumption|]. eapply Forall_impl; [|exact H1].
    intros y Hy. eapply vcmp_trans; eauto.
  - split; [|auto]. apply Forall_forall. intros y Hy. apply set_insert_keys in Hy.
    rewrite Forall_forall in H1. destruct Hy as [-> |Hy]; [|auto].
    rewrite vcmp_anti, E. reflexivity.
Qed.

Lemma map_insert_fst m k v : map fst (map_insert m k v) = set_insert (map fst m) k.
Proof.
  induction m as [|[k' v'] m IH]; cbn [map_insert map set_insert fst]; [reflexivity|].
  destruct (vcmp k k'); cbn [map fst]; congruence.
Qed.

Lemma map_insert_increasing m k v : increasing (map fst m) -> increasing (map fst (map_insert m k v)).
Proof. rewrite map_insert_fst. apply set_insert_increasing. Qed.

Lemma set_insert_length m k : length (set_insert m k) <= S (length m).
Proof. induction m as [|k' m IH]; cbn [set_insert]; [cbn; lia|]. destruct (vcmp k k'); cbn [length]; lia. Qed.

Lemma map_insert_length m k v : length (map_insert m k v) <= S (length m).
Proof.
  rewrite <- (map_length fst (map_insert m k v)), map_insert_fst, <- (map_length fst m).
  apply set_insert_length.
Qed.

(* ---------- reading is safe ---------- *)

Definition step_ok (c c' : cursor) : Prop :=
  inside c' /\ buf c' = buf c /\ (pos c <= pos c')%N /\
  (err c = true -> err c' = true /\ pos c' = pos c).

Lemma step_ok_refl c : inside c -> step_ok c c.
Proof. intros Hi. repeat split; auto; try apply Hi. lia. Qed.

Lemma step_ok_trans a b c : step_ok a b -> step_ok b c -> step_ok a c.
Proof.
  intros (I1 & B1 & P1 & E1) (I2 & B2 & P2 & E2). split; [assumption|]. split; [congruence|]. split; [lia|].
  intros He. destruct (E1 He) as [He1 Hp1]. destruct (E2 He1) as [He2 Hp2]. split; congruence.
Qed.

Lemma inside_ask c n : inside c -> inside (ask c n).
Proof. auto. Qed.
Lemma inside_notify c : inside c -> inside (notify_error c).
Proof. auto. Qed.

Lemma step_ok_ask c n : inside c -> step_ok c (ask c n).
Proof. intros Hi. split; [now apply inside_ask|]. cbn. repeat split; auto. lia. Qed.

Lemma step_ok_notify c : inside c -> step_ok c (notify_error c).
Proof. intros Hi. split; [now apply inside_notify|]. cbn. repeat split; auto. lia. Qed.

Lemma read_impl_ok c n : inside c ->
  exists c' r, read_impl c n = Ok (c', r) /\ step_ok c c' /\
    match r with
    | Some bs => err c' = false /\ N.of_nat (length bs) = n /\ Forall is_octet bs
    | None => err c' = true
    end.
Proof.
  intros Hi. destruct (read_impl_cases c n Hi) as [(_ & E)|(He & Hle & bs & E & _ & Hl & Hb)]; rewrite E.
  - eexists _, _. split; [reflexivity|]. split; [now apply step_ok_notify|reflexivity].
  - eexists _, _. split; [reflexivity|]. split.
    + destruct Hi as (Hp & Hs & Hbb). repeat split; cbn [buf pos err set_pos]; auto; unfold size_bytes in *; cbn [buf set_pos]; try lia; congruence.
    + auto.
Qed.

Lemma read_uint_ok w c : 1 <= w -> inside c ->
  exists c' n, read_uint w c = Ok (c', n) /\ step_ok c c' /\
    (err c' = true -> n = 0%N) /\ (n < 2 ^ (8 * N.of_nat w))%N.
Proof.
  intros Hw Hi. destruct (read_uint_cases w c Hw Hi) as (c' & n & E & H1 & H2 & H3 & H4 & H5 & H6 & H7).
  exists c', n. split; [assumption|]. split; [exact (conj H1 (conj H2 (conj H3 H4)))|]; auto.
Qed.

Lemma of_repr_ty t bs : wf_ty t -> ((exists o s w, t = TInt o s w) \/ (exists s w, t = TRaw s w)) ->
  length bs = width t -> Forall is_octet bs -> has_ty t (of_repr t bs).
Proof.
  intros Hw [(o & s & w & ->)|(s & w & ->)] Hl Hb; cbn in *.
  - rewrite <- Hl. apply bytes_int_range; [lia|assumption].
  - auto.
Qed.

Lemma simple_shape t : is_simple t = true -> (exists o s w, t = TInt o s w) \/ (exists s w, t = TRaw s w).
Proof. destruct t; cbn; try discriminate; eauto. Qed.

Lemma chunks_length w : forall n (bs : list N), length bs = n * w -> Forall is_octet bs ->
  Forall (fun ch => length ch = w /\ Forall is_octet ch) (chunks n w bs) /\ length (chunks n w bs) = n.
Proof.
  induction n as [|n IH]; intros bs Hl Hb; cbn [chunks length]; [split; [constructor|reflexivity]|].
  assert (Hf : Forall is_octet (firstn w bs) /\ Forall is_octet (skipn w bs)).
  { rewrite <- (firstn_skipn w bs) in Hb. apply Forall_app in Hb. assumption. }
  destruct (IH (skipn w bs)) as [I1 I2].
  - rewrite skipn_length. lia.
  - apply Hf.
  - split; [|now rewrite I2]. constructor; [|assumption]. split; [|apply Hf]. rewrite firstn_length. lia.
Qed.

Definition read_result (t : ty) (c c' : cursor) (v : val) : Prop :=
  step_ok c c' /\ has_ty t v /\
  (err c' = true -> forall e, empty_container t = Some e -> v = e).

Lemma fits_le {A} (l : list A) n : (n < 2 ^ (8 * N.of_nat 4))%N -> length l <= N.to_nat n -> fits l.
Proof. intros H1 H2. unfold fits. change (8 * N.of_nat 4)%N with 32%N in H1. lia. Qed.

Lemma pick_prop (f : ty -> Prop) : forall ts i,
  (fix pick (ts : list ty) (i : nat) : Prop :=
     match ts, i with
     | t0 :: _, O => f t0
     | _ :: ts', S i' => pick ts' i'
     | [], _ => False
     end) ts i = match nth_error ts i with Some t0 => f t0 | None => False end.
Proof. apply (pick_ty f False). Qed.

Lemma members_safe ts : Forall (fun t => wf_ty t -> forall old c, inside c -> has_ty t old ->
    exists c' v, read_binary t old c = Ok (c', v) /\ read_result t c c' v) ts -> Forall wf_ty ts ->
  forall olds c, inside c -> members_ty ts olds ->
  exists c' vs, read_members ts olds c = Ok (c', vs) /\ step_ok c c' /\ members_ty ts vs.
Proof.
  induction 1 as [|t ts Ht _ IH]; intros Hw olds c Hi Ho;
    destruct olds as [|o olds]; cbn [members_ty] in Ho; try contradiction; cbn [read_members].
  - exists c, []. split; [reflexivity|]. split; [now apply step_ok_refl|exact I].
  - inversion Hw as [|? ? Hw0 Hw']; subst. destruct Ho as [Ho0 Ho].
    destruct (Ht Hw0 o c Hi Ho0) as (c1 & v & E1 & S1 & V1 & _). rewrite E1. cbn [obind].
    destruct (IH Hw' olds c1 (proj1 S1) Ho) as (c2 & vs & E2 & S2 & V2). rewrite E2. cbn [obind].
    exists c2, (v :: vs). split; [reflexivity|]. split; [eapply step_ok_trans; eauto|]. split; assumption.
Qed.

Lemma read_safe t : wf_ty t -> forall old c, inside c -> has_ty t old ->
  exists c' v, read_binary t old c = Ok (c', v) /\ read_result t c c' v.
Proof.
  induction t as [o s w|s w| |t IH|k t IHk IH|t IH|a b IHa IHb|t IH|ts IH|ts IH] using ty_induct;
    intros Hw old c Hi Hold; cbn [read_binary].
  - unfold read_raw. destruct (read_impl_ok c (N.of_nat (width (TInt o s w))) Hi) as (c' & r & E & Hs & Hr).
    rewrite E. cbn [obind]. destruct r as [bs|]; eexists _, _; (split; [reflexivity|]); split; auto; split; try discriminate; auto.
    apply of_repr_ty; eauto 7; try tauto. cbn [width] in *. lia.
  - unfold read_raw. destruct (read_impl_ok c (N.of_nat (width (TRaw s w))) Hi) as (c' & r & E & Hs & Hr).
    rewrite E. cbn [obind]. destruct r as [bs|]; eexists _, _; (split; [reflexivity|]); split; auto; split; try discriminate; auto.
    apply of_repr_ty; eauto 7; try tauto. cbn [width] in *. lia.
  - destruct (read_uint_ok 4 c ltac:(lia) Hi) as (c1 & n & E1 & S1 & Z1 & B1). rewrite E1. cbn [obind].
    destruct (N.eqb_spec n 0) as [En|En].
    + eexists _, _. split; [reflexivity|]. split; [assumption|]. split; [repeat constructor|]. cbn. congruence.
    + assert (Hi1 : inside (ask c1 n)) by apply S1.
      destruct (read_impl_ok (ask c1 n) n Hi1) as (c2 & r & E2 & S2 & R2). rewrite E2. cbn [obind].
      assert (S : step_ok c c2) by (eapply step_ok_trans; [eassumption|]; eapply step_ok_trans; [apply step_ok_ask, S1|eassumption]).
      destruct r as [bs|].
      * destruct R2 as (He & Hl & Hb). rewrite He. eexists _, _. split; [reflexivity|]. split; [assumption|]. split.
        -- cbn. split; [assumption|]. apply (fits_le _ n B1). lia.
        -- congruence.
      * rewrite R2. eexists _, _. split; [reflexivity|]. split; [assumption|]. split; [repeat constructor|]. cbn. congruence.
  - destruct (read_uint_ok 4 c ltac:(lia) Hi) as (c1 & n & E1 & S1 & Z1 & B1). rewrite E1. cbn [obind].
    destruct (is_simple t) eqn:Es.
    + destruct (N.eqb_spec n 0) as [En|En].
      * eexists _, _. split; [reflexivity|]. split; [assumption|]. split; [repeat constructor|]. cbn. congruence.
      * assert (Hi1 : inside (ask c1 n)) by apply S1.
        destruct (read_impl_ok (ask c1 n) (n * N.of_nat (width t)) Hi1) as (c2 & r & E2 & S2 & R2). rewrite E2. cbn [obind].
        assert (S : step_ok c c2) by (eapply step_ok_trans; [eassumption|]; eapply step_ok_trans; [apply step_ok_ask, S1|eassumption]).
        destruct r as [bs|].
        -- destruct R2 as (He & Hl & Hb). rewrite He. eexists _, _. split; [reflexivity|]. split; [assumption|].
           destruct (chunks_length (width t) (N.to_nat n) bs ltac:(lia) Hb) as [C1 C2]. split; [|congruence].
           cbn. split.
           ++ rewrite Forall_map. eapply Forall_impl; [|exact C1]. intros ch (Hc1 & Hc2).
              apply of_repr_ty; auto. now apply simple_shape.
           ++ apply (fits_le _ n B1). rewrite map_length. lia.
        -- rewrite R2. eexists _, _. split; [reflexivity|]. split; [assumption|]. split; [repeat constructor|]. cbn. congruence.
    + rewrite loop_nloop. match goal with |- context [nloop _ ?body _] => set (B := body) end.
      destruct (err c1) eqn:Ec1.
      * rewrite (Z1 eq_refl). cbn [N.to_nat nloop obind fst snd]. eexists _, _. split; [reflexivity|].
        split; [eapply step_ok_trans; [eassumption|apply step_ok_ask, S1]|]. split; [repeat constructor|]. cbn. congruence.
      * destruct (nloop_inv
          (fun i (st : cursor * list val) => step_ok c1 (fst st) /\ err (fst st) = false /\
             Forall (has_ty t) (snd st) /\ length (snd st) <= i)
          (fun st => step_ok c1 (fst st) /\ err (fst st) = true /\ snd st = []) B) with (n := N.to_nat n) (i := 0) (s := (ask c1 n, @nil val))
          as ([c2 acc] & b & E2 & R2).
        -- intros i [c0 acc] (S0 & He0 & Ha & Hl). unfold B. cbn [fst snd] in *. rewrite He0.
           destruct (IH Hw (dflt t) c0 ltac:(apply S0) ltac:(now apply dflt_has_ty)) as (c' & v & E & Sv & Tv & _).
           rewrite E. cbn [obind]. assert (S : step_ok c1 c') by (eapply step_ok_trans; eauto).
           destruct (err c') eqn:Ec'.
           ++ exists (c', []), true. split; [reflexivity|]. auto.
           ++ exists (c', acc ++ [v]), false. split; [reflexivity|]. cbn [fst snd]. rewrite app_length. cbn [length].
              split; [assumption|]. split; [assumption|]. split; [apply Forall_app; auto|lia].
        -- cbn. split; [apply step_ok_ask, S1|]. split; [assumption|]. split; [constructor|lia].
        -- rewrite E2. cbn [obind fst snd]. eexists _, _. split; [reflexivity|]. cbn [fst snd] in R2.
           split; [eapply step_ok_trans; [eassumption|]; destruct b; apply R2|].
           destruct b.
           ++ destruct R2 as (_ & _ & ->). split; [repeat constructor|]. cbn. congruence.
           ++ destruct R2 as (_ & He & Ha & Hl). split; [|congruence]. cbn. split; [assumption|]. apply (fits_le _ n B1). lia.
  - destruct Hw as [Hwk Hwt].
    destruct (read_uint_ok 4 c ltac:(lia) Hi) as (c1 & n & E1 & S1 & Z1 & B1). rewrite E1. cbn [obind].
    rewrite loop_nloop. match goal with |- context [nloop _ ?body _] => set (B := body) end.
    destruct (err c1) eqn:Ec1.
    + rewrite (Z1 eq_refl). cbn [N.to_nat nloop obind fst snd]. eexists _, _. split; [reflexivity|].
      split; [assumption|]. split; [repeat constructor|]. cbn. congruence.
    + destruct (nloop_inv
          (fun i (st : cursor * list (val * val)) => step_ok c1 (fst st) /\ err (fst st) = false /\
             Forall (fun kv => has_ty k (fst kv) /\ has_ty t (snd kv)) (snd st) /\
             increasing (map fst (snd st)) /\ length (snd st) <= i)
          (fun st => step_ok c1 (fst st) /\ err (fst st) = true /\ snd st = []) B) with (n := N.to_nat n) (i := 0) (s := (c1, @nil (val * val)))
          as ([c2 acc] & b & E2 & R2).
      * intros i [c0 acc] (S0 & He0 & Ha & Hinc & Hl). unfold B. cbn [fst snd] in *. rewrite He0.
        destruct (IHk Hwk (dflt k) c0 ltac:(apply S0) ltac:(now apply dflt_has_ty)) as (c' & v & E & Sv & Tv & _).
        rewrite E. cbn [obind]. assert (S : step_ok c1 c') by (eapply step_ok_trans; eauto).
        destruct (err c') eqn:Ec'.
        -- cbn [obind]. rewrite Ec'. exists (c', []), true. split; [reflexivity|]. auto.
        -- destruct (IH Hwt (dflt t) c' ltac:(apply S) ltac:(now apply dflt_has_ty)) as (c'' & u & E' & Su & Tu & _).
           rewrite E'. cbn [obind]. assert (S' : step_ok c1 c'') by (eapply step_ok_trans; eauto).
           destruct (err c'') eqn:Ec''.
           ++ exists (c'', []), true. split; [reflexivity|]. auto.
           ++ exists (c'', map_insert acc v u), false. split; [reflexivity|]. cbn [fst snd].
              split; [assumption|]. split; [assumption|]. split.
              { apply Forall_forall. intros x Hx. apply map_insert_keys in Hx. rewrite Forall_forall in Ha.
                destruct Hx as [-> |Hx]; auto. }
              split; [now apply map_insert_increasing|]. pose proof (map_insert_length acc v u). lia.
      * cbn. split; [apply step_ok_refl, S1|]. split; [assumption|]. split; [constructor|]. split; [exact I|lia].
      * rewrite E2. cbn [obind fst snd]. eexists _, _. split; [reflexivity|]. cbn [fst snd] in R2.
        split; [eapply step_ok_trans; [eassumption|]; destruct b; apply R2|].
        destruct b.
        -- destruct R2 as (_ & _ & ->). split; [repeat constructor|]. cbn. congruence.
        -- destruct R2 as (_ & He & Ha & Hinc & Hl). split; [|congruence]. cbn.
           split; [assumption|]. split; [assumption|]. apply (fits_le _ n B1). lia.
  - destruct (read_uint_ok 4 c ltac:(lia) Hi) as (c1 & n & E1 & S1 & Z1 & B1). rewrite E1. cbn [obind].
    rewrite loop_nloop. match goal with |- context [nloop _ ?body _] => set (B := body) end.
    destruct (err c1) eqn:Ec1.
    + rewrite (Z1 eq_refl). cbn [N.to_nat nloop obind fst snd]. eexists _, _. split; [reflexivity|].
      split; [assumption|]. split; [repeat constructor|]. cbn. congruence.
    + destruct (nloop_inv
          (fun i (st : cursor * list val) => step_ok c1 (fst st) /\ err (fst st) = false /\
             Forall (has_ty t) (snd st) /\ increasing (snd st) /\ length (snd st) <= i)
          (fun st => step_ok c1 (fst st) /\ err (fst st) = true /\ snd st = []) B) with (n := N.to_nat n) (i := 0) (s := (c1, @nil val))
          as ([c2 acc] & b & E2 & R2).
      * intros i [c0 acc] (S0 & He0 & Ha & Hinc & Hl). unfold B. cbn [fst snd] in *. rewrite He0.
        destruct (IH Hw (dflt t) c0 ltac:(apply S0) ltac:(now apply dflt_has_ty)) as (c' & v & E & Sv & Tv & _).
        rewrite E. cbn [obind]. assert (S : step_ok c1 c') by (eapply step_ok_trans; eauto).
        destruct (err c') eqn:Ec'.
        -- exists (c', []), true. split; [reflexivity|]. auto.
        -- exists (c', set_insert acc v), false. split; [reflexivity|]. cbn [fst snd].
           split; [assumption|]. split; [assumption|]. split.
           { apply Forall_forall. intros x Hx. apply set_insert_keys in Hx. rewrite Forall_forall in Ha.
             destruct Hx as [-> |Hx]; auto. }
           split; [now apply set_insert_increasing|]. pose proof (set_insert_length acc v). lia.
      * cbn. split; [apply step_ok_refl, S1|]. split; [assumption|]. split; [constructor|]. split; [exact I|lia].
      * rewrite E2. cbn [obind fst snd]. eexists _, _. split; [reflexivity|]. cbn [fst snd] in R2.
        split; [eapply step_ok_trans; [eassumption|]; destruct b; apply R2|].
        destruct b.
        -- destruct R2 as (_ & _ & ->). split; [repeat constructor|]. cbn. congruence.
        -- destruct R2 as (_ & He & Ha & Hinc & Hl). split; [|congruence]. cbn.
           split; [assumption|]. split; [assumption|]. apply (fits_le _ n B1). lia.
  - destruct Hw as [Hwa Hwb]. destruct old as [| | | | | |x y| |]; cbn in Hold; try contradiction. destruct Hold as [Hx Hy].
    destruct (err c) eqn:Ec.
    + eexists _, _. split; [reflexivity|]. split; [now apply step_ok_refl|]. split; [cbn; auto|]. discriminate.
    + destruct (IHa Hwa x c Hi Hx) as (c1 & v1 & E1 & S1 & T1 & _). rewrite E1. cbn [obind].
      destruct (err c1) eqn:Ec1.
      * eexists _, _. split; [reflexivity|]. split; [assumption|]. split; [cbn; auto|]. discriminate.
      * destruct (IHb Hwb y c1 ltac:(apply S1) Hy) as (c2 & v2 & E2 & S2 & T2 & _). rewrite E2. cbn [obind].
        eexists _, _. split; [reflexivity|]. split; [eapply step_ok_trans; eauto|]. split; [cbn; auto|]. discriminate.
  - destruct (read_uint_ok 1 c ltac:(lia) Hi) as (c1 & n & E1 & S1 & Z1 & B1). rewrite E1. cbn [obind].
    destruct (negb (err c1) && negb (n =? 0)%N) eqn:Eb.
    + apply andb_true_iff in Eb. destruct Eb as [Eb _]. apply negb_true_iff in Eb. rewrite Eb.
      destruct (IH Hw (dflt t) c1 ltac:(apply S1) ltac:(now apply dflt_has_ty)) as (c' & v & E & Sv & Tv & _).
      rewrite E. cbn [obind]. eexists _, _. split; [reflexivity|]. split; [eapply step_ok_trans; eauto|]. split; [exact Tv|]. discriminate.
    + eexists _, _. split; [reflexivity|]. split; [assumption|]. split; [exact I|]. discriminate.
  - apply wf_var in Hw. destruct Hw as [Hlen Hwf].
    destruct (read_uint_ok 1 c ltac:(lia) Hi) as (c1 & n & E1 & S1 & Z1 & B1). rewrite E1. cbn [obind]. rewrite visit_spec.
    destruct (err c1) eqn:Ec1.
    + eexists _, _. split; [reflexivity|]. split; [assumption|]. split; [assumption|]. discriminate.
    + destruct (nth_error ts (N.to_nat n)) as [t0|] eqn:Et.
      * pose proof (nth_error_In _ _ Et) as Hin. rewrite Forall_forall in IH, Hwf.
        destruct (IH t0 Hin (Hwf t0 Hin) (dflt t0) c1 ltac:(apply S1) ltac:(apply dflt_has_ty; auto)) as (c' & v & E & Sv & Tv & _).
        rewrite E. cbn [obind]. assert (S : step_ok c c') by (eapply step_ok_trans; eauto).
        destruct (err c') eqn:Ec'.
        -- eexists _, _. split; [reflexivity|]. split; [assumption|]. split; [assumption|]. discriminate.
        -- eexists _, _. split; [reflexivity|]. split; [assumption|]. split; [|discriminate].
           cbn [has_ty]. rewrite pick_prop. cbn [plus]. now rewrite Et.
      * eexists _, _. split; [reflexivity|].
        split; [eapply step_ok_trans; [eassumption|apply step_ok_notify, S1]|]. split; [assumption|]. discriminate.
  - destruct (has_ty_rec _ _ Hold) as (olds & -> & Ho).
    destruct (members_safe ts IH (wf_rec _ Hw) olds c Hi Ho) as (c' & vs & E & S & V).
    change (exists c0 v, (' (c1, vs0) <- read_members ts olds c ;; Ok (c1, VSeq vs0)) = Ok (c0, v) /\ read_result (TRec ts) c c0 v).
    rewrite E. cbn [obind]. exists c', (VSeq vs). split; [reflexivity|]. split; [exact S|]. split; [exact V|]. intros _ e He. discriminate.
Qed.

(* ---------- the other reader operations ---------- *)


Lemma skip_spec c off : inside c -> ptrdiff_ok off ->
  exists c', skip c off = Ok c' /\ inside c' /\ buf c' = buf c /\
    if (negb (err c) && (0 <=? Z.of_N (pos c) + off) && (Z.of_N (pos c) + off <=? Z.of_N (size_bytes c)))%Z%bool
    then err c' = false /\ Z.of_N (pos c') = (Z.of_N (pos c) + off)%Z
    else err c' = true /\ pos c' = pos c.
Proof.
  intros Hi Ho. unfold ptrdiff_ok in Ho. change (2 ^ 63)%Z with 9223372036854775808%Z in Ho.
  pose proof (left_inside c Hi) as HL. pose proof Hi as (Hp & Hs & Hb).
  change (2 ^ 63)%N with 9223372036854775808%N in Hs.
  unfold skip. rewrite HL.
  assert (Hmod : (0 <= Z.of_N (pos c) + off <= Z.of_N (size_bytes c))%Z ->
     ((Z.of_N (pos c) + off) mod Z.of_N size_modulus = Z.of_N (pos c) + off)%Z).
  { intros H. apply Z.mod_small. unfold size_modulus. lia. }
  destruct (Z.ltb_spec 0 off) as [Hpos|Hpos]; cbn [andb].
  - destruct (Z.ltb_spec off 0); [lia|].
    destruct (N.ltb_spec (size_bytes c - pos c) (Z.to_N off)) as [Hlt|Hge].
    + cbn [err notify_error]. eexists. split; [reflexivity|]. split; [now apply inside_notify|]. split; [reflexivity|].
      destruct (Z.leb_spec (Z.of_N (pos c) + off) (Z.of_N (size_bytes c))); [lia|]. rewrite andb_false_r. auto.
    + destruct (err c) eqn:He.
      * eexists. split; [reflexivity|]. split; [assumption|]. split; [reflexivity|]. cbn. auto.
      * eexists. split; [reflexivity|]. rewrite Hmod by lia. cbn [negb andb].
        split.
        { unfold inside, size_bytes. cbn [buf pos set_pos]. unfold size_bytes in *.
          change (2 ^ 63)%N with 9223372036854775808%N. repeat split; auto; lia. }
        split; [reflexivity|].
        destruct (Z.leb_spec 0 (Z.of_N (pos c) + off)); [|lia].
        destruct (Z.leb_spec (Z.of_N (pos c) + off) (Z.of_N (size_bytes c))); [|lia]. cbn. split; [assumption|lia].
  - destruct (Z.ltb_spec off 0) as [Hneg|Hneg].
    + unfold ptrdiff_min. destruct (Z.eqb_spec off (-9223372036854775808)); [lia|].
      destruct (N.ltb_spec (pos c) (Z.to_N (- off))) as [Hlt|Hge].
      * cbn [err notify_error]. eexists. split; [reflexivity|]. split; [now apply inside_notify|]. split; [reflexivity|].
        destruct (Z.leb_spec 0 (Z.of_N (pos c) + off)); [lia|]. rewrite andb_false_r. cbn. auto.
      * destruct (err c) eqn:He.
        -- eexists. split; [reflexivity|]. split; [assumption|]. split; [reflexivity|]. cbn. auto.
        -- eexists. split; [reflexivity|]. rewrite Hmod by lia. cbn [negb andb].
           split.
           { unfold inside, size_bytes. cbn [buf pos set_pos]. unfold size_bytes in *.
             change (2 ^ 63)%N with 9223372036854775808%N. repeat split; auto; lia. }
           split; [reflexivity|].
           destruct (Z.leb_spec 0 (Z.of_N (pos c) + off)); [|lia].
           destruct (Z.leb_spec (Z.of_N (pos c) + off) (Z.of_N (size_bytes c))); [|lia]. cbn. split; [assumption|lia].
    + assert (off = 0)%Z by lia. subst off. rewrite Z.add_0_r in *.
      destruct (err c) eqn:He.
      * eexists. split; [reflexivity|]. split; [assumption|]. split; [reflexivity|]. cbn. auto.
      * eexists. split; [reflexivity|]. rewrite Hmod by lia. rewrite N2Z.id. cbn [negb andb].
        split; [exact Hi|]. split; [reflexivity|].
        destruct (Z.leb_spec 0 (Z.of_N (pos c))); [|lia].
        destruct (Z.leb_spec (Z.of_N (pos c)) (Z.of_N (size_bytes c))); [|lia]. cbn. auto.
Qed.

Lemma span_spec c count mv : inside c ->
  exists c' bs, span c count mv = Ok (c', bs) /\ step_ok c c' /\
    if (negb (err c) && (count <=? size_bytes c - pos c)%N)%bool
    then err c' = false /\ pos c' = (if mv then pos c + count else pos c)%N /\
         bs = firstn (N.to_nat count) (skipn (N.to_nat (pos c)) (buf c)) /\ N.of_nat (length bs) = count
    else err c' = true /\ pos c' = pos c /\ bs = [].
Proof.
  intros Hi. unfold span. rewrite (left_inside c Hi).
  pose proof Hi as (Hp & Hs & Hb). change (2 ^ 63)%N with 9223372036854775808%N in Hs.
  destruct (N.ltb_spec (size_bytes c - pos c) count) as [Hlt|Hge].
  - cbn [err notify_error]. eexists _, _. split; [reflexivity|]. split; [now apply step_ok_notify|].
    destruct (N.leb_spec count (size_bytes c - pos c)); [lia|]. rewrite andb_false_r. auto.
  - destruct (N.leb_spec count (size_bytes c - pos c)); [|lia]. rewrite andb_true_r.
    destruct (err c) eqn:He; cbn [negb].
    + eexists _, _. split; [reflexivity|]. split; [now apply step_ok_refl|]. auto.
    + unfold copy_out. fold (size_bytes c). destruct (N.ltb_spec (size_bytes c) (pos c + count)); [lia|]. cbn [obind].
      eexists _, _. split; [reflexivity|].
      assert (Hm : ((pos c + count) mod size_modulus = pos c + count)%N) by (apply N.mod_small; unfold size_modulus; lia).
      split.
      * destruct mv; [|now apply step_ok_refl]. rewrite Hm.
        repeat split; cbn [buf pos err set_pos]; unfold size_bytes in *; cbn [buf set_pos]; auto; try lia; congruence.
      * split; [destruct mv; assumption|]. split; [destruct mv; [exact Hm|reflexivity]|]. split; [reflexivity|].
        unfold size_bytes in *. rewrite firstn_length, skipn_length. lia.
Qed.

Lemma peek_safe t old c : inside c -> exists r, peek t old c = Ok r.
Proof.
  intros Hi. unfold peek. destruct (read_impl_cases c (N.of_nat (width t)) Hi) as [(_ & E)|(_ & _ & bs & E & _)];
    unfold read_impl in E; destruct (peek_impl c (N.of_nat (width t))) as [[r|]| |]; cbn [obind] in *; try discriminate; eauto.
Qed.

Lemma reader_step_safe c o : inside c -> op_ok o ->
  exists c', reader_step c o = Ok c' /\ inside c' /\ buf c' = buf c /\
    (err c = true -> err c' = true /\ pos c' = pos c).
Proof.
  intros Hi Ho. destruct o as [t old|t old|t|off|n mv|]; cbn [reader_step op_ok] in *.
  - destruct Ho as [Hw Hold]. unfold read_into. destruct (err c) eqn:He.
    + cbn [obind]. exists c. auto.
    + destruct (read_safe t Hw old c Hi Hold) as (c' & v & E & (H1 & H2 & H3 & H4) & _).
      rewrite E. cbn [obind]. exists c'. repeat split; auto; try apply H1; discriminate.
  - destruct Ho as [Hw Hold].
    destruct (read_safe t Hw old c Hi Hold) as (c' & v & E & (H1 & H2 & H3 & H4) & _).
    rewrite E. cbn [obind]. exists c'. auto.
  - destruct (peek_safe t (dflt t) c Hi) as [r E]. rewrite E. cbn [obind]. exists c. auto.
  - destruct (skip_spec c off Hi Ho) as (c' & E & H1 & H2 & H3). exists c'. split; [assumption|].
    split; [assumption|]. split; [assumption|]. intros He. rewrite He in H3. cbn in H3. auto.
  - destruct (span_spec c n mv Hi) as (c' & bs & E & (H1 & H2 & H3 & H4) & _). rewrite E. cbn [obind]. exists c'. auto.
  - exists (notify_error c). split; [reflexivity|]. split; [now apply inside_notify|]. auto.
Qed.

Lemma reader_run_safe os : forall c, inside c -> Forall op_ok os ->
  exists c', reader_run c os = Ok c' /\ inside c' /\ buf c' = buf c /\
    (err c = true -> err c' = true /\ pos c' = pos c).
Proof.
  induction os as [|o os IH]; intros c Hi Ho; cbn [reader_run].
  - exists c. auto.
  - inversion Ho; subst. destruct (reader_step_safe c o Hi) as (c1 & E & I1 & B1 & S1); [assumption|].
    rewrite E. cbn [obind]. destruct (IH c1 I1) as (c2 & E2 & I2 & B2 & S2); [assumption|].
    exists c2. split; [assumption|]. split; [assumption|]. split; [congruence|].
    intros He. destruct (S1 He) as [He1 Hp1]. destruct (S2 He1). split; congruence.
Qed.

(* ---------- truncation ---------- *)

Definition extend (c : cursor) (x : list N) : cursor := mkcursor (buf c ++ x) (pos c) (err c) (asked c).

Definition can_extend (c : cursor) (x : list N) : Prop := inside c /\ inside (extend c x).

Lemma can_extend_step c c' x : can_extend c x -> step_ok c c' -> can_extend c' x.
Proof.
  intros (H1 & H2) (I & B & P & _). split; [assumption|].
  destruct I as (I1 & I2 & I3). destruct H2 as (H2 & H3 & H4).
  unfold inside, size_bytes, extend in *. cbn [buf pos] in *. rewrite B in *.
  repeat split; auto. rewrite app_length in *. lia.
Qed.

Lemma read_impl_ext c x n c' r : can_extend c x -> read_impl c n = Ok (c', r) -> err c' = false ->
  read_impl (extend c x) n = Ok (extend c' x, r).
Proof.
  intros (Hi & Hix) E He.
  destruct (read_impl_cases c n Hi) as [(_ & E1)|(Hec & Hle & bs & E1 & Hbs & _ & _)]; rewrite E1 in E.
  - injection E as <- <-. discriminate He.
  - injection E as <- <-.
    destruct (read_impl_cases (extend c x) n Hix) as [(Hd & _)|(_ & Hle' & bs' & E' & Hbs' & _ & _)].
    + exfalso. cbn [err extend pos] in Hd. destruct Hd as [Hd|Hd]; [congruence|].
      unfold size_bytes, extend in *. cbn [buf] in *. rewrite app_length in Hd. lia.
    + rewrite E'. f_equal. f_equal. f_equal. rewrite Hbs, Hbs'. cbn [buf pos extend].
      unfold size_bytes in *. rewrite skipn_app, firstn_app. rewrite skipn_length.
      replace (N.to_nat n - (length (buf c) - N.to_nat (pos c))) with 0 by lia. cbn [firstn]. now rewrite app_nil_r.
Qed.

Lemma read_uint_ext c x w c' n : can_extend c x -> read_uint w c = Ok (c', n) -> err c' = false ->
  read_uint w (extend c x) = Ok (extend c' x, n).
Proof.
  intros Hx E He. unfold read_uint in *. cbn [err extend]. destruct (err c).
  - injection E as <- <-. reflexivity.
  - destruct (read_impl c (N.of_nat w)) as [[c1 r]| |] eqn:E1; cbn [obind] in E; try discriminate.
    destruct r as [bs|]; injection E as <- <-.
    + rewrite (read_impl_ext c x _ _ _ Hx E1 He). reflexivity.
    + rewrite (read_impl_ext c x _ _ _ Hx E1 He). reflexivity.
Qed.

Definition ext_st {R} (x : list N) (st : cursor * R) : cursor * R := (extend (fst st) x, snd st).

Lemma nloop_ext {R} x (body : cursor * R -> outcome (cursor * R * bool)) :
  (forall st st' b, can_extend (fst st) x -> body st = Ok (st', b) ->
      step_ok (fst st) (fst st') /\ (b = true -> err (fst st') = true) /\
      (err (fst st') = false -> body (ext_st x st) = Ok (ext_st x st', b))) ->
  forall n st st' b, can_extend (fst st) x -> nloop n body st = Ok (st', b) -> err (fst st') = false ->
    nloop n body (ext_st x st) = Ok (ext_st x st', b).
Proof.
  intros Hbody. 
  assert (Hstep : forall n st st' b, can_extend (fst st) x -> nloop n body st = Ok (st', b) -> step_ok (fst st) (fst st')).
  { induction n as [|n IH]; intros st st' b Hx E; cbn [nloop] in E.
    - injection E as <- <-. apply step_ok_refl, Hx.
    - destruct (body st) as [[st1 b1]| |] eqn:E1; cbn [obind] in E; try discriminate.
      destruct (Hbody st st1 b1 Hx E1) as (S1 & _ & _). destruct b1.
      + injection E as <- <-. assumption.
      + eapply step_ok_trans; [eassumption|]. eapply IH; [|eassumption]. eapply can_extend_step; eauto. }
  induction n as [|n IH]; intros st st' b Hx E He; cbn [nloop] in *.
  - injection E as <- <-. reflexivity.
  - destruct (body st) as [[st1 b1]| |] eqn:E1; cbn [obind] in E; try discriminate.
    destruct (Hbody st st1 b1 Hx E1) as (S1 & Hb1 & Hx1).
    destruct b1.
    + injection E as <- <-. rewrite (Hb1 eq_refl) in He. discriminate.
    + assert (He1 : err (fst st1) = false).
      { destruct (err (fst st1)) eqn:Ee; [|reflexivity].
        pose proof (Hstep n st1 st' b (can_extend_step _ _ _ Hx S1) E) as (_ & _ & _ & Hs).
        destruct (Hs Ee). congruence. }
      rewrite (Hx1 He1). cbn [obind]. apply IH; auto. eapply can_extend_step; eauto.
Qed.

Lemma extend_ask c n x : ask (extend c x) n = extend (ask c n) x.
Proof. reflexivity. Qed.

Ltac inv_bind E :=
  match type of E with
  | obind ?m _ = Ok _ => let r := fresh "r" in let E' := fresh "E" in
      destruct m as [r| |] eqn:E'; cbn [obind] in E; [|discriminate|discriminate]
  end.

(** [r.read<T>()] inside loops. *)
Lemma read_item_ext t x c c' v :
  wf_ty t ->
  (forall old c, can_extend c x -> has_ty t old -> forall c' v, read_binary t old c = Ok (c', v) ->
     err c' = false -> read_binary t old (extend c x) = Ok (extend c' x, v)) ->
  can_extend c x ->
  (if err c then Ok (c, dflt t) else read_binary t (dflt t) c) = Ok (c', v) ->
  step_ok c c' /\
  (err c' = false ->
   (if err (extend c x) then Ok (extend c x, dflt t) else read_binary t (dflt t) (extend c x)) = Ok (extend c' x, v)).
Proof.
  intros Hw IH Hx E. cbn [err extend]. destruct (err c) eqn:He.
  - injection E as <- <-. split; [apply step_ok_refl, Hx|reflexivity].
  - destruct (read_safe t Hw (dflt t) c ltac:(apply Hx) ltac:(now apply dflt_has_ty)) as (c2 & v2 & E2 & S2 & _).
    assert (c2 = c' /\ v2 = v) as [-> ->] by (split; congruence).
    split; [assumption|]. intros He'. apply IH; auto. now apply dflt_has_ty.
Qed.

Lemma err_false_before c c' : step_ok c c' -> err c' = false -> err c = false.
Proof. intros (_ & _ & _ & S) He. destruct (err c); [|reflexivity]. destruct (S eq_refl). congruence. Qed.

Lemma members_ext x ts : Forall (fun t => wf_ty t -> forall old c, can_extend c x -> has_ty t old ->
    forall c' v, read_binary t old c = Ok (c', v) -> err c' = false ->
    read_binary t old (extend c x) = Ok (extend c' x, v)) ts -> Forall wf_ty ts ->
  forall olds c c' vs, can_extend c x -> members_ty ts olds -> read_members ts olds c = Ok (c', vs) -> err c' = false ->
  read_members ts olds (extend c x) = Ok (extend c' x, vs).
Proof.
  induction 1 as [|t ts Ht _ IH]; intros Hw olds c c' vs Hx Ho E He;
    destruct olds as [|o olds]; cbn [members_ty] in Ho; try contradiction; cbn [read_members] in *.
  - now injection E as <- <-.
  - inversion Hw as [|? ? Hw0 Hw']; subst. destruct Ho as [Ho0 Ho].
    destruct (read_safe t Hw0 o c ltac:(apply Hx) Ho0) as (c1 & v & E1 & S1 & _). rewrite E1 in E. cbn [obind] in E.
    destruct (members_safe ts) with (olds := olds) (c := c1) as (c2 & ws & E2 & S2 & _); auto.
    { rewrite Forall_forall. intros u _ Hu. exact (read_safe u Hu). } { apply S1. }
    rewrite E2 in E. cbn [obind] in E. injection E as <- <-.
    rewrite (Ht Hw0 o c Hx Ho0 c1 v E1 (err_false_before _ _ S2 He)). cbn [obind].
    rewrite (IH Hw' olds c1 c2 ws (can_extend_step _ _ _ Hx S1) Ho E2 He). reflexivity.
Qed.

Lemma read_ext x t : wf_ty t -> forall old c, can_extend c x -> has_ty t old ->
  forall c' v, read_binary t old c = Ok (c', v) -> err c' = false ->
  read_binary t old (extend c x) = Ok (extend c' x, v).
Proof.
  induction t as [o s w|s w| |t IH|k t IHk IH|t IH|a b IHa IHb|t IH|ts IH|ts IH] using ty_induct;
    intros Hw old c Hx Hold c' v E He; cbn [read_binary] in *.
  - unfold read_raw in *. inv_bind E. destruct r as [c1 r]. destruct r; injection E as <- <-;
    rewrite (read_impl_ext c x _ _ _ Hx E0 He); reflexivity.
  - unfold read_raw in *. inv_bind E. destruct r as [c1 r]. destruct r; injection E as <- <-;
    rewrite (read_impl_ext c x _ _ _ Hx E0 He); reflexivity.
  - destruct (read_uint_ok 4 c ltac:(lia) ltac:(apply Hx)) as (c1 & n & E1 & S1 & _ & _). rewrite E1 in E. cbn [obind] in E.
    destruct (N.eqb_spec n 0) as [En|En].
    + injection E as <- <-. rewrite (read_uint_ext c x 4 _ _ Hx E1 He). cbn [obind]. subst n. reflexivity.
    + assert (Hx1 : can_extend (ask c1 n) x) by (eapply can_extend_step; [eapply can_extend_step; eauto|apply step_ok_ask, S1]).
      destruct (read_impl_ok (ask c1 n) n ltac:(apply Hx1)) as (c2 & r & E2 & S2 & R2). rewrite E2 in E. cbn [obind] in E.
      assert (He2 : err c2 = false) by (destruct (err c2) eqn:Ee; [injection E as <- <-; congruence|reflexivity]).
      assert (He1 : err c1 = false) by (change (err c1) with (err (ask c1 n)); eapply err_false_before; eauto).
      rewrite (read_uint_ext c x 4 _ _ Hx E1 He1). cbn [obind].
      destruct (N.eqb_spec n 0); [congruence|]. rewrite extend_ask, (read_impl_ext _ x _ _ _ Hx1 E2 He2). cbn [obind].
      cbn [err extend]. rewrite He2 in *. destruct r; injection E as <- <-; reflexivity.
  - destruct (read_uint_ok 4 c ltac:(lia) ltac:(apply Hx)) as (c1 & n & E1 & S1 & Z1 & _). rewrite E1 in E. cbn [obind] in E.
    assert (Hx1 : can_extend (ask c1 n) x) by (eapply can_extend_step; [eapply can_extend_step; eauto|apply step_ok_ask, S1]).
    destruct (is_simple t) eqn:Es.
    + destruct (N.eqb_spec n 0) as [En|En].
      * injection E as <- <-. rewrite (read_uint_ext c x 4 _ _ Hx E1 He). cbn [obind]. subst n. reflexivity.
      * destruct (read_impl_ok (ask c1 n) (n * N.of_nat (width t)) ltac:(apply Hx1)) as (c2 & r & E2 & S2 & R2). rewrite E2 in E. cbn [obind] in E.
        assert (He2 : err c2 = false) by (destruct (err c2) eqn:Ee; [injection E as <- <-; congruence|reflexivity]).
        assert (He1 : err c1 = false) by (change (err c1) with (err (ask c1 n)); eapply err_false_before; eauto).
        rewrite (read_uint_ext c x 4 _ _ Hx E1 He1). cbn [obind].
        destruct (N.eqb_spec n 0); [congruence|]. rewrite extend_ask, (read_impl_ext _ x _ _ _ Hx1 E2 He2). cbn [obind].
        cbn [err extend]. rewrite He2 in *. destruct r; injection E as <- <-; reflexivity.
    + rewrite loop_nloop in E. match type of E with context [nloop _ ?body _] => set (B := body) in * end.
      inv_bind E. destruct r as [[c2 acc] bb]. cbn [fst snd] in E. injection E as <- <-.
      assert (He1 : err c1 = false).
      { destruct (err c1) eqn:Ee; [|reflexivity]. rewrite (Z1 eq_refl) in E0. cbn in E0. injection E0 as <- <- <-. cbn in He. congruence. }
      rewrite (read_uint_ext c x 4 _ _ Hx E1 He1). cbn [obind]. rewrite loop_nloop. fold B. rewrite extend_ask.
      change (extend (ask c1 n) x, @nil val) with (ext_st x (ask c1 n, @nil val)).
      rewrite (nloop_ext x B) with (st' := (c2, acc)) (b := bb); [reflexivity| |exact Hx1|exact E0|exact He].
      intros [c0 l0] [c3 l3] b3 Hx0 E3. unfold B in E3. cbn [fst snd] in *. inv_bind E3. destruct r as [c4 v4].
      destruct (read_item_ext t x c0 c4 v4 Hw (IH Hw) Hx0 E) as [S4 X4].
      destruct (err c4) eqn:Ee4; injection E3 as <- <- <-.
      * split; [assumption|]. split; [auto|]. congruence.
      * split; [assumption|]. split; [discriminate|]. intros _. unfold B, ext_st. cbn [fst snd].
        rewrite (X4 eq_refl). cbn [obind err extend]. rewrite Ee4. reflexivity.
  - destruct Hw as [Hwk Hwt].
    destruct (read_uint_ok 4 c ltac:(lia) ltac:(apply Hx)) as (c1 & n & E1 & S1 & Z1 & _). rewrite E1 in E. cbn [obind] in E.
    assert (Hx1 : can_extend c1 x) by (eapply can_extend_step; eauto).
    rewrite loop_nloop in E. match type of E with context [nloop _ ?body _] => set (B := body) in * end.
    inv_bind E. destruct r as [[c2 acc] bb]. cbn [fst snd] in E. injection E as <- <-.
    assert (He1 : err c1 = false).
    { destruct (err c1) eqn:Ee; [|reflexivity]. rewrite (Z1 eq_refl) in E0. cbn in E0. injection E0 as <- <- <-. cbn in He. congruence. }
    rewrite (read_uint_ext c x 4 _ _ Hx E1 He1). cbn [obind]. rewrite loop_nloop. fold B.
    change (extend c1 x, @nil (val * val)) with (ext_st x (c1, @nil (val * val))).
    rewrite (nloop_ext x B) with (st' := (c2, acc)) (b := bb); [reflexivity| |exact Hx1|exact E0|exact He].
    intros [c0 l0] [c3 l3] b3 Hx0 E3. unfold B in E3. cbn [fst snd] in *. inv_bind E3. destruct r as [c4 v4].
    destruct (read_item_ext k x c0 c4 v4 Hwk (IHk Hwk) Hx0 E) as [S4 X4].
    inv_bind E3. destruct r as [c5 v5].
    assert (Hx4 : can_extend c4 x) by (eapply can_extend_step; eauto).
    destruct (read_item_ext t x c4 c5 v5 Hwt (IH Hwt) Hx4 E2) as [S5 X5].
    destruct (err c5) eqn:Ee5; injection E3 as <- <- <-.
    + split; [eapply step_ok_trans; eauto|]. split; [auto|]. congruence.
    + split; [eapply step_ok_trans; eauto|]. split; [discriminate|]. intros _. unfold B, ext_st. cbn [fst snd].
      assert (Ee4 : err c4 = false) by (eapply err_false_before; eauto).
      rewrite (X4 Ee4). cbn [obind]. rewrite (X5 eq_refl). cbn [obind err extend]. rewrite Ee5. reflexivity.
  - destruct (read_uint_ok 4 c ltac:(lia) ltac:(apply Hx)) as (c1 & n & E1 & S1 & Z1 & _). rewrite E1 in E. cbn [obind] in E.
    assert (Hx1 : can_extend c1 x) by (eapply can_extend_step; eauto).
    rewrite loop_nloop in E. match type of E with context [nloop _ ?body _] => set (B := body) in * end.
    inv_bind E. destruct r as [[c2 acc] bb]. cbn [fst snd] in E. injection E as <- <-.
    assert (He1 : err c1 = false).
    { destruct (err c1) eqn:Ee; [|reflexivity]. rewrite (Z1 eq_refl) in E0. cbn in E0. injection E0 as <- <- <-. cbn in He. congruence. }
    rewrite (read_uint_ext c x 4 _ _ Hx E1 He1). cbn [obind]. rewrite loop_nloop. fold B.
    change (extend c1 x, @nil val) with (ext_st x (c1, @nil val)).
    rewrite (nloop_ext x B) with (st' := (c2, acc)) (b := bb); [reflexivity| |exact Hx1|exact E0|exact He].
    intros [c0 l0] [c3 l3] b3 Hx0 E3. unfold B in E3. cbn [fst snd] in *. inv_bind E3. destruct r as [c4 v4].
    destruct (read_item_ext t x c0 c4 v4 Hw (IH Hw) Hx0 E) as [S4 X4].
    destruct (err c4) eqn:Ee4; injection E3 as <- <- <-.
    + split; [assumption|]. split; [auto|]. congruence.
    + split; [assumption|]. split; [discriminate|]. intros _. unfold B, ext_st. cbn [fst snd].
      rewrite (X4 eq_refl). cbn [obind err extend]. rewrite Ee4. reflexivity.
  - destruct Hw as [Hwa Hwb]. destruct old as [| | | | | |ox oy| |]; cbn in Hold; try contradiction. destruct Hold as [Hox Hoy].
    cbn [err extend]. destruct (err c) eqn:Ec.
    + injection E as <- <-. congruence.
    + destruct (read_safe a Hwa ox c ltac:(apply Hx) Hox) as (c1 & v1 & E1 & S1 & _). rewrite E1 in E. cbn [obind] in E.
      destruct (err c1) eqn:Ec1; [injection E as <- <-; congruence|].
      rewrite (IHa Hwa ox c Hx Hox _ _ E1 Ec1). cbn [obind err extend]. rewrite Ec1.
      inv_bind E. destruct r as [c2 v2]. injection E as <- <-.
      rewrite (IHb Hwb oy c1 (can_extend_step _ _ _ Hx S1) Hoy _ _ E0 He). reflexivity.
  - destruct (read_uint_ok 1 c ltac:(lia) ltac:(apply Hx)) as (c1 & n & E1 & S1 & Z1 & _). rewrite E1 in E. cbn [obind] in E.
    destruct (err c1) eqn:Ec1.
    + cbn [negb andb] in E. injection E as <- <-. congruence.
    + rewrite (read_uint_ext c x 1 _ _ Hx E1 Ec1). cbn [obind err extend]. rewrite Ec1. cbn [negb andb] in *.
      destruct (negb (n =? 0)%N).
      * inv_bind E. destruct r as [c2 v2]. injection E as <- <-.
        rewrite (IH Hw (dflt t) c1 (can_extend_step _ _ _ Hx S1) (dflt_has_ty t Hw) _ _ E0 He). reflexivity.
      * injection E as <- <-. reflexivity.
  - apply wf_var in Hw. destruct Hw as [Hlen Hwf].
    destruct (read_uint_ok 1 c ltac:(lia) ltac:(apply Hx)) as (c1 & n & E1 & S1 & Z1 & _). rewrite E1 in E. cbn [obind] in E.
    rewrite visit_spec in E.
    destruct (err c1) eqn:Ec1; [injection E as <- <-; congruence|].
    rewrite (read_uint_ext c x 1 _ _ Hx E1 Ec1). cbn [obind]. rewrite visit_spec. change (err (extend c1 x)) with (err c1). rewrite Ec1.
    destruct (nth_error ts (N.to_nat n)) as [t0|] eqn:Et; [|injection E as <- <-; discriminate].
    pose proof (nth_error_In _ _ Et) as Hin. rewrite Forall_forall in IH, Hwf.
    inv_bind E. destruct r as [c2 v2].
    assert (Ec2 : err c2 = false) by (destruct (err c2) eqn:Ee2; [injection E as <- <-; congruence|reflexivity]).
    rewrite (IH t0 Hin (Hwf t0 Hin) (dflt t0) c1 (can_extend_step _ _ _ Hx S1) (dflt_has_ty _ (Hwf t0 Hin)) _ _ E0 Ec2).
    cbn [obind err extend]. rewrite Ec2 in *. injection E as <- <-. reflexivity.
  - destruct (has_ty_rec _ _ Hold) as (olds & -> & Ho).
    change ((' (c1, vs) <- read_members ts olds c ;; Ok (c1, VSeq vs)) = Ok (c', v)) in E.
    destruct (read_members ts olds c) as [[c1 vs]| |] eqn:E1; cbn [obind] in E; try discriminate. injection E as <- <-.
    change ((' (c1, vs) <- read_members ts olds (extend c x) ;; Ok (c1, VSeq vs)) = Ok (extend c1 x, VSeq vs)).
    rewrite (members_ext x ts IH (wf_rec _ Hw) olds c c1 vs Hx Ho E1 He). reflexivity.
Qed.
