(** Proofs about the binary reader and writer. *)
From Coq Require Import List NArith ZArith Arith Bool Lia ZifyBool ZifyNat ZifyN.
From Verif Require Import Base BinModel BinSpec BinOrder.
Import ListNotations.
Local Open Scope outcome_scope.
Ltac Zify.zify_post_hook ::= Z.div_mod_to_equations.
Arguments N.add : simpl never.
Arguments N.mul : simpl never.
Arguments N.sub : simpl never.
Arguments N.modulo : simpl never.
Arguments Z.modulo : simpl never.
Arguments Z.div : simpl never.
Arguments Z.pow : simpl never.
Arguments Z.mul : simpl never.
Arguments Z.add : simpl never.

Section ty_induction.
  Variable P : ty -> Prop.
  Hypothesis HInt : forall o s w, P (TInt o s w).
  Hypothesis HRaw : forall s w, P (TRaw s w).
  Hypothesis HStr : P TStr.
  Hypothesis HVec : forall t, P t -> P (TVec t).
  Hypothesis HMap : forall k t, P k -> P t -> P (TMap k t).
  Hypothesis HSet : forall t, P t -> P (TSet t).
  Hypothesis HPair : forall a b, P a -> P b -> P (TPair a b).
  Hypothesis HOpt : forall t, P t -> P (TOpt t).
  Hypothesis HVar : forall ts, Forall P ts -> P (TVar ts).
  Hypothesis HRec : forall ts, Forall P ts -> P (TRec ts).
  Fixpoint ty_induct (t : ty) : P t :=
    match t with
    | TInt o s w => HInt o s w
    | TRaw s w => HRaw s w
    | TStr => HStr
    | TVec t => HVec t (ty_induct t)
    | TMap k t => HMap k t (ty_induct k) (ty_induct t)
    | TSet t => HSet t (ty_induct t)
    | TPair a b => HPair a b (ty_induct a) (ty_induct b)
    | TOpt t => HOpt t (ty_induct t)
    | TVar ts => HVar ts ((fix go ts : Forall P ts :=
        match ts with [] => Forall_nil _ | t :: ts' => Forall_cons t (ty_induct t) (go ts') end) ts)
    | TRec ts => HRec ts ((fix go ts : Forall P ts :=
        match ts with [] => Forall_nil _ | t :: ts' => Forall_cons t (ty_induct t) (go ts') end) ts)
    end.
End ty_induction.

(* ---------- numbers ---------- *)

Lemma le_bytes_spec w z : le_bytes w z = map (byte_of z) (seq 0 w).
Proof.
  revert z; induction w as [|w IH]; intros z; [reflexivity|].
  cbn [le_bytes seq map]. f_equal.
  - unfold byte_of. change (256 ^ Z.of_nat 0)%Z with 1%Z. now rewrite Z.div_1_r.
  - rewrite IH, <- seq_shift, map_map. apply map_ext. intros i. unfold byte_of.
    rewrite Nat2Z.inj_succ, Z.pow_succ_r by lia. now rewrite Z.div_div by lia.
Qed.

Lemma length_le_bytes w z : length (le_bytes w z) = w.
Proof. rewrite le_bytes_spec. now rewrite map_length, seq_length. Qed.

Lemma octet_le_bytes w z : Forall is_octet (le_bytes w z).
Proof.
  revert z; induction w as [|w IH]; intros z; cbn [le_bytes]; constructor; auto.
  unfold is_octet. pose proof (Z.mod_pos_bound z 256). lia.
Qed.

Lemma of_le_bytes_le w z : of_le_bytes (le_bytes w z) = (z mod 256 ^ Z.of_nat w)%Z.
Proof.
  revert z; induction w as [|w IH]; intros z.
  - cbn. now rewrite Z.mod_1_r.
  - cbn [le_bytes of_le_bytes]. rewrite IH, Nat2Z.inj_succ, Z.pow_succ_r by lia.
    rewrite Z.rem_mul_r by lia. rewrite Z2N.id by (apply Z.mod_pos_bound; lia). lia.
Qed.

Lemma of_le_bytes_range bs : Forall is_octet bs -> (0 <= of_le_bytes bs < 256 ^ Z.of_nat (length bs))%Z.
Proof.
  induction 1 as [|b bs Hb Hbs IH]; cbn [of_le_bytes length].
  - cbn. lia.
  - rewrite Nat2Z.inj_succ, Z.pow_succ_r by lia. unfold is_octet in Hb. nia.
Qed.

Lemma pow256 w : (256 ^ Z.of_nat w = 2 ^ (8 * Z.of_nat w))%Z.
Proof. rewrite Z.pow_mul_r by lia. reflexivity. Qed.

Lemma length_arrange o bs : length (arrange o bs) = length bs.
Proof. destruct o; cbn; auto. apply rev_length. Qed.

Lemma arrange_twice o bs : arrange o (arrange o bs) = bs.
Proof. destruct o; cbn; auto. apply rev_involutive. Qed.

Lemma octet_arrange o bs : Forall is_octet bs -> Forall is_octet (arrange o bs).
Proof. destruct o; cbn; auto. apply Forall_rev. Qed.

Lemma length_int_bytes o w z : length (int_bytes o w z) = w.
Proof. unfold int_bytes. now rewrite length_arrange, length_le_bytes. Qed.

Lemma half_pow w : 1 <= w -> (2 ^ (8 * Z.of_nat w) = 2 * 2 ^ (8 * Z.of_nat w - 1))%Z.
Proof.
  intros H. rewrite <- Z.pow_succ_r by lia. f_equal. lia.
Qed.

Lemma bytes_int_of o s w z : 1 <= w -> in_range s w z -> bytes_int o s (int_bytes o w z) = z.
Proof.
  intros Hw Hr. unfold bytes_int. rewrite length_int_bytes. unfold int_bytes.
  rewrite arrange_twice, of_le_bytes_le, pow256.
  pose proof (half_pow w Hw) as HP. set (h := (2 ^ (8 * Z.of_nat w - 1))%Z) in *.
  assert (Hh : (0 < h)%Z) by (apply Z.pow_pos_nonneg; lia).
  rewrite HP in *. rewrite (Z.mul_comm 2 h), Z.div_mul by lia.
  unfold in_range in Hr. destruct s; cbn [andb].
  - fold h in Hr. destruct (Z_lt_le_dec z 0) as [Hn|Hp].
    + replace (z mod (h * 2))%Z with (z + h * 2)%Z.
      * destruct (Z.leb_spec h (z + h * 2)); lia.
      * symmetry. rewrite <- (Z.mod_small (z + h * 2) (h * 2)) by lia.
        rewrite <- (Z.mul_1_l (h * 2)) at 2. rewrite Z.mod_add by lia.
        reflexivity.
    + rewrite Z.mod_small by lia. destruct (Z.leb_spec h z); lia.
  - rewrite HP in Hr. apply Z.mod_small. lia.
Qed.

Lemma bytes_int_range o s bs : 1 <= length bs -> Forall is_octet bs ->
  in_range s (length bs) (bytes_int o s bs).
Proof.
  intros Hw Hb. unfold bytes_int, in_range.
  pose proof (of_le_bytes_range _ (octet_arrange o _ Hb)) as Hr. rewrite length_arrange, pow256 in Hr.
  pose proof (half_pow (length bs) Hw) as HP. set (h := (2 ^ (8 * Z.of_nat (length bs) - 1))%Z) in *.
  rewrite HP in *. rewrite (Z.mul_comm 2 h), Z.div_mul by lia.
  destruct s; cbn [andb]; [|lia].
  destruct (Z.leb_spec h (of_le_bytes (arrange o bs))); lia.
Qed.

Lemma int_bytes_spec o w z :
  int_bytes o w z = map (byte_of z) (match o with Big => rev (seq 0 w) | _ => seq 0 w end).
Proof. unfold int_bytes. rewrite le_bytes_spec. destruct o; cbn [arrange]; auto. now rewrite map_rev. Qed.

Lemma number_spec w n : int_bytes Native w (Z.of_N n mod 2 ^ (8 * Z.of_nat w)) = number w n.
Proof.
  unfold int_bytes, number. cbn [arrange]. rewrite le_bytes_spec. apply map_ext_in.
  intros i Hi. apply in_seq in Hi. unfold byte_of. f_equal.
  rewrite <- pow256. replace (Z.of_nat w) with (Z.of_nat i + Z.of_nat (w - i))%Z by lia.
  rewrite Z.pow_add_r by lia. rewrite Z.rem_mul_r by lia.
  set (q := (Z.of_N n / 256 ^ Z.of_nat i)%Z).
  rewrite (Z.mul_comm (256 ^ Z.of_nat i)), Z.div_add by lia.
  rewrite Z.div_small by (apply Z.mod_pos_bound; lia). cbn [Z.add].
  replace (Z.of_nat (w - i)) with (1 + Z.of_nat (w - i - 1))%Z by lia.
  rewrite Z.pow_add_r by lia. change (256 ^ 1)%Z with 256%Z.
  rewrite Z.rem_mul_r by lia. rewrite Z.add_0_l.
  rewrite (Z.mul_comm 256), Z.mod_add by lia. now rewrite Z.mod_mod by lia.
Qed.

Lemma length_number w n : length (number w n) = w.
Proof. unfold number. now rewrite map_length, seq_length. Qed.

Lemma number_octets w n : Forall is_octet (number w n).
Proof. rewrite <- number_spec. unfold int_bytes. cbn [arrange]. apply octet_le_bytes. Qed.

Lemma read_number w n : 1 <= w -> (n < 2 ^ (8 * N.of_nat w))%N ->
  Z.to_N (bytes_int Native false (number w n)) = n.
Proof.
  intros Hw Hn. rewrite <- number_spec.
  assert (Hz : (0 <= Z.of_N n < 2 ^ (8 * Z.of_nat w))%Z).
  { split; [lia|]. apply N2Z.inj_lt in Hn. rewrite N2Z.inj_pow in Hn.
    replace (Z.of_N (8 * N.of_nat w)) with (8 * Z.of_nat w)%Z in Hn by lia. exact Hn. }
  rewrite Z.mod_small by assumption. rewrite bytes_int_of; [lia|assumption|exact Hz].
Qed.

(* ---------- cursors ---------- *)

Lemma left_inside c : inside c -> left c = (size_bytes c - pos c)%N.
Proof.
  intros (H1 & H2 & _). unfold left, size_modulus. change (2 ^ 63)%N with 9223372036854775808%N in H2.
  rewrite N.mod_eq by lia.
  replace (size_bytes c + 18446744073709551616 - pos c)%N
    with ((size_bytes c - pos c) + 1 * 18446744073709551616)%N by lia.
  rewrite N.div_add by lia. rewrite N.div_small by lia. lia.
Qed.

(** [c'] is [c] moved to position [p] (room requests aside). *)
Definition moved (c c' : cursor) (p : N) : Prop := buf c' = buf c /\ pos c' = p /\ err c' = false.

Lemma moved_inside c c' p : inside c -> moved c c' p -> (p <= size_bytes c)%N -> inside c'.
Proof. intros (H1 & H2 & H3) (Hb & Hp & He) Hle. unfold inside, size_bytes in *. rewrite Hb, Hp. auto. Qed.

Lemma copy_out_app (pre mid post : list N) :
  copy_out (pre ++ mid ++ post) (N.of_nat (length pre)) (N.of_nat (length mid)) = Ok mid.
Proof.
  unfold copy_out. rewrite !app_length.
  destruct (N.ltb_spec (N.of_nat (length pre + (length mid + length post)))
              (N.of_nat (length pre) + N.of_nat (length mid))); [lia|].
  rewrite !Nat2N.id. rewrite skipn_app, skipn_all, Nat.sub_diag. cbn [skipn app].
  rewrite firstn_app, firstn_all, Nat.sub_diag. cbn [firstn]. now rewrite app_nil_r.
Qed.

(** Shape of [read_impl]. *)
Lemma read_impl_cases c n : inside c ->
  (err c = true \/ (size_bytes c - pos c < n)%N) /\ read_impl c n = Ok (notify_error c, None) \/
  (err c = false /\ (pos c + n <= size_bytes c)%N /\
   exists bs, read_impl c n = Ok (set_pos c (pos c + n)%N, Some bs) /\
     bs = firstn (N.to_nat n) (skipn (N.to_nat (pos c)) (buf c)) /\
     N.of_nat (length bs) = n /\ Forall is_octet bs).
Proof.
  intros Hi. unfold read_impl, peek_impl. rewrite left_inside by assumption.
  destruct (err c) eqn:He; cbn [orb].
  - left. cbn [obind]. auto.
  - destruct (N.ltb_spec (size_bytes c - pos c) n) as [Hlt|Hge].
    + left. cbn [obind]. auto.
    + right. destruct Hi as (Hp & Hs & Hb). split; [reflexivity|]. split; [lia|].
      unfold copy_out. fold (size_bytes c). destruct (N.ltb_spec (size_bytes c) (pos c + n)); [lia|].
      cbn [obind]. eexists. split.
      { f_equal. f_equal. f_equal. unfold size_modulus.
        change (2 ^ 63)%N with 9223372036854775808%N in Hs. apply N.mod_small. lia. }
      split; [reflexivity|]. split.
      * unfold size_bytes in *. rewrite firstn_length, skipn_length. lia.
      * apply Forall_forall. intros x Hx. rewrite Forall_forall in Hb. apply Hb.
        rewrite <- (firstn_skipn (N.to_nat (pos c)) (buf c)). apply in_or_app. right.
        rewrite <- (firstn_skipn (N.to_nat n) (skipn (N.to_nat (pos c)) (buf c))). apply in_or_app. auto.
Qed.

Lemma read_impl_exact c pre data post : inside c -> err c = false ->
  buf c = pre ++ data ++ post -> pos c = N.of_nat (length pre) ->
  exists c', read_impl c (N.of_nat (length data)) = Ok (c', Some data) /\
    moved c c' (N.of_nat (length (pre ++ data))).
Proof.
  intros Hi He Hb Hp. unfold read_impl, peek_impl. rewrite left_inside, He by assumption. cbn [orb].
  assert (Hs : size_bytes c = N.of_nat (length pre + (length data + length post)))
    by (unfold size_bytes; rewrite Hb, !app_length; reflexivity).
  destruct (N.ltb_spec (size_bytes c - pos c) (N.of_nat (length data))) as [Hlt|Hge]; [lia|].
  rewrite Hb, Hp, copy_out_app. cbn [obind]. eexists. split; [reflexivity|].
  unfold moved. cbn [buf pos err set_pos]. rewrite app_length. split; [reflexivity|]. split; [|assumption].
  destruct Hi as (_ & H2 & _). unfold size_modulus. change (2 ^ 63)%N with 9223372036854775808%N in H2.
  rewrite N.mod_small by lia. lia.
Qed.

Lemma read_uint_exact w n c pre post : 1 <= w -> (n < 2 ^ (8 * N.of_nat w))%N ->
  inside c -> err c = false -> buf c = pre ++ number w n ++ post -> pos c = N.of_nat (length pre) ->
  exists c', read_uint w c = Ok (c', n) /\ moved c c' (N.of_nat (length (pre ++ number w n))).
Proof.
  intros Hw Hn Hi He Hb Hp. unfold read_uint. rewrite He.
  destruct (read_impl_exact c pre (number w n) post Hi He Hb Hp) as (c' & E & Hm).
  rewrite length_number in E. rewrite E. cbn [obind]. exists c'. split; [|assumption].
  now rewrite read_number.
Qed.

Lemma read_uint_cases w c : 1 <= w -> inside c ->
  exists c' n, read_uint w c = Ok (c', n) /\ inside c' /\ buf c' = buf c /\
    (pos c <= pos c')%N /\ (err c = true -> err c' = true /\ pos c' = pos c) /\
    (err c' = true -> n = 0%N) /\ (n < 2 ^ (8 * N.of_nat w))%N /\ asked c' = asked c.
Proof.
  intros Hw Hi. unfold read_uint. destruct (err c) eqn:He.
  - exists c, 0%N. rewrite He. repeat split; auto; try apply Hi; try lia.

  - destruct (read_impl_cases c (N.of_nat w) Hi) as [(_ & E)|(_ & Hle & bs & E & _ & Hl & Hb)]; rewrite E; cbn [obind].
    + eexists _, _. split; [reflexivity|]. repeat split; try apply Hi; try discriminate; cbn; try lia.

    + eexists _, _. split; [reflexivity|]. destruct Hi as (Hp & Hs & Hbb).
      repeat split; cbn [buf pos err set_pos asked]; unfold size_bytes in *; cbn [buf set_pos]; try assumption; try lia; try congruence.
      assert (Hlen : length bs = w) by lia.
      pose proof (bytes_int_range Native false bs ltac:(lia) Hb) as Hr. unfold in_range in Hr. rewrite Hlen in Hr.
      apply N2Z.inj_lt. rewrite N2Z.inj_pow. rewrite Z2N.id by lia.
      replace (Z.of_N (8 * N.of_nat w)) with (8 * Z.of_nat w)%Z by lia. lia.
Qed.

(* ---------- loops ---------- *)

Fixpoint nloop {S} (n : nat) (body : S -> outcome (S * bool)) (s : S) : outcome (S * bool) :=
  match n with
  | O => Ok (s, false)
  | Datatypes.S n' =>
      ' (s1, stop) <- body s ;;
      if stop : bool then Ok (s1, true) else nloop n' body s1
  end.

Lemma nloop_add {S} a b (body : S -> outcome (S * bool)) s :
  nloop (a + b) body s =
  ' (s1, stop) <- nloop a body s ;; if stop : bool then Ok (s1, true) else nloop b body s1.
Proof.
  revert s; induction a as [|a IH]; intros s; cbn [nloop plus obind]; [reflexivity|].
  destruct (body s) as [[s1 stop]| |]; cbn [obind]; try reflexivity.
  destruct stop; cbn [obind]; [reflexivity|apply IH].
Qed.

Lemma nloop_1 {S} (body : S -> outcome (S * bool)) s : nloop 1 body s = body s.
Proof. cbn. destruct (body s) as [[s1 []]| |]; reflexivity. Qed.

Lemma loop_pos_nloop {S} p (body : S -> outcome (S * bool)) : forall s,
  loop_pos p body s = nloop (Pos.to_nat p) body s.
Proof.
  induction p as [p IH|p IH|]; intros s; cbn [loop_pos].
  - replace (Pos.to_nat p~1) with (1 + (Pos.to_nat p + Pos.to_nat p)) by lia.
    rewrite nloop_add, nloop_1. destruct (body s) as [[s0 []]| |]; cbn [obind]; try reflexivity.
    rewrite nloop_add, IH. destruct (nloop (Pos.to_nat p) body s0) as [[s1 []]| |]; cbn [obind]; auto.
  - replace (Pos.to_nat p~0) with (Pos.to_nat p + Pos.to_nat p) by lia.
    rewrite nloop_add, IH. destruct (nloop (Pos.to_nat p) body s) as [[s1 []]| |]; cbn [obind]; auto.
  - symmetry. apply nloop_1.
Qed.

Lemma loop_nloop {S} n (body : S -> outcome (S * bool)) s : loop n body s = nloop (N.to_nat n) body s.
Proof. destruct n; [reflexivity|]. apply loop_pos_nloop. Qed.

(** Invariants of loops; [J] holds if the loop was left by [break]. *)
Lemma nloop_inv {S} (I : nat -> S -> Prop) (J : S -> Prop) (body : S -> outcome (S * bool)) :
  (forall i s, I i s -> exists s' b, body s = Ok (s', b) /\
     (if b : bool then J s' else I (Datatypes.S i) s')) ->
  forall n i s, I i s -> exists s' b, nloop n body s = Ok (s', b) /\
     (if b : bool then J s' else I (i + n) s').
Proof.
  intros Hb n. induction n as [|n IH]; intros i s Hi; cbn [nloop].
  - exists s, false. rewrite Nat.add_0_r. auto.
  - destruct (Hb i s Hi) as (s1 & b & E & H). rewrite E. cbn [obind]. destruct b.
    + exists s1, true. auto.
    + destruct (IH (Datatypes.S i) s1 H) as (s2 & b2 & E2 & H2).
      exists s2, b2. split; [assumption|]. destruct b2; [assumption|].
      now replace (i + Datatypes.S n) with (Datatypes.S i + n) by lia.
Qed.

(* ---------- round trip ---------- *)

Definition reads (t : ty) (v : val) : Prop :=
  forall c pre post old, inside c -> err c = false ->
    buf c = pre ++ encode t v ++ post -> pos c = N.of_nat (length pre) -> has_ty t old ->
    exists c', read_binary t old c = Ok (c', v) /\ moved c c' (N.of_nat (length (pre ++ encode t v))).

Lemma moved_trans c c1 c2 p q : moved c c1 p -> moved c1 c2 q -> moved c c2 q.
Proof. unfold moved. intuition congruence. Qed.

Lemma moved_ask c c1 p n : moved c c1 p -> moved c (ask c1 n) p.
Proof. unfold moved. cbn. auto. Qed.

Lemma inside_moved_app c c' pre d post : inside c -> buf c = pre ++ d ++ post ->
  moved c c' (N.of_nat (length (pre ++ d))) -> inside c'.
Proof.
  intros Hi Hb Hm. eapply moved_inside; eauto. unfold size_bytes. rewrite Hb, !app_length. lia.
Qed.

Lemma moved_inside_self c c' p : inside c -> moved c c' p -> (p <= size_bytes c)%N -> inside c'.
Proof. apply moved_inside. Qed.

(** The members of a user type, apart from [read_binary] and its likes. *)
Fixpoint read_members (ts : list ty) (olds : list val) (c : cursor) : outcome (cursor * list val) :=
  match ts, olds with
  | [], [] => Ok (c, [])
  | t0 :: ts', o :: olds' =>
      ' (c1, v) <- read_binary t0 o c ;;
      ' (c2, vs) <- read_members ts' olds' c1 ;;
      Ok (c2, v :: vs)
  | _, _ => UB
  end.

Fixpoint members_ty (ts : list ty) (vs : list val) : Prop :=
  match ts, vs with
  | [], [] => True
  | t0 :: ts', v0 :: vs' => has_ty t0 v0 /\ members_ty ts' vs'
  | _, _ => False
  end.

Fixpoint encode_members (ts : list ty) (vs : list val) : list N :=
  match ts, vs with
  | t0 :: ts', v0 :: vs' => encode t0 v0 ++ encode_members ts' vs'
  | _, _ => []
  end.

Lemma read_rec ts olds c :
  read_binary (TRec ts) (VSeq olds) c = (' (c1, vs) <- read_members ts olds c ;; Ok (c1, VSeq vs)).
Proof. reflexivity. Qed.

Lemma has_ty_rec ts v : has_ty (TRec ts) v -> exists vs, v = VSeq vs /\ members_ty ts vs.
Proof. destruct v; cbn [has_ty]; try contradiction. intros H. exists l. split; [reflexivity|exact H]. Qed.

Lemma members_ty_rec ts vs : members_ty ts vs -> has_ty (TRec ts) (VSeq vs).
Proof. intros H. exact H. Qed.

Lemma encode_rec ts vs : encode (TRec ts) (VSeq vs) = encode_members ts vs.
Proof. reflexivity. Qed.

Lemma wf_rec ts : wf_ty (TRec ts) -> Forall wf_ty ts.
Proof. cbn. induction ts as [|t ts IH]; constructor; [apply H|apply IH, H]. Qed.

Lemma dflt_has_ty t : wf_ty t -> has_ty t (dflt t).
Proof.
  induction t as [o s w|s w| |t IH|k t IHk IH|t IH|a b IHa IHb|t IH|ts IH|ts IH] using ty_induct; intros Hw; cbn in *.
  - unfold in_range. assert (0 < 2 ^ (8 * Z.of_nat w - 1))%Z by (apply Z.pow_pos_nonneg; lia).
    assert (0 < 2 ^ (8 * Z.of_nat w))%Z by (apply Z.pow_pos_nonneg; lia). destruct s; lia.
  - split; [apply repeat_length|]. apply Forall_forall. intros x Hx. apply repeat_spec in Hx. subst. reflexivity.
  - split; [constructor|reflexivity].
  - split; [constructor|reflexivity].
  - repeat split; constructor.
  - repeat split; constructor.
  - destruct Hw. auto.
  - exact I.
  - destruct Hw as [Hl Hw]. destruct ts as [|t0 ts]; [cbn in Hl; lia|]. cbn in *.
    inversion IH. apply H1. apply Hw.
  - induction IH as [|t0 ts H0 _ IHl]; cbn in *; [exact I|]. destruct Hw as [Hw0 Hw]. split; [now apply H0|now apply IHl].
Qed.

Lemma encode_width t v : (is_simple t = true \/ (exists o s w, t = TInt o s w) \/ (exists s w, t = TRaw s w)) ->
  has_ty t v -> length (encode t v) = width t /\ repr t v = encode t v.
Proof.
  intros Ht Hv. assert (Hc : (exists o s w, t = TInt o s w) \/ (exists s w, t = TRaw s w)).
  { destruct Ht as [Ht|[Ht|Ht]]; eauto. destruct t; try discriminate; eauto. }
  destruct Hc as [(o & s & w & ->)|(s & w & ->)]; destruct v; cbn in Hv; try contradiction.
  - cbn [encode width repr]. rewrite <- int_bytes_spec, length_int_bytes. auto.
  - cbn [encode width repr]. tauto.
Qed.

Lemma of_repr_encode t v : (is_simple t = true \/ (exists o s w, t = TInt o s w) \/ (exists s w, t = TRaw s w)) ->
  wf_ty t -> has_ty t v -> of_repr t (encode t v) = v.
Proof.
  intros Ht Hw Hv. assert (Hc : (exists o s w, t = TInt o s w) \/ (exists s w, t = TRaw s w)).
  { destruct Ht as [Ht|[Ht|Ht]]; eauto. destruct t; try discriminate; eauto. }
  destruct Hc as [(o & s & w & ->)|(s & w & ->)]; destruct v; cbn in Hv; try contradiction.
  - cbn [encode of_repr]. rewrite <- int_bytes_spec. f_equal. apply bytes_int_of; [cbn in Hw; lia|assumption].
  - reflexivity.
Qed.

Lemma chunks_concat w l : Forall (fun bs => length bs = w) l ->
  chunks (length l) w (concat l) = l.
Proof.
  induction 1 as [|bs l Hb Hl IH]; cbn [chunks concat length]; [reflexivity|].
  f_equal.
  - rewrite <- Hb. now rewrite firstn_app, firstn_all, Nat.sub_diag, app_nil_r.
  - replace (skipn w (bs ++ concat l)) with (concat l); [assumption|].
    rewrite <- Hb. now rewrite skipn_app, skipn_all, Nat.sub_diag.
Qed.

Lemma length_concat_width w (l : list (list N)) : Forall (fun bs => length bs = w) l ->
  length (concat l) = length l * w.
Proof. induction 1; cbn; rewrite ?app_length; lia. Qed.

(** Loop reading a list of items laid out one after another. *)
Lemma loop_items {A R} (body : cursor * R -> outcome (cursor * R * bool)) (add : R -> A -> R)
  (enc : A -> list N) (post : list N) :
  forall (l : list A) (acc : R) (c : cursor) (pre : list N),
  (forall x acc c pre post, In x l -> inside c -> err c = false ->
     buf c = pre ++ enc x ++ post -> pos c = N.of_nat (length pre) ->
     exists c', body (c, acc) = Ok (c', add acc x, false) /\
       moved c c' (N.of_nat (length (pre ++ enc x)))) ->
  inside c -> err c = false ->
  buf c = pre ++ concat (map enc l) ++ post -> pos c = N.of_nat (length pre) ->
  exists c', nloop (length l) body (c, acc) = Ok (c', fold_left add l acc, false) /\
    moved c c' (N.of_nat (length (pre ++ concat (map enc l)))).
Proof.
  induction l as [|x l IH]; intros acc c pre Hbody Hi He Hb Hp; cbn [nloop length map concat fold_left].
  - exists c. split; [reflexivity|]. rewrite app_nil_r. repeat split; auto.
  - cbn [map concat] in Hb. rewrite <- app_assoc in Hb.
    destruct (Hbody x acc c pre (concat (map enc l) ++ post) (or_introl eq_refl) Hi He Hb Hp) as (c1 & E & Hm).
    rewrite E. cbn [obind].
    assert (Hi1 : inside c1) by (eapply inside_moved_app; eauto).
    destruct (IH (add acc x) c1 (pre ++ enc x)) as (c2 & E2 & Hm2).
    + intros y acc' c' pre' post' Hy. apply Hbody. now right.
    + assumption.
    + apply Hm.
    + destruct Hm as (-> & _). rewrite Hb. now rewrite <- !app_assoc.
    + apply Hm.
    + exists c2. split; [assumption|]. rewrite app_assoc. eapply moved_trans; eauto.
Qed.

Lemma map_insert_last m k v : Forall (fun kv => vcmp (fst kv) k = Lt) m ->
  map_insert m k v = m ++ [(k, v)].
Proof.
  induction 1 as [|[k' v'] m Hk Hm IH]; [reflexivity|]. cbn [map_insert app].
  cbn [fst] in Hk. rewrite vcmp_anti, Hk. cbn [CompOpp]. now rewrite IH.
Qed.

Lemma set_insert_last m k : Forall (fun k' => vcmp k' k = Lt) m -> set_insert m k = m ++ [k].
Proof.
  induction 1 as [|k' m Hk Hm IH]; [reflexivity|]. cbn [set_insert app].
  rewrite vcmp_anti, Hk. cbn [CompOpp]. now rewrite IH.
Qed.

Lemma increasing_app a b : increasing (a ++ b) -> increasing a /\ increasing b /\
  Forall (fun x => Forall (fun y => vcmp x y = Lt) b) a.
Proof.
  induction a as [|x a IH]; cbn [app increasing].
  - intros H. repeat split; auto.
  - intros (H1 & H2). apply Forall_app in H1. destruct H1 as [H1 H1'].
    destruct (IH H2) as (I1 & I2 & I3). repeat split; auto.
Qed.

Lemma fold_map_insert l acc : increasing (map fst (acc ++ l)) ->
  fold_left (fun m kv => map_insert m (fst kv) (snd kv)) l acc = acc ++ l.
Proof.
  revert acc; induction l as [|[k v] l IH]; intros acc H; cbn [fold_left fst snd].
  - now rewrite app_nil_r.
  - rewrite map_insert_last.
    + rewrite IH; rewrite <- app_assoc; [reflexivity|exact H].
    + rewrite map_app in H. apply increasing_app in H. destruct H as (_ & _ & H).
      rewrite Forall_map in H. eapply Forall_impl; [|exact H]. intros [k' v'] Hk. cbn in *. now inversion Hk.
Qed.

Lemma fold_set_insert l acc : increasing (acc ++ l) -> fold_left set_insert l acc = acc ++ l.
Proof.
  revert acc; induction l as [|k l IH]; intros acc H; cbn [fold_left].
  - now rewrite app_nil_r.
  - rewrite set_insert_last.
    + rewrite IH; rewrite <- app_assoc; [reflexivity|exact H].
    + apply increasing_app in H. destruct H as (_ & _ & H).
      eapply Forall_impl; [|exact H]. intros k' Hk. now inversion Hk.
Qed.

Lemma fold_push {A} (l acc : list A) : fold_left (fun m x => m ++ [x]) l acc = acc ++ l.
Proof.
  revert acc; induction l as [|k l IH]; intros acc; cbn [fold_left].
  - now rewrite app_nil_r.
  - rewrite IH, <- app_assoc. reflexivity.
Qed.

Lemma fits_bound {A} (l : list A) : fits l -> (N.of_nat (length l) < 2 ^ (8 * N.of_nat 4))%N.
Proof. intros H. exact H. Qed.

(** One item read with [r.read<T>()]. *)
Lemma read_value_exact t v c pre post : wf_ty t -> reads t v ->
  inside c -> err c = false -> buf c = pre ++ encode t v ++ post -> pos c = N.of_nat (length pre) ->
  exists c', (if err c then Ok (c, dflt t) else read_binary t (dflt t) c) = Ok (c', v) /\
    moved c c' (N.of_nat (length (pre ++ encode t v))).
Proof. intros Hw Hr Hi He Hb Hp. rewrite He. apply (Hr c pre post); auto. now apply dflt_has_ty. Qed.

Lemma pick_ty {A} (f : ty -> A) (d : A) : forall ts i,
  (fix pick (ts : list ty) (i : nat) : A :=
     match ts, i with
     | t0 :: _, O => f t0
     | _ :: ts', S i' => pick ts' i'
     | [], _ => d
     end) ts i = match nth_error ts i with Some t0 => f t0 | None => d end.
Proof. induction ts as [|t ts IH]; intros [|i]; cbn; auto. Qed.

Lemma visit_spec (old : val) (c1 : cursor) : forall ts index k,
  (fix visit (ts : list ty) (index k : nat) : outcome (cursor * val) :=
     match ts with
     | [] => Ok (notify_error c1, old)
     | head :: tail =>
         match index with
         | O =>
             ' (c2, v) <- (if err c1 then Ok (c1, dflt head)
                           else read_binary head (dflt head) c1) ;;
             if err c2 then Ok (c2, old) else Ok (c2, VVar k v)
         | S index' => visit tail index' (S k)
         end
     end) ts index k =
  match nth_error ts index with
  | None => Ok (notify_error c1, old)
  | Some head =>
      ' (c2, v) <- (if err c1 then Ok (c1, dflt head)
                    else read_binary head (dflt head) c1) ;;
      if err c2 then Ok (c2, old) else Ok (c2, VVar (k + index) v)
  end.
Proof.
  induction ts as [|t ts IH]; intros [|i] k; cbn; auto.
  - now rewrite Nat.add_0_r.
  - rewrite IH. now replace (S k + i) with (k + S i) by lia.
Qed.

Lemma wf_var ts : wf_ty (TVar ts) -> 1 <= length ts <= 256 /\ Forall wf_ty ts.
Proof.
  cbn. intros [H1 H2]. split; [assumption|]. clear H1.
  induction ts as [|t ts IH]; constructor; [apply H2|apply IH, H2].
Qed.

Lemma members_round_trip ts : Forall (fun t => wf_ty t -> forall v, has_ty t v -> reads t v) ts -> Forall wf_ty ts ->
  forall vs olds c pre post, members_ty ts vs -> members_ty ts olds -> inside c -> err c = false ->
  buf c = pre ++ encode_members ts vs ++ post -> pos c = N.of_nat (length pre) ->
  exists c', read_members ts olds c = Ok (c', vs) /\ moved c c' (N.of_nat (length (pre ++ encode_members ts vs))).
Proof.
  induction 1 as [|t ts Ht _ IH]; intros Hw vs olds c pre post Hv Ho Hi He Hb Hp;
    destruct vs as [|v vs]; cbn [members_ty] in Hv; try contradiction;
    destruct olds as [|o olds]; cbn [members_ty] in Ho; try contradiction; cbn [read_members encode_members] in *.
  - exists c. split; [reflexivity|]. rewrite app_nil_r. repeat split; auto.
  - inversion Hw as [|? ? Hw0 Hw']; subst. destruct Hv as [Hv0 Hv]. destruct Ho as [Ho0 Ho]. rewrite <- app_assoc in Hb.
    destruct (Ht Hw0 v Hv0 c pre _ o Hi He Hb Hp Ho0) as (c1 & E1 & Hm1). rewrite E1. cbn [obind].
    pose proof Hm1 as (Hb1 & Hp1 & He1).
    destruct (IH Hw' vs olds c1 (pre ++ encode t v) post Hv Ho) as (c2 & E2 & Hm2); auto.
    { eapply inside_moved_app; eauto. } { rewrite Hb1, Hb. now rewrite <- app_assoc. }
    rewrite E2. cbn [obind]. exists c2. split; [reflexivity|]. rewrite app_assoc. eapply moved_trans; eauto.
Qed.

Theorem round_trip t : wf_ty t -> forall v, has_ty t v -> reads t v.
Proof.
  induction t as [o s w|s w| |t IH|k t IHk IH|t IH|a b IHa IHb|t IH|ts IH|ts IH] using ty_induct;
    intros Hw v Hv c pre post old Hi He Hb Hp Hold.
  - (* integers *)
    cbn [read_binary]. unfold read_raw.
    destruct (encode_width (TInt o s w) v (or_intror (or_introl (ex_intro _ o (ex_intro _ s (ex_intro _ w eq_refl))))) Hv) as [Hl _].
    destruct (read_impl_exact c pre _ post Hi He Hb Hp) as (c' & E & Hm). rewrite Hl in E. rewrite E. cbn [obind].
    exists c'. split; [|assumption]. rewrite of_repr_encode; auto. right. left. eauto.
  - (* raw *)
    cbn [read_binary]. unfold read_raw.
    destruct (encode_width (TRaw s w) v (or_intror (or_intror (ex_intro _ s (ex_intro _ w eq_refl)))) Hv) as [Hl _].
    destruct (read_impl_exact c pre _ post Hi He Hb Hp) as (c' & E & Hm). rewrite Hl in E. rewrite E. cbn [obind].
    exists c'. split; [|assumption]. rewrite of_repr_encode; auto. right. right. eauto.
  - (* string *)
    destruct v as [| |str| | | | | |]; cbn in Hv; try contradiction. destruct Hv as [Ho Hf].
    cbn [read_binary]. cbn [encode] in *. rewrite <- app_assoc in Hb.
    destruct (read_uint_exact 4 (N.of_nat (length str)) c pre (str ++ post) ltac:(lia) (fits_bound _ Hf) Hi He Hb Hp)
      as (c1 & E1 & Hm1). rewrite E1. cbn [obind].
    destruct (N.eqb_spec (N.of_nat (length str)) 0) as [Ez|Ez].
    + destruct str; [|cbn in Ez; lia]. exists c1. split; [reflexivity|]. now rewrite app_nil_r.
    + assert (Hi1 : inside (ask c1 (N.of_nat (length str)))).
      { eapply inside_moved_app; [exact Hi|exact Hb|]. now apply moved_ask. }
      destruct (read_impl_exact (ask c1 (N.of_nat (length str))) (pre ++ number 4 (N.of_nat (length str))) str post Hi1)
        as (c2 & E2 & Hm2).
      * apply Hm1.
      * cbn. destruct Hm1 as (-> & _). rewrite Hb. now rewrite <- app_assoc.
      * apply Hm1.
      * rewrite E2. cbn [obind]. destruct Hm2 as (Hb2 & Hp2 & He2). rewrite He2.
        exists c2. split; [reflexivity|]. rewrite app_assoc. repeat split; auto.
        rewrite Hb2. cbn. apply Hm1.
  - (* vector *)
    destruct v as [| | |l| | | | |]; cbn in Hv; try contradiction. destruct Hv as [Hl Hf].
    cbn [read_binary]. cbn [encode] in *. rewrite <- app_assoc in Hb.
    destruct (read_uint_exact 4 (N.of_nat (length l)) c pre (concat (map (encode t) l) ++ post) ltac:(lia) (fits_bound _ Hf) Hi He Hb Hp)
      as (c1 & E1 & Hm1). rewrite E1. cbn [obind].
    assert (Hi1 : inside (ask c1 (N.of_nat (length l)))).
    { eapply inside_moved_app; [exact Hi|exact Hb|]. now apply moved_ask. }
    destruct (is_simple t) eqn:Es.
    + assert (HF : Forall (fun bs => length bs = width t) (map (encode t) l)).
      { rewrite Forall_map. eapply Forall_impl; [|exact Hl]. intros x Hx. apply encode_width; auto. }
      destruct (N.eqb_spec (N.of_nat (length l)) 0) as [Ez|Ez].
      * destruct l; [|cbn in Ez; lia]. exists c1. split; [reflexivity|]. cbn [map concat]. now rewrite app_nil_r.
      * destruct (read_impl_exact (ask c1 (N.of_nat (length l))) (pre ++ number 4 (N.of_nat (length l)))
                    (concat (map (encode t) l)) post Hi1) as (c2 & E2 & Hm2).
        -- apply Hm1.
        -- cbn. destruct Hm1 as (-> & _). rewrite Hb. now rewrite <- app_assoc.
        -- apply Hm1.
        -- rewrite (length_concat_width _ _ HF), map_length, Nat2N.inj_mul in E2. rewrite E2. cbn [obind].
           destruct Hm2 as (Hb2 & Hp2 & He2). rewrite He2. exists c2. split.
           ++ do 2 f_equal. f_equal. rewrite Nat2N.id.
              replace (length l) with (length (map (encode t) l)) by apply map_length.
              rewrite chunks_concat by assumption. rewrite map_map. clear -Hl Es Hw.
              induction Hl as [|x l Hx Hl IHl]; cbn [map]; [reflexivity|]. f_equal; [|assumption].
              apply of_repr_encode; auto.
           ++ rewrite app_assoc. repeat split; auto. rewrite Hb2. cbn. apply Hm1.
    + rewrite loop_nloop, Nat2N.id.
      match goal with |- context [nloop _ ?body _] => set (B := body) end.
      destruct (loop_items B (fun m x => m ++ [x]) (encode t) post l [] (ask c1 (N.of_nat (length l)))
                  (pre ++ number 4 (N.of_nat (length l)))) as (c2 & E2 & Hm2).
      * intros x acc c0 pre0 post0 Hx Hi0 He0 Hb0 Hp0. unfold B.
        assert (Hr : reads t x) by (apply IH; [exact Hw|]; rewrite Forall_forall in Hl; auto).
        destruct (read_value_exact t x c0 pre0 post0 Hw Hr Hi0 He0 Hb0 Hp0) as (c' & E & Hm).
        rewrite E. cbn [obind]. destruct Hm as (Hm_b & Hm_p & Hm_e). rewrite Hm_e.
        exists c'. split; [reflexivity|]. repeat split; auto.
      * assumption.
      * apply Hm1.
      * cbn. destruct Hm1 as (-> & _). rewrite Hb. now rewrite <- app_assoc.
      * apply Hm1.
      * rewrite E2. cbn [obind fst snd]. rewrite fold_push. cbn [app]. exists c2. split; [reflexivity|].
        rewrite app_assoc. eapply moved_trans; [apply moved_ask, Hm1|eassumption].
  - (* map *)
    destruct v as [| | | |l| | | |]; cbn in Hv; try contradiction. destruct Hv as (Hl & Hinc & Hf).
    cbn [read_binary]. cbn [encode] in *. rewrite <- app_assoc in Hb.
    set (enc := fun kv : val * val => encode k (fst kv) ++ encode t (snd kv)) in *.
    destruct (read_uint_exact 4 (N.of_nat (length l)) c pre (concat (map enc l) ++ post) ltac:(lia) (fits_bound _ Hf) Hi He Hb Hp)
      as (c1 & E1 & Hm1). rewrite E1. cbn [obind].
    assert (Hi1 : inside c1) by (eapply inside_moved_app; eauto).
    rewrite loop_nloop, Nat2N.id.
    match goal with |- context [nloop _ ?body _] => set (B := body) end.
    destruct (loop_items B (fun m kv => map_insert m (fst kv) (snd kv)) enc post l [] c1
                (pre ++ number 4 (N.of_nat (length l)))) as (c2 & E2 & Hm2).
    + intros [x y] acc c0 pre0 post0 Hx Hi0 He0 Hb0 Hp0. unfold B, enc in *. cbn [fst snd] in *.
      destruct Hw as [Hwk Hwt]. rewrite Forall_forall in Hl. specialize (Hl _ Hx). cbn [fst snd] in Hl.
      assert (Hrk : reads k x) by (apply IHk; tauto). assert (Hrt : reads t y) by (apply IH; tauto).
      rewrite <- app_assoc in Hb0.
      destruct (read_value_exact k x c0 pre0 (encode t y ++ post0) Hwk Hrk Hi0 He0 Hb0 Hp0) as (c' & E & Hm).
      rewrite E. cbn [obind].
      assert (Hi' : inside c') by (eapply inside_moved_app; eauto).
      destruct (read_value_exact t y c' (pre0 ++ encode k x) post0 Hwt Hrt Hi') as (c'' & E' & Hm').
      { apply Hm. } { destruct Hm as (-> & _). rewrite Hb0. now rewrite <- app_assoc. } { apply Hm. }
      rewrite E'. cbn [obind]. destruct Hm' as (Hm_b & Hm_p & Hm_e). rewrite Hm_e.
      exists c''. split; [reflexivity|]. rewrite app_assoc. repeat split; auto. rewrite Hm_b. apply Hm.
    + assumption.
    + apply Hm1.
    + destruct Hm1 as (-> & _). rewrite Hb. now rewrite <- app_assoc.
    + apply Hm1.
    + rewrite E2. cbn [obind fst snd]. rewrite fold_map_insert by exact Hinc. cbn [app].
      exists c2. split; [reflexivity|]. rewrite app_assoc. eapply moved_trans; eauto.
  - (* set *)
    destruct v as [| | | | |l| | |]; cbn in Hv; try contradiction. destruct Hv as (Hl & Hinc & Hf).
    cbn [read_binary]. cbn [encode] in *. rewrite <- app_assoc in Hb.
    destruct (read_uint_exact 4 (N.of_nat (length l)) c pre (concat (map (encode t) l) ++ post) ltac:(lia) (fits_bound _ Hf) Hi He Hb Hp)
      as (c1 & E1 & Hm1). rewrite E1. cbn [obind].
    assert (Hi1 : inside c1) by (eapply inside_moved_app; eauto).
    rewrite loop_nloop, Nat2N.id.
    match goal with |- context [nloop _ ?body _] => set (B := body) end.
    destruct (loop_items B set_insert (encode t) post l [] c1
                (pre ++ number 4 (N.of_nat (length l)))) as (c2 & E2 & Hm2).
    + intros x acc c0 pre0 post0 Hx Hi0 He0 Hb0 Hp0. unfold B.
      assert (Hr : reads t x) by (apply IH; [exact Hw|]; rewrite Forall_forall in Hl; auto).
      destruct (read_value_exact t x c0 pre0 post0 Hw Hr Hi0 He0 Hb0 Hp0) as (c' & E & Hm).
      rewrite E. cbn [obind]. destruct Hm as (Hm_b & Hm_p & Hm_e). rewrite Hm_e.
      exists c'. split; [reflexivity|]. repeat split; auto.
    + assumption.
    + apply Hm1.
    + destruct Hm1 as (-> & _). rewrite Hb. now rewrite <- app_assoc.
    + apply Hm1.
    + rewrite E2. cbn [obind fst snd]. rewrite fold_set_insert by exact Hinc. cbn [app].
      exists c2. split; [reflexivity|]. rewrite app_assoc. eapply moved_trans; eauto.
  - (* pair *)
    destruct v as [| | | | | |x y| |]; cbn in Hv; try contradiction. destruct Hv as [Hx Hy].
    destruct old as [| | | | | |ox oy| |]; cbn in Hold; try contradiction. destruct Hold as [Hox Hoy].
    destruct Hw as [Hwa Hwb]. cbn [read_binary]. cbn [encode] in *. rewrite He. rewrite <- app_assoc in Hb.
    destruct (IHa Hwa x Hx c pre (encode b y ++ post) ox Hi He Hb Hp Hox) as (c1 & E1 & Hm1).
    rewrite E1. cbn [obind]. pose proof Hm1 as (Hb1 & Hp1 & He1). rewrite He1.
    destruct (IHb Hwb y Hy c1 (pre ++ encode a x) post oy) as (c2 & E2 & Hm2); auto.
    { eapply inside_moved_app; eauto. } { rewrite Hb1, Hb. now rewrite <- app_assoc. }
    rewrite E2. cbn [obind]. exists c2. split; [reflexivity|]. rewrite app_assoc. eapply moved_trans; eauto.
  - (* optional *)
    destruct v as [| | | | | | |[v|]|]; cbn in Hv; try contradiction; cbn [read_binary]; cbn [encode] in *.
    + change (1%N :: encode t v) with (number 1 1 ++ encode t v) in *. rewrite <- app_assoc in Hb.
      destruct (read_uint_exact 1 1 c pre (encode t v ++ post) ltac:(lia) ltac:(reflexivity) Hi He Hb Hp) as (c1 & E1 & Hm1).
      rewrite E1. cbn [obind]. pose proof Hm1 as (Hb1 & Hp1 & He1). rewrite He1. cbn [negb andb N.eqb].
      destruct (IH Hw v Hv c1 (pre ++ number 1 1) post (dflt t)) as (c2 & E2 & Hm2); auto.
      { eapply inside_moved_app; eauto. } { rewrite Hb1, Hb. now rewrite <- app_assoc. } { now apply dflt_has_ty. }
      rewrite E2. cbn [obind]. exists c2. split; [reflexivity|]. rewrite app_assoc. eapply moved_trans; eauto.
    + change [0%N] with (number 1 0) in *.
      destruct (read_uint_exact 1 0 c pre post ltac:(lia) ltac:(reflexivity) Hi He Hb Hp) as (c1 & E1 & Hm1).
      rewrite E1. cbn [obind]. rewrite andb_false_r. exists c1. auto.
  - (* variant *)
    destruct v as [| | | | | | | |i v]; cbn in Hv; try contradiction.
    apply wf_var in Hw. destruct Hw as [Hlen Hwf].
    cbn [read_binary]. cbn [encode] in *. rewrite pick_ty in Hb. rewrite pick_ty. rewrite pick_ty in Hv.
    destruct (nth_error ts i) as [t0|] eqn:Et; [|contradiction].
    assert (Hil : i < length ts) by (apply nth_error_Some; congruence).
    rewrite <- app_assoc in Hb.
    destruct (read_uint_exact 1 (N.of_nat i) c pre (encode t0 v ++ post) ltac:(lia)
      ltac:(change (2 ^ (8 * N.of_nat 1))%N with 256%N; lia) Hi He Hb Hp) as (c1 & E1 & Hm1).
    rewrite E1. cbn [obind]. pose proof Hm1 as (Hb1 & Hp1 & He1).
    rewrite visit_spec, Nat2N.id, Et, He1.
    pose proof (nth_error_In _ _ Et) as Hin. rewrite Forall_forall in IH, Hwf.
    destruct (IH t0 Hin (Hwf t0 Hin) v Hv c1 (pre ++ number 1 (N.of_nat i)) post (dflt t0)) as (c2 & E2 & Hm2); auto.
    { eapply inside_moved_app; eauto. } { rewrite Hb1, Hb. now rewrite <- app_assoc. } { apply dflt_has_ty; auto. }
    rewrite E2. cbn [obind]. pose proof Hm2 as (Hb2 & Hp2 & He2). rewrite He2.
    exists c2. split; [reflexivity|]. rewrite app_assoc. eapply moved_trans; eauto.
  - (* user types *)
    destruct (has_ty_rec _ _ Hv) as (vs & -> & Hvs). destruct (has_ty_rec _ _ Hold) as (olds & -> & Holds).
    rewrite encode_rec in *. rewrite read_rec.
    destruct (members_round_trip ts IH (wf_rec _ Hw) vs olds c pre post Hvs Holds Hi He Hb Hp) as (c' & E & Hm).
    rewrite E. cbn [obind]. eauto.
Qed.
