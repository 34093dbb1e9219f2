From Coq Require Import List NArith Arith Bool Lia.
From Verif Require Import Base PathModel PathSpec PathProofs PmemProofs PmemSetProofs SelfModel.
Import ListNotations.

(* ---------- windows ---------- *)

Lemma window_length b r n : length (window b r n) = n.
Proof. unfold window. now rewrite map_length, seq_length. Qed.
Lemma window_ext b b' r n : (forall j, r <= j < r + n -> b' j = b j) -> window b' r n = window b r n.
Proof. intros H. apply map_ext_in. intros j Hj. apply in_seq in Hj. apply H. lia. Qed.
Lemma window_S b r n : window b r (S n) = window b r n ++ [b (r + n)].
Proof. unfold window. now rewrite seq_S, map_app. Qed.
Lemma window_cons b r n : window b r (S n) = b r :: window b (S r) n.
Proof. reflexivity. Qed.
Lemma window_firstn b k : forall r n, k <= n -> firstn k (window b r n) = window b r k.
Proof. induction k as [|k IH]; intros r n H; [reflexivity|]. destruct n; [lia|]. cbn. f_equal. apply IH. lia. Qed.
Lemma window_skipn b k : forall r n, k <= n -> skipn k (window b r n) = window b (r + k) (n - k).
Proof.
  induction k as [|k IH]; intros r n H; [cbn; now rewrite Nat.add_0_r, Nat.sub_0_r|]. destruct n; [lia|].
  cbn [window seq map skipn]. fold (window b (S r) n). rewrite IH by lia. f_equal. lia.
Qed.
Lemma window_rd b i : forall r n, i < n -> rd (window b r n) i = Ok (b (r + i)).
Proof.
  intros r n H. rewrite rd_skipn, window_skipn by lia. destruct (n - i) as [|k] eqn:E; [lia|]. reflexivity.
Qed.

Lemma put_other b i c j : j <> i -> put b i c j = b j.
Proof. intros H. unfold put. apply Nat.eqb_neq in H. now rewrite H. Qed.
Lemma put_same b i c : put b i c i = c.
Proof. unfold put. now rewrite Nat.eqb_refl. Qed.

Lemma append_seen o c : window (buf (o_append o c)) 0 (size (o_append o c)) = window (buf o) 0 (size o) ++ [c].
Proof.
  cbn [o_append buf size]. rewrite window_S. f_equal.
  - apply window_ext. intros j Hj. rewrite !put_other by lia. reflexivity.
  - f_equal. rewrite put_other by lia. cbn. apply put_same.
Qed.
Lemma append_buf o c j : size o + 1 < j -> buf (o_append o c) j = buf o j.
Proof. intros H. cbn. rewrite !put_other by lia. reflexivity. Qed.

(** [o2] is [o] with more text; what is read from [r] on is the same. *)
Definition grown (o o2 : own) (r : nat) (v : list N) : Prop :=
  window (buf o2) 0 (size o2) = v /\ size o2 = length v /\ segs_ o2 = segs_ o /\ forall j, r <= j -> buf o2 j = buf o j.

Lemma decode_own (text : list N) r len : forall fuel i o, window (buf o) (r + i) (len - i) = skipn i text -> length text = len ->
  size o + 1 <= r + i ->
  match decode_loop fuel text i (window (buf o) 0 (size o)) with
  | LOk v => exists o2, o_decode fuel r len i o = OOk o2 /\ grown o o2 (r + len) v /\ length v <= size o + (len - i)
  | LThrow v => exists o2, o_decode fuel r len i o = OThrow o2 /\ grown o o2 (r + len) v
  | LUB => True
  end.
Proof.
  induction fuel as [|fuel IH]; intros i o T L B; [exact I|]. cbn [decode_loop o_decode]. rewrite L.
  assert (G0 : grown o o (r + len) (window (buf o) 0 (size o))) by (split; [reflexivity|]; split; [now rewrite window_length|]; auto).
  destruct (Nat.ltb_spec i len) as [Li|Li].
  2: { exists o. split; [reflexivity|]. split; [exact G0|]. rewrite window_length. lia. }
  assert (RD : forall k, k < len - i -> rd text (i + k) = Ok (buf o (r + (i + k)))).
  { intros k Hk. rewrite rd_skipn, skipn_plus, <- T, window_skipn by lia. destruct (len - i - k) as [|x] eqn:E; [lia|]. rewrite window_cons.
    do 2 f_equal. lia. }
  pose proof (RD 0 ltac:(lia)) as R0. rewrite Nat.add_0_r in R0. rewrite R0.
  assert (NEXT : forall k c, i + S k <= len ->
    match decode_loop fuel text (i + S k) (window (buf o) 0 (size o) ++ [c]) with
    | LOk v => exists o2, o_decode fuel r len (i + S k) (o_append o c) = OOk o2 /\ grown o o2 (r + len) v /\ length v <= size o + (len - i)
    | LThrow v => exists o2, o_decode fuel r len (i + S k) (o_append o c) = OThrow o2 /\ grown o o2 (r + len) v
    | LUB => True
    end).
  { intros k c Hk. specialize (IH (i + S k) (o_append o c)). rewrite append_seen in IH.
    assert (GG : forall o2 v, grown (o_append o c) o2 (r + len) v -> grown o o2 (r + len) v).
    { intros o2 v (G1 & G2 & G3 & G4). split; [exact G1|]. split; [exact G2|]. split; [exact G3|]. intros j Hj.
      rewrite G4 by exact Hj. apply append_buf. lia. }
    destruct (decode_loop fuel text (i + S k) _) as [v|v|]; [| |exact I].
    - destruct IH as (o2 & E & G & Lv); [|exact L|cbn; lia|exists o2; split; [exact E|]; split; [auto|cbn in Lv; lia]].
      rewrite (window_ext (buf o)) by (intros j Hj; apply append_buf; lia).
      rewrite skipn_plus, <- T, window_skipn by lia. f_equal; lia.
    - destruct IH as (o2 & E & G); [|exact L|cbn; lia|exists o2; split; [exact E|]; auto].
      rewrite (window_ext (buf o)) by (intros j Hj; apply append_buf; lia).
      rewrite skipn_plus, <- T, window_skipn by lia. f_equal; lia. }
  destruct (negb (buf o (r + i) =? ch_percent)%N).
  - apply (NEXT 0). lia.
  - destruct (Nat.leb_spec len (i + 2)) as [L2|L2]; [exists o; auto|].
    rewrite (RD 1), (RD 2) by lia.
    destruct (from_xdigit (buf o (r + (i + 1)))); [|exists o; auto]. destruct (from_xdigit (buf o (r + (i + 2)))); [|exists o; auto].
    destruct (_ =? ch_slash)%N; [exists o; auto|]. apply (NEXT 2). lia.
Qed.

Definition osep (o : own) : nat := match size o with O => 0 | _ => 1 end.

Lemma seen_nil o : match window (buf o) 0 (size o) with [] => true | _ => false end = match size o with O => true | _ => false end.
Proof. destruct (size o); reflexivity. Qed.

(** The path and the rest of the text agree. *)
Definition agree (o o2 : own) (r : nat) (p : path) : Prop := seen o2 = p /\ forall j, r <= j -> buf o2 j = buf o j.

Lemma push_own o r len : size o + osep o + 1 <= r ->
  match push_decoded_segment (seen o) (window (buf o) r len) with
  | POk p => exists o2, o_push o r len = OOk o2 /\ agree o o2 (r + len) p /\ size o2 <= size o + osep o + len
  | PThrow p => exists o2, o_push o r len = OThrow o2 /\ agree o o2 (r + len) p
  | PUB => True
  end.
Proof.
  intros B. unfold push_decoded_segment, o_push. cbn [seen value_ segments_]. rewrite window_length.
  set (o1 := match size o with O => o | _ => o_append o ch_slash end).
  assert (V1 : match window (buf o) 0 (size o) with [] => window (buf o) 0 (size o) | _ => window (buf o) 0 (size o) ++ [ch_slash] end
               = window (buf o1) 0 (size o1)).
  { unfold o1. destruct (size o) as [|n] eqn:E; [rewrite E; reflexivity|]. rewrite append_seen, E. reflexivity. }
  assert (S1 : size o1 = size o + osep o). { unfold o1, osep. destruct (size o) eqn:E; cbn; lia. }
  assert (Q1 : segs_ o1 = segs_ o). { unfold o1. destruct (size o); reflexivity. }
  assert (B1 : forall j, r <= j -> buf o1 j = buf o j).
  { intros j Hj. unfold o1, osep in *. destruct (size o) eqn:E; [reflexivity|]. apply append_buf. lia. }
  rewrite V1, window_length.
  pose proof (decode_own (window (buf o) r len) r len (S len) 0 o1) as D. rewrite Nat.add_0_r, Nat.sub_0_r in D.
  assert (D1 : window (buf o1) r len = window (buf o) r len) by (apply window_ext; intros j Hj; apply B1; lia).
  specialize (D D1 (window_length _ _ _) ltac:(lia)). clearbody o1.
  destruct (decode_loop _ _ _ _) as [v|v|]; [| |exact I].
  - destruct D as (o2 & -> & (G1 & G2 & G3 & G4) & Lv). eexists. split; [reflexivity|]. split; [split|].
    + unfold seen. cbn [buf size segs_]. rewrite G1, G3, Q1, G2. reflexivity.
    + intros j Hj. cbn. rewrite G4 by exact Hj. apply B1. lia.
    + cbn. lia.
  - destruct D as (o2 & -> & (G1 & G2 & G3 & G4)). exists o2. split; [reflexivity|]. split.
    + unfold seen. rewrite G1, G3, Q1. reflexivity.
    + intros j Hj. rewrite G4 by exact Hj. apply B1. lia.
Qed.

Lemma pop_own o r : size o + 1 <= r -> agree o (o_pop o) r (pop_segment (seen o)) /\ size (o_pop o) <= size o.
Proof.
  intros B. unfold o_pop, pop_segment. cbn [seen segments_ value_]. destruct (rev (segs_ o)) as [|last front].
  - split; [|lia]. split; [reflexivity|auto].
  - set (n0 := if seg_offset last =? 0 then _ else _). split; [|cbn; lia]. split.
    + unfold seen. cbn [buf size segs_]. f_equal. rewrite (window_ext (buf o)) by (intros j Hj; apply put_other; lia).
      destruct (Nat.le_gt_cases n0 (size o)) as [L|L].
      * rewrite Nat.min_l by exact L. symmetry. apply window_firstn, L.
      * rewrite Nat.min_r by lia. rewrite firstn_all2; [reflexivity|]. rewrite window_length. lia.
    + intros j Hj. cbn. apply put_other. lia.
Qed.

Lemma step_own o r len : size o + osep o + 1 <= r ->
  match p_step (seen o) (window (buf o) r len) with
  | POk p => exists o2, o_step o r len = OOk o2 /\ agree o o2 (r + len) p /\ size o2 <= size o + osep o + len
  | PThrow p => exists o2, o_step o r len = OThrow o2 /\ agree o o2 (r + len) p
  | PUB => True
  end.
Proof.
  intros B. unfold p_step, o_step. rewrite window_length.
  destruct (negb (len =? 0)).
  - destruct (str_eqb _ [ch_dot]).
    { exists o. split; [reflexivity|]. split; [split; [reflexivity|auto]|lia]. }
    destruct (str_eqb _ [ch_dot; ch_dot]); [|now apply push_own].
    destruct (pop_own o (r + len) ltac:(lia)) as [P Q]. exists (o_pop o). split; [reflexivity|]. split; [exact P|lia].
  - exists o. split; [reflexivity|]. split; [split; [reflexivity|auto]|lia].
Qed.

Lemma osep_le o : osep o <= 1.
Proof. unfold osep. destruct (size o); lia. Qed.

Lemma find_slash_lt s n : find_slash s = Some n -> n < length s.
Proof. intros H. apply pieces_some in H. apply H. Qed.

Lemma loop_own : forall fuel r n o, size o + osep o + 1 <= r -> n < fuel ->
  match set_loop fuel (window (buf o) r n) (seen o) with
  | POk p => exists o2, o_loop fuel r n o = OOk o2 /\ seen o2 = p
  | PThrow p => exists o2, o_loop fuel r n o = OThrow o2 /\ seen o2 = p
  | PUB => True
  end.
Proof.
  induction fuel as [|fuel IH]; intros r n o B Hf; [exact I|]. rewrite set_loop_step. cbn [o_loop]. rewrite window_length.
  destruct (find_slash (window (buf o) r n)) as [k|] eqn:E.
  - pose proof (find_slash_lt _ _ E) as Lk. rewrite window_length in Lk. rewrite window_firstn by lia.
    pose proof (step_own o r k B) as ST. destruct (p_step _ _) as [p|p|]; [| |exact I].
    + destruct ST as (o2 & -> & [S2 A2] & L2). rewrite window_skipn by lia.
      assert (W : window (buf o) (r + (k + 1)) (n - (k + 1)) = window (buf o2) (r + (k + 1)) (n - (k + 1))).
      { symmetry. apply window_ext. intros j Hj. apply A2. lia. }
      rewrite W, <- S2. apply IH; [|lia]. pose proof (osep_le o2). lia.
    + destruct ST as (o2 & -> & [S2 _]). exists o2. auto.
  - rewrite window_firstn by lia. pose proof (step_own o r n B) as ST. destruct (p_step _ _) as [p|p|]; [| |exact I].
    + destruct ST as (o2 & -> & [S2 _] & _). exists o2. auto.
    + destruct ST as (o2 & -> & [S2 _]). exists o2. auto.
Qed.

Lemma set_own o r n q : 1 <= r ->
  match path_set q (window (buf o) r n) with
  | POk p => exists o2, o_set o r n = OOk o2 /\ seen o2 = p
  | PThrow p => exists o2, o_set o r n = OThrow o2 /\ seen o2 = p
  | PUB => False
  end.
Proof.
  intros B. assert (W : forall r' n', 1 <= r' -> window (buf (o_clear o)) r' n' = window (buf o) r' n').
  { intros r' n' H. apply window_ext. intros j Hj. cbn. apply put_other. lia. }
  assert (X : match path_set q (window (buf o) r n) with POk _ | PThrow _ => True | PUB => False end).
  { pose proof (path_set_spec q (window (buf o) r n)) as P. destruct (path_meaning _); [destruct P as (? & -> & _)|destruct P as (? & ? & -> & _)]; exact I. }
  unfold o_set. rewrite W by exact B. destruct (short (window (buf o) r n)) eqn:Sh.
  { unfold path_set. fold (short (window (buf o) r n)). rewrite Sh. unfold short in Sh. rewrite window_length in Sh. rewrite Sh.
    exists (o_clear o). auto. }
  pose proof Sh as Sh'. unfold short in Sh'. rewrite window_length in Sh'. rewrite Sh'. rewrite path_set_body in * by exact Sh.
  assert (E0 : buf (o_clear o) r = buf o r) by (cbn; apply put_other; lia). rewrite E0.
  destruct n as [|n]; [discriminate|]. rewrite window_cons in *. cbn [body] in *.
  destruct (buf o r =? ch_slash)%N.
  - replace (S n - 1) with n by lia. rewrite window_length in *. pose proof (loop_own (S n) (r + 1) n (o_clear o)) as P.
    rewrite W in P by lia. change (seen (o_clear o)) with (mkpath [] []) in P. replace (r + 1) with (S r) in * by lia.
    specialize (P ltac:(cbn; lia) ltac:(lia)). destruct (set_loop _ _ _); [exact P|exact P|exact X].
  - pose proof (loop_own (S (S n)) r (S n) (o_clear o)) as P. rewrite W in P by lia. rewrite window_cons in P.
    change (seen (o_clear o)) with (mkpath [] []) in P. cbn [length] in *. rewrite window_length in *.
    specialize (P ltac:(cbn; lia) ltac:(lia)). destruct (set_loop _ _ _); [exact P|exact P|exact X].
Qed.

(* ---------- views of a parsed path ---------- *)

Lemma total_pos segs k s : nth_error segs k = Some s -> 1 <= k -> 1 <= total (firstn k segs).
Proof. destruct segs as [|a l], k as [|k]; try discriminate; try lia. cbn. lia. Qed.

Lemma own_views q s o k seg : path_set q s = POk (seen o) -> nth_error (segs_ o) k = Some seg ->
  (1 <= k -> 1 <= seg_offset seg) /\ seg_offset seg + seg_length seg <= size o /\
  joined (seen o) k = Ok (window (buf o) (seg_offset seg) (size o - seg_offset seg)) /\
  path_at (seen o) k = Ok (window (buf o) (seg_offset seg) (seg_length seg)).
Proof.
  intros P H. pose proof (path_set_spec q s) as SP. rewrite P in SP.
  destruct (path_meaning s) as [segs|]; [|destruct SP as (? & ? & E & _); discriminate].
  destruct SP as (p' & E & R). injection E as <-. pose proof R as (Rv & Rs & _). cbn [seen segments_ value_] in Rv, Rs.
  pose proof (joined_spec _ _ _ k R) as J. pose proof (segment_at_spec _ _ _ 0 k R) as A. fold (path_at (seen o) k) in A.
  assert (RD : rd (segs_ o) k = Ok seg) by (unfold rd; now rewrite H).
  pose proof RD as RD'. rewrite Rs, rd_offs in RD'. destruct (nth_error segs k) as [x|] eqn:Nx; [|discriminate]. injection RD' as Eseg.
  cbn [plus] in A. rewrite Nx in A.
  assert (OFF : 1 <= k -> 1 <= seg_offset seg) by (intros K; rewrite <- Eseg; cbn; pose proof (total_pos _ _ _ Nx K); lia).
  assert (IN : seg_offset seg <= size o /\ joined (seen o) k = Ok (window (buf o) (seg_offset seg) (size o - seg_offset seg))).
  { unfold joined in *. cbn [seen segments_ value_] in *. assert (K : k < length (segs_ o)) by (apply nth_error_Some; congruence).
    apply Nat.leb_gt in K. rewrite K in *. rewrite RD in *. cbn [obind] in *. unfold substr_from in *. rewrite window_length in *.
    destruct (Nat.ltb_spec (size o) (seg_offset seg)); [discriminate|]. split; [assumption|]. now rewrite window_skipn. }
  destruct IN as [IN JJ]. split; [exact OFF|].
  assert (LEN : seg_offset seg + seg_length seg <= size o /\ path_at (seen o) k = Ok (window (buf o) (seg_offset seg) (seg_length seg))).
  { pose proof A as A'. unfold path_at, path_segment_at in A'. cbn [plus seen segments_ value_] in A'. rewrite RD in A'. cbn [obind] in A'.
    unfold substr in A'. rewrite window_length in A'. destruct (Nat.ltb_spec (size o) (seg_offset seg)); [discriminate|].
    rewrite window_skipn in A' by lia. assert (Lx : seg_length seg = length x) by (rewrite <- Eseg; reflexivity).
    assert (L2 : seg_offset seg + seg_length seg <= size o).
    { injection A' as A'. apply (f_equal (@length N)) in A'. rewrite firstn_length, window_length in A'. lia. }
    split; [exact L2|]. rewrite A, <- A'. f_equal. apply window_firstn. lia. }
  destruct LEN as [L2 AA]. auto.
Qed.
