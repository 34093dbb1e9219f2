(** Proofs about the Base64 model. *)
From Coq Require Import List NArith Lia Bool Arith.
From Verif Require Import Base Sweep Base64Model Base64Spec.
Import ListNotations.
Local Open Scope N_scope.
Local Open Scope outcome_scope.

(* ---------- encoder, character level ---------- *)

Lemma alphabet_eq (url : bool) :
  (if url then base64url_alphabet else base64_alphabet) = rfc_alphabet url.
Proof. destruct url; reflexivity. Qed.

Lemma length_alphabet url : length (rfc_alphabet url) = 64%nat.
Proof. destruct url; reflexivity. Qed.

Lemma lookup_ok url c : base64_lookup url c = Ok (alpha_char url (N.land c 63)).
Proof.
  unfold base64_lookup, alpha_char.
  assert (Hlt : N.land c 63 < 64).
  { change 63 with (N.ones 6). rewrite N.land_ones. apply N.mod_lt. discriminate. }
  replace (if url then rd base64url_alphabet (N.to_nat (N.land c 63))
           else rd base64_alphabet (N.to_nat (N.land c 63)))
    with (rd (rfc_alphabet url) (N.to_nat (N.land c 63)))
    by (rewrite <- alphabet_eq; destruct url; reflexivity).
  unfold rd. rewrite (nth_error_nth' _ 0). reflexivity.
  rewrite length_alphabet. lia.
Qed.

Notation bit n i := (N.testbit n i).

Lemma enc_c0 a : is_byte a ->
  N.land (N.shiftr a 2) 63 = value [bit a 7; bit a 6; bit a 5; bit a 4; bit a 3; bit a 2].
Proof.
  intros H. apply N.eqb_eq. revert a H. apply (sweep 256). vm_compute. reflexivity.
Qed.

Lemma enc_c1 a b : is_byte a -> is_byte b ->
  N.land (N.lor (byte_shl (N.land a 3) 4) (N.shiftr b 4)) 63
  = value [bit a 1; bit a 0; bit b 7; bit b 6; bit b 5; bit b 4].
Proof.
  intros H H'. apply N.eqb_eq. revert a b H H'. apply (sweep2 256 256).
  vm_compute. reflexivity.
Qed.

Lemma enc_c2 b c : is_byte b -> is_byte c ->
  N.land (N.lor (byte_shl b 2) (N.shiftr c 6)) 63
  = value [bit b 3; bit b 2; bit b 1; bit b 0; bit c 7; bit c 6].
Proof.
  intros H H'. apply N.eqb_eq. revert b c H H'. apply (sweep2 256 256).
  vm_compute. reflexivity.
Qed.

Lemma enc_c3 c : is_byte c ->
  N.land c 63 = value [bit c 5; bit c 4; bit c 3; bit c 2; bit c 1; bit c 0].
Proof.
  intros H. apply N.eqb_eq. revert c H. apply (sweep 256). vm_compute. reflexivity.
Qed.

Lemma enc_t1 a : is_byte a ->
  N.land (byte_shl (N.land a 3) 4) 63
  = value [bit a 1; bit a 0; false; false; false; false].
Proof.
  intros H. apply N.eqb_eq. revert a H. apply (sweep 256). vm_compute. reflexivity.
Qed.

Lemma enc_t2 b : is_byte b ->
  N.land (byte_shl b 2) 63 = value [bit b 3; bit b 2; bit b 1; bit b 0; false; false].
Proof.
  intros H. apply N.eqb_eq. revert b H. apply (sweep 256). vm_compute. reflexivity.
Qed.

(* ---------- list induction in groups ---------- *)

Lemma list3_ind {A} (P : list A -> Prop) :
  P [] -> (forall a, P [a]) -> (forall a b, P [a; b]) ->
  (forall a b c l, P l -> P (a :: b :: c :: l)) -> forall l, P l.
Proof.
  intros H0 H1 H2 H3 l.
  assert (H : P l /\ (forall a, P (a :: l)) /\ (forall a b, P (a :: b :: l))).
  { induction l as [|x l (IH0 & IH1 & IH2)]; auto 6. }
  apply H.
Qed.

Lemma list4_ind {A} (P : list A -> Prop) :
  P [] -> (forall a, P [a]) -> (forall a b, P [a; b]) -> (forall a b c, P [a; b; c]) ->
  (forall a b c d l, P l -> P (a :: b :: c :: d :: l)) -> forall l, P l.
Proof.
  intros H0 H1 H2 H3 H4 l.
  assert (H : P l /\ (forall a, P (a :: l)) /\ (forall a b, P (a :: b :: l))
              /\ (forall a b c, P (a :: b :: c :: l))).
  { induction l as [|x l (IH0 & IH1 & IH2 & IH3)]; auto 8. }
  apply H.
Qed.

Definition rfc_body (url : bool) (s : list N) : list N :=
  map (fun g => alpha_char url (value g)) (sextets (byte_bits s)).

Lemma rfc_body_cons3 url a b c s :
  rfc_body url (a :: b :: c :: s)
  = alpha_char url (value [bit a 7; bit a 6; bit a 5; bit a 4; bit a 3; bit a 2])
    :: alpha_char url (value [bit a 1; bit a 0; bit b 7; bit b 6; bit b 5; bit b 4])
    :: alpha_char url (value [bit b 3; bit b 2; bit b 1; bit b 0; bit c 7; bit c 6])
    :: alpha_char url (value [bit c 5; bit c 4; bit c 3; bit c 2; bit c 1; bit c 0])
    :: rfc_body url s.
Proof. reflexivity. Qed.

Lemma div_mod_cons3 (n : nat) :
  ((3 + n) / 3 = S (n / 3))%nat.
Proof.
  change (3 + n)%nat with (1 * 3 + n)%nat. rewrite Nat.div_add_l by lia. lia.
Qed.

Lemma div_mod_cons4 (n : nat) :
  ((4 + n) / 4 = S (n / 4))%nat.
Proof.
  change (4 + n)%nat with (1 * 4 + n)%nat. rewrite Nat.div_add_l by lia. lia.
Qed.

Lemma rd_app0 {A} (p q : list A) x n : n = length p -> rd (p ++ x :: q) n = Ok x.
Proof. intros ->. apply rd_app. Qed.

Lemma rd_app_plus {A} (p q : list A) k :
  rd (p ++ q) (length p + k) = match nth_error q k with Some b => Ok b | None => UB end.
Proof. unfold rd. rewrite nth_error_app2 by lia. do 2 f_equal. now replace (length p + k - length p)%nat with k by lia. Qed.

Lemma wr_at {A} (p q : list A) x v n : n = length p ->
  wr (p ++ x :: q, n) v = Ok ((p ++ [v]) ++ q, S n).
Proof. intros ->. rewrite wr_app. rewrite <- app_assoc. reflexivity. Qed.

Definition tail_len (s : list N) : nat := (length s - Nat.div (length s) 3 * 3)%nat.

(** The part of the text produced for the last, incomplete group. *)
Definition enc_full (url : bool) (s : list N) : list N :=
  firstn (4 * (length s / 3)) (rfc_body url s).

Lemma encode_loop_ok url s : Forall is_byte s -> forall pre dpre k,
  encode_loop url (pre ++ s) (Nat.div (length s) 3) (length pre)
    (dpre ++ repeat 0 (4 * (length s / 3) + k), length dpre)
  = Ok ((length pre + 3 * (length s / 3))%nat,
        (dpre ++ enc_full url s ++ repeat 0 k,
         (length dpre + 4 * (length s / 3))%nat)).
Proof.
  unfold enc_full.
  induction s as [|a|a b|a b c s IH] using list3_ind; intros Hs pre dpre k.
  1-3: cbn; rewrite !Nat.add_0_r; reflexivity.
  inversion_clear Hs as [|? ? Ha Hs1]; inversion_clear Hs1 as [|? ? Hb Hs2];
    inversion_clear Hs2 as [|? ? Hc Hs3].
  change (length (a :: b :: c :: s)) with (3 + length s)%nat.
  rewrite div_mod_cons3.
  replace (4 * S (length s / 3))%nat with (S (S (S (S (4 * (length s / 3))))))%nat by lia.
  cbn [encode_loop].
  rewrite (rd_app0 pre) by lia. cbn [obind].
  rewrite !rd_app_plus. cbn [nth_error obind].
  rewrite !lookup_ok. cbn [obind plus repeat].
  rewrite enc_c0, enc_c1, enc_c2, enc_c3 by assumption.
  rewrite !wr_at by (rewrite ?app_length; cbn; lia). cbn [obind].
  rewrite !wr_at by (rewrite ?app_length; cbn; lia). cbn [obind].
  rewrite !wr_at by (rewrite ?app_length; cbn; lia). cbn [obind].
  rewrite !wr_at by (rewrite ?app_length; cbn; lia). cbn [obind].
  specialize (IH Hs3 (pre ++ [a; b; c])
    ((((dpre ++ [alpha_char url (value [bit a 7; bit a 6; bit a 5; bit a 4; bit a 3; bit a 2])]) ++
      [alpha_char url (value [bit a 1; bit a 0; bit b 7; bit b 6; bit b 5; bit b 4])]) ++
      [alpha_char url (value [bit b 3; bit b 2; bit b 1; bit b 0; bit c 7; bit c 6])]) ++
      [alpha_char url (value [bit c 5; bit c 4; bit c 3; bit c 2; bit c 1; bit c 0])]) k).
  rewrite <- app_assoc in IH. cbn [app] in IH.
  replace (length (pre ++ [a; b; c])) with (length pre + 3)%nat in IH
    by (rewrite app_length; cbn; lia).
  rewrite !app_length in IH. cbn [length] in IH.
  replace (length dpre + 1 + 1 + 1 + 1)%nat with (S (S (S (S (length dpre))))) in IH by lia.
  rewrite IH. rewrite rfc_body_cons3. cbn [firstn].
  rewrite <- !app_assoc. cbn [app].
  f_equal. f_equal; [lia|]. f_equal. lia.
Qed.

Definition pad_len (url : bool) (s : list N) : nat :=
  if url then 0%nat
  else match tail_len s with 1%nat => 2%nat | 2%nat => 1%nat | _ => 0%nat end.

Lemma tail_len_cons3 a b c s : tail_len (a :: b :: c :: s) = tail_len s.
Proof.
  unfold tail_len. change (length (a :: b :: c :: s)) with (3 + length s)%nat.
  rewrite div_mod_cons3. lia.
Qed.

Lemma length_body url s :
  length (rfc_body url s)
  = (4 * (length s / 3) + match tail_len s with 1 => 2 | 2 => 3 | _ => 0 end)%nat.
Proof.
  induction s as [|a|a b|a b c s IH] using list3_ind; try reflexivity.
  rewrite rfc_body_cons3. cbn [length]. rewrite IH, tail_len_cons3.
  change (S (S (S (length s)))) with (3 + length s)%nat. rewrite div_mod_cons3. lia.
Qed.

Lemma tail_len_cases s : tail_len s = 0%nat \/ tail_len s = 1%nat \/ tail_len s = 2%nat.
Proof.
  unfold tail_len. pose proof (Nat.div_mod (length s) 3).
  pose proof (Nat.mod_upper_bound (length s) 3). lia.
Qed.

Lemma rfc_encode_body url s :
  rfc_encode url s = rfc_body url s ++ repeat pad_char (pad_len url s).
Proof.
  unfold rfc_encode, pad_len. fold (rfc_body url s).
  destruct url. { now rewrite app_nil_r. }
  do 2 f_equal. rewrite length_body.
  replace (4 * (length s / 3) + match tail_len s with 1 => 2 | 2 => 3 | _ => 0 end)%nat
    with (match tail_len s with 1 => 2 | 2 => 3 | _ => 0 end + (length s / 3) * 4)%nat by lia.
  rewrite Nat.mod_add by lia.
  destruct (tail_len_cases s) as [-> | [-> | ->]]; reflexivity.
Qed.

Lemma full_split {A} (s : list A) :
  exists p t, s = p ++ t /\ length p = (3 * (length s / 3))%nat
              /\ length t = (length s - length s / 3 * 3)%nat.
Proof.
  exists (firstn (3 * (length s / 3)) s), (skipn (3 * (length s / 3)) s).
  rewrite firstn_skipn. split; [reflexivity|].
  rewrite firstn_length, skipn_length.
  pose proof (Nat.div_mod (length s) 3). lia.
Qed.

Lemma rfc_body_split url p t :
  (exists n, length p = 3 * n)%nat ->
  rfc_body url (p ++ t) = rfc_body url p ++ rfc_body url t.
Proof.
  intros [n Hn]. revert n Hn.
  induction p as [|a|a b|a b c p IH] using list3_ind; intros n Hn; cbn in Hn; try lia.
  - reflexivity.
  - change ((a :: b :: c :: p) ++ t) with (a :: b :: c :: (p ++ t)).
    rewrite !rfc_body_cons3. rewrite (IH (n - 1)%nat) by lia. reflexivity.
Qed.

Lemma encode_ok url s : Forall is_byte s ->
  base64_encode_impl url s = Ok (rfc_encode url s).
Proof.
  intros Hs. unfold base64_encode_impl. fold (tail_len s).
  set (ot := if (tail_len s =? 0)%nat then 0%nat else if url then (tail_len s + 1)%nat else 4%nat).
  pose proof (encode_loop_ok url s Hs [] [] ot) as HL.
  cbn [app length plus] in HL. change (@length N []) with 0%nat in HL. rewrite HL.
  cbn [obind]. clear HL.
  destruct (full_split s) as (p & t & -> & Hp & Ht).
  change (length (p ++ t) - length (p ++ t) / 3 * 3)%nat with (tail_len (p ++ t)) in Ht.
  assert (Hbody : rfc_body url (p ++ t) = rfc_body url p ++ rfc_body url t)
    by (apply rfc_body_split; eauto).
  assert (Htail : length (rfc_body url p) = (4 * (length (p ++ t) / 3))%nat).
  { rewrite length_body. unfold tail_len. rewrite Hp.
    rewrite (Nat.mul_comm 3), Nat.div_mul by lia.
    replace (length (p ++ t) / 3 * 3 - length (p ++ t) / 3 * 3)%nat with 0%nat by lia. lia. }
  unfold enc_full. rewrite rfc_encode_body, Hbody.
  rewrite <- Htail, firstn_app, firstn_all, Nat.sub_diag, firstn_O, app_nil_r.
  rewrite <- Hp. change (0 + length p)%nat with (length p).
  replace (0 + length (rfc_body url p))%nat with (length (rfc_body url p)) by lia.
  assert (Hbt : Forall is_byte t) by (apply Forall_app in Hs; tauto).
  unfold pad_len, ot. clear ot.
  destruct t as [|a [|b [|? ?]]]; cbn [length] in Ht; rewrite <- Ht.
  - cbn. destruct url; cbn; rewrite ?app_nil_r; reflexivity.
  - inversion_clear Hbt as [|? ? Ha _].
    unfold encode_tail. cbn [Nat.ltb Nat.leb Nat.eqb plus].
    rewrite rd_app. cbn [obind]. rewrite !lookup_ok, enc_c0, enc_t1 by assumption.
    destruct url; cbn [repeat obind];
      repeat (rewrite wr_at by (rewrite ?app_length; cbn; lia); cbn [obind]);
      cbn [fst]; rewrite <- !app_assoc; reflexivity.
  - inversion_clear Hbt as [|? ? Ha Hbt']; inversion_clear Hbt' as [|? ? Hb _].
    unfold encode_tail. cbn [Nat.ltb Nat.leb Nat.eqb plus].
    rewrite rd_app. cbn [obind]. rewrite rd_app_plus. cbn [nth_error obind].
    rewrite !lookup_ok, enc_c0, enc_c1, enc_t2 by assumption.
    destruct url; cbn [repeat obind];
      repeat (rewrite wr_at by (rewrite ?app_length; cbn; lia); cbn [obind]);
      cbn [fst]; rewrite <- !app_assoc; reflexivity.
  - exfalso. destruct (tail_len_cases (p ++ a :: b :: n :: l)) as [H|[H|H]]; rewrite H in Ht; discriminate.
Qed.

(* ---------- decoder, character level ---------- *)

Lemma index_of_in c l : In c l <-> index_of c l <> None.
Proof.
  induction l as [|h t IH]; cbn.
  - split; [easy|congruence].
  - destruct (N.eqb_spec h c) as [->|Hne].
    + split; [congruence|auto].
    + split; intros H.
      * destruct H as [H|H]; [congruence|]. apply IH in H.
        destruct (index_of c t); cbn; congruence.
      * right. apply IH. destruct (index_of c t); cbn in *; congruence.
Qed.

Definition shifted (url : bool) (sh c : N) : N :=
  match index_of c (rfc_alphabet url) with
  | Some v => N.shiftl v sh
  | None => bad_base64_char
  end.

Definition is_ok_eq (o : outcome N) (v : N) : bool :=
  match o with Ok x => x =? v | _ => false end.

Lemma is_ok_eq_true o v : is_ok_eq o v = true -> o = Ok v.
Proof. destruct o; cbn; intros; try discriminate. apply N.eqb_eq in H. congruence. Qed.

Lemma decode_lookup_ok url sh c : In sh [0; 6; 12; 18] -> is_byte c ->
  base64_decode_lookup url sh c = Ok (shifted url sh c).
Proof.
  intros Hsh Hc. apply is_ok_eq_true. revert c Hc.
  cbn in Hsh. destruct Hsh as [<-|[<-|[<-|[<-|[]]]]]; destruct url;
    apply (sweep 256); vm_compute; reflexivity.
Qed.

Lemma index_of_lt url c v : index_of c (rfc_alphabet url) = Some v -> v < 64.
Proof.
  assert (G : forall l, index_of c l = Some v -> v < N.of_nat (length l)).
  { clear. intros l. revert v. induction l as [|h t IH]; cbn; intros v H; [discriminate|].
    destruct (h =? c). { injection H as <-. lia. }
    destruct (index_of c t) as [w|]; cbn in H; [|discriminate]. injection H as <-.
    specialize (IH w eq_refl). lia. }
  intros H. apply G in H. rewrite length_alphabet in H. exact H.
Qed.

Lemma char_value_lt url c : char_value url c < 64.
Proof.
  unfold char_value. destruct (index_of c (rfc_alphabet url)) eqn:E; [|lia].
  now apply index_of_lt in E.
Qed.

Lemma shifted_in url sh c : In c (rfc_alphabet url) ->
  shifted url sh c = N.shiftl (char_value url c) sh.
Proof.
  intros H. unfold shifted, char_value. apply index_of_in in H.
  destruct (index_of c (rfc_alphabet url)); congruence.
Qed.

Lemma shifted_notin url sh c : ~ In c (rfc_alphabet url) ->
  shifted url sh c = bad_base64_char.
Proof.
  intros H. unfold shifted.
  destruct (index_of c (rfc_alphabet url)) eqn:E; [|reflexivity].
  exfalso. apply H, index_of_in. congruence.
Qed.

Lemma is_base64_shifted url c :
  is_base64 (shifted url 0 c) = true <-> In c (rfc_alphabet url).
Proof.
  rewrite index_of_in. unfold shifted.
  destruct (index_of c (rfc_alphabet url)) as [v|] eqn:E.
  - apply index_of_lt in E. unfold is_base64. rewrite N.shiftl_0_r, N.leb_le.
    split; [congruence|]. intros _. lia.
  - split; [|congruence]. vm_compute. discriminate.
Qed.

Lemma lt_lor a b n : a < 2 ^ n -> b < 2 ^ n -> N.lor a b < 2 ^ n.
Proof.
  intros Ha Hb.
  destruct (N.eq_dec a 0) as [->|Ha0]; [now rewrite N.lor_0_l|].
  destruct (N.eq_dec b 0) as [->|Hb0]; [now rewrite N.lor_0_r|].
  assert (N.lor a b <> 0) by (intros H; apply N.lor_eq_0_iff in H; tauto).
  apply N.log2_lt_pow2; [lia|]. rewrite N.log2_lor.
  apply N.log2_lt_pow2 in Ha; [|lia]. apply N.log2_lt_pow2 in Hb; [|lia]. lia.
Qed.

Lemma le_lor_l a b : a <= N.lor a b.
Proof.
  assert (H : N.lor a b = a + N.ldiff b a).
  { rewrite N.add_nocarry_lxor.
    - apply N.bits_inj. intros i. rewrite N.lor_spec, N.lxor_spec, N.ldiff_spec.
      destruct (N.testbit a i), (N.testbit b i); reflexivity.
    - apply N.bits_inj. intros i. rewrite N.land_spec, N.ldiff_spec, N.bits_0.
      destruct (N.testbit a i), (N.testbit b i); reflexivity. }
  lia.
Qed.

Lemma le_lor_r a b : b <= N.lor a b.
Proof. rewrite N.lor_comm. apply le_lor_l. Qed.

Lemma shiftl_lt v sh : v < 64 -> sh <= 18 -> N.shiftl v sh < bad_base64_char.
Proof.
  intros Hv Hs. unfold bad_base64_char. rewrite !N.shiftl_mul_pow2, N.mul_1_l.
  apply N.lt_le_trans with (64 * 2 ^ sh).
  - apply N.mul_lt_mono_pos_r; [|exact Hv]. apply N.neq_0_lt_0, N.pow_nonzero. discriminate.
  - change 64 with (2 ^ 6). rewrite <- N.pow_add_r. apply N.pow_le_mono_r; lia.
Qed.

Definition quad (url : bool) (a b c d : N) : N :=
  N.lor (N.lor (N.lor (shifted url 18 a) (shifted url 12 b)) (shifted url 6 c)) (shifted url 0 d).

Lemma quad_good url a b c d :
  In a (rfc_alphabet url) -> In b (rfc_alphabet url) ->
  In c (rfc_alphabet url) -> In d (rfc_alphabet url) ->
  (bad_base64_char <=? quad url a b c d) = false.
Proof.
  intros Ha Hb Hc Hd. apply N.leb_gt. unfold quad.
  rewrite !shifted_in by assumption.
  change bad_base64_char with (2 ^ 24).
  repeat apply lt_lor; apply shiftl_lt; try apply char_value_lt; lia.
Qed.

Lemma quad_bad url a b c d :
  ~ (In a (rfc_alphabet url) /\ In b (rfc_alphabet url) /\
     In c (rfc_alphabet url) /\ In d (rfc_alphabet url)) ->
  (bad_base64_char <=? quad url a b c d) = true.
Proof.
  intros H. apply N.leb_le. unfold quad.
  destruct (In_dec N.eq_dec a (rfc_alphabet url));
  [destruct (In_dec N.eq_dec b (rfc_alphabet url));
   [destruct (In_dec N.eq_dec c (rfc_alphabet url));
    [destruct (In_dec N.eq_dec d (rfc_alphabet url)); [tauto|]|]|]|].
  - rewrite (shifted_notin url 0 d) by assumption. apply le_lor_r.
  - rewrite (shifted_notin url 6 c) by assumption.
    etransitivity; [|apply le_lor_l]. apply le_lor_r.
  - rewrite (shifted_notin url 12 b) by assumption.
    etransitivity; [|apply le_lor_l]. etransitivity; [|apply le_lor_l]. apply le_lor_r.
  - rewrite (shifted_notin url 18 a) by assumption.
    etransitivity; [|apply le_lor_l]. etransitivity; [|apply le_lor_l]. apply le_lor_l.
Qed.

Lemma shiftr_small v n k : v < 64 -> 6 + k <= n -> N.shiftr (N.shiftl v k) n = 0.
Proof.
  intros Hv Hn. rewrite N.shiftr_shiftl_r by lia. apply N.shiftr_eq_0.
  destruct (N.eq_dec v 0) as [->|]; [|apply N.log2_lt_pow2; [lia|]].
  - assert (n - k <> 0) by lia. destruct (n - k); [lia|reflexivity].
  - apply N.lt_le_trans with (2 ^ 6); [exact Hv|]. apply N.pow_le_mono_r; lia.
Qed.

Lemma land_shiftl_ff v n : 8 <= n -> N.land (N.shiftl v n) 255 = 0.
Proof.
  intros Hn. apply N.bits_inj. intros i. rewrite N.land_spec, N.bits_0.
  change 255 with (N.ones 8).
  destruct (N.lt_ge_cases i 8).
  - rewrite N.shiftl_spec_low by lia. reflexivity.
  - rewrite N.ones_spec_high by lia. apply andb_false_r.
Qed.

Section Groups.
Variables v0 v1 v2 v3 : N.
Hypothesis (H0 : v0 < 64) (H1 : v1 < 64) (H2 : v2 < 64) (H3 : v3 < 64).
Let q := N.lor (N.lor (N.lor (N.shiftl v0 18) (N.shiftl v1 12)) (N.shiftl v2 6)) (N.shiftl v3 0).

Lemma quad_b0 : N.land (N.shiftr q 16) 255
  = value [bit v0 5; bit v0 4; bit v0 3; bit v0 2; bit v0 1; bit v0 0; bit v1 5; bit v1 4].
Proof.
  unfold q. rewrite !N.shiftr_lor.
  rewrite (N.shiftr_shiftl_l v0) by lia.
  rewrite (N.shiftr_shiftl_r v1) by lia.
  rewrite (shiftr_small v2), (shiftr_small v3) by (assumption || lia).
  rewrite !N.lor_0_r. cbn [N.sub Pos.sub_mask]. 
  apply N.eqb_eq. revert H0 H1. generalize v0 v1. intros x y Hx Hy. revert x y Hx Hy.
  apply (sweep2 64 64). vm_compute. reflexivity.
Qed.

Lemma quad_b1 : N.land (N.shiftr q 8) 255
  = value [bit v1 3; bit v1 2; bit v1 1; bit v1 0; bit v2 5; bit v2 4; bit v2 3; bit v2 2].
Proof.
  unfold q. rewrite !N.shiftr_lor, !N.land_lor_distr_l.
  rewrite (N.shiftr_shiftl_l v0) by lia.
  rewrite land_shiftl_ff by lia.
  rewrite (N.shiftr_shiftl_l v1) by lia.
  rewrite (N.shiftr_shiftl_r v2) by lia.
  rewrite (shiftr_small v3) by (assumption || lia).
  rewrite N.lor_0_r, N.lor_0_l.
  apply N.eqb_eq. revert H1 H2. generalize v1 v2. intros x y Hx Hy. revert x y Hx Hy.
  apply (sweep2 64 64). vm_compute. reflexivity.
Qed.

Lemma quad_b2 : N.land q 255
  = value [bit v2 1; bit v2 0; bit v3 5; bit v3 4; bit v3 3; bit v3 2; bit v3 1; bit v3 0].
Proof.
  unfold q. rewrite !N.land_lor_distr_l.
  rewrite (land_shiftl_ff v0), (land_shiftl_ff v1) by lia.
  rewrite !N.lor_0_l.
  apply N.eqb_eq. revert H2 H3. generalize v2 v3. intros x y Hx Hy. revert x y Hx Hy.
  apply (sweep2 64 64). vm_compute. reflexivity.
Qed.
End Groups.

Lemma tail_b0 x y : x < 64 -> y < 64 ->
  N.land (N.lor (N.shiftl x 2) (N.shiftr y 4)) 255
  = value [bit x 5; bit x 4; bit x 3; bit x 2; bit x 1; bit x 0; bit y 5; bit y 4].
Proof.
  intros Hx Hy. apply N.eqb_eq. revert x y Hx Hy.
  apply (sweep2 64 64). vm_compute. reflexivity.
Qed.

Lemma tail_b1 x y : x < 64 -> y < 64 ->
  N.land (N.lor (N.shiftl x 4) (N.shiftr y 2)) 255
  = value [bit x 3; bit x 2; bit x 1; bit x 0; bit y 5; bit y 4; bit y 3; bit y 2].
Proof.
  intros Hx Hy. apply N.eqb_eq. revert x y Hx Hy.
  apply (sweep2 64 64). vm_compute. reflexivity.
Qed.

Notation cv := char_value.

Lemma rfc_decode_cons4 url a b c d s :
  rfc_decode_body url (a :: b :: c :: d :: s)
  = value [bit (cv url a) 5; bit (cv url a) 4; bit (cv url a) 3; bit (cv url a) 2;
           bit (cv url a) 1; bit (cv url a) 0; bit (cv url b) 5; bit (cv url b) 4]
    :: value [bit (cv url b) 3; bit (cv url b) 2; bit (cv url b) 1; bit (cv url b) 0;
              bit (cv url c) 5; bit (cv url c) 4; bit (cv url c) 3; bit (cv url c) 2]
    :: value [bit (cv url c) 1; bit (cv url c) 0; bit (cv url d) 5; bit (cv url d) 4;
              bit (cv url d) 3; bit (cv url d) 2; bit (cv url d) 1; bit (cv url d) 0]
    :: rfc_decode_body url s.
Proof. reflexivity. Qed.

Definition good (url : bool) (s : list N) : Prop := Forall (fun c => In c (rfc_alphabet url)) s.

Lemma good_dec url s : {good url s} + {~ good url s}.
Proof. apply Forall_dec. intros c. apply In_dec, N.eq_dec. Defined.

Definition full4 (s : list N) : list N := firstn (4 * (length s / 4)) s.

Lemma full4_cons a b c d s : full4 (a :: b :: c :: d :: s) = a :: b :: c :: d :: full4 s.
Proof.
  unfold full4. change (length (a :: b :: c :: d :: s)) with (4 + length s)%nat.
  rewrite div_mod_cons4. now replace (4 * S (length s / 4))%nat with (4 + 4 * (length s / 4))%nat by lia.
Qed.

Lemma decode_loop_ok url s : Forall is_byte s -> forall pre dpre k,
  decode_loop url (pre ++ s) (length s / 4) (length pre)
    (dpre ++ repeat 0 (3 * (length s / 4) + k), length dpre)
  = Ok (if good_dec url (full4 s)
        then Some ((length pre + 4 * (length s / 4))%nat,
                   (dpre ++ rfc_decode_body url (full4 s) ++ repeat 0 k,
                    (length dpre + 3 * (length s / 4))%nat))
        else None).
Proof.
  induction s as [|a|a b|a b c|a b c d s IH] using list4_ind; intros Hs pre dpre k.
  1-4: cbn; destruct (good_dec url []) as [|n]; [rewrite !Nat.add_0_r; reflexivity|];
       exfalso; apply n; constructor.
  inversion_clear Hs as [|? ? Ha Hs1]; inversion_clear Hs1 as [|? ? Hb Hs2];
    inversion_clear Hs2 as [|? ? Hc Hs3]; inversion_clear Hs3 as [|? ? Hd Hs4].
  rewrite full4_cons.
  change (length (a :: b :: c :: d :: s)) with (4 + length s)%nat.
  rewrite div_mod_cons4.
  replace (3 * S (length s / 4) + k)%nat with (S (S (S (3 * (length s / 4) + k)))) by lia.
  cbn [decode_loop].
  rewrite (rd_app0 pre) by lia. cbn [obind].
  rewrite !rd_app_plus. cbn [nth_error obind].
  rewrite !decode_lookup_ok by (cbn; tauto). cbn [obind].
  fold (quad url a b c d).
  destruct (good_dec url [a; b; c; d]) as [G|G].
  - assert (G' := G). unfold good in G'.
    rewrite Forall_cons_iff, Forall_cons_iff, Forall_cons_iff, Forall_cons_iff in G'.
    destruct G' as (Ga & Gb & Gc & Gd & _).
    rewrite quad_good by assumption.
    unfold quad. rewrite !shifted_in by assumption.
    rewrite quad_b0, quad_b1, quad_b2 by apply char_value_lt.
    cbn [repeat].
    rewrite wr_at by (rewrite ?app_length; cbn; lia). cbn [obind].
    rewrite wr_at by (rewrite ?app_length; cbn; lia). cbn [obind].
    rewrite wr_at by (rewrite ?app_length; cbn; lia). cbn [obind].
    specialize (IH Hs4 (pre ++ [a; b; c; d])).
    rewrite <- app_assoc in IH. cbn [app] in IH.
    replace (length (pre ++ [a; b; c; d])) with (length pre + 4)%nat in IH
      by (rewrite app_length; cbn; lia).
    rewrite rfc_decode_cons4.
    match goal with |- context [decode_loop _ _ _ _ (?d ++ _, _)] => specialize (IH d k) end.
    rewrite !app_length in IH. cbn [length] in IH.
    replace (length dpre + 1 + 1 + 1)%nat with (S (S (S (length dpre)))) in IH by lia.
    rewrite IH.
    destruct (good_dec url (full4 s)) as [G1|G1];
      destruct (good_dec url (a :: b :: c :: d :: full4 s)) as [G2|G2].
    + rewrite <- !app_assoc. cbn [app]. do 2 f_equal. f_equal; [lia|]. f_equal. lia.
    + exfalso. apply G2. repeat constructor; assumption.
    + exfalso. apply G1. do 4 apply Forall_inv_tail in G2. exact G2.
    + reflexivity.
  - assert (G' : ~ (In a (rfc_alphabet url) /\ In b (rfc_alphabet url) /\
     In c (rfc_alphabet url) /\ In d (rfc_alphabet url))).
    { intros (? & ? & ? & ?). apply G. repeat constructor; assumption. }
    rewrite quad_bad by exact G'.
    destruct (good_dec url (a :: b :: c :: d :: full4 s)) as [G2|G2]; [|reflexivity].
    exfalso. apply G.
    unfold good in G2. change (a :: b :: c :: d :: full4 s) with ([a; b; c; d] ++ full4 s) in G2.
    apply Forall_app in G2. apply G2.
Qed.

Lemma decode_body_split url p t :
  (exists n, length p = 4 * n)%nat ->
  rfc_decode_body url (p ++ t) = rfc_decode_body url p ++ rfc_decode_body url t.
Proof.
  intros [n Hn]. revert n Hn.
  induction p as [|a|a b|a b c|a b c d p IH] using list4_ind; intros n Hn; cbn in Hn; try lia.
  - reflexivity.
  - change ((a :: b :: c :: d :: p) ++ t) with (a :: b :: c :: d :: (p ++ t)).
    rewrite !rfc_decode_cons4. rewrite (IH (n - 1)%nat) by lia. reflexivity.
Qed.

Lemma full4_split {A} (s : list A) :
  exists t, s = firstn (4 * (length s / 4)) s ++ t
            /\ length (firstn (4 * (length s / 4)) s) = (4 * (length s / 4))%nat
            /\ length t = (length s - length s / 4 * 4)%nat.
Proof.
  exists (skipn (4 * (length s / 4)) s).
  rewrite firstn_skipn. split; [reflexivity|].
  rewrite firstn_length, skipn_length.
  pose proof (Nat.div_mod (length s) 4). lia.
Qed.

Lemma good_app url a b : good url (a ++ b) <-> good url a /\ good url b.
Proof. apply Forall_app. Qed.

(** The decoder after padding has been stripped. *)
Definition decode_stripped (url : bool) (str : list N) : outcome (option (list N * nat)) :=
  let full_quad := Nat.div (length str) 4 in
  let tail_size := (length str - full_quad * 4)%nat in
  if Nat.eqb tail_size 1 then Ok None
  else
    let ret_size :=
      (full_quad * 3 + (if Nat.eqb tail_size 0 then 0 else tail_size - 1))%nat in
    let ret := repeat 0 ret_size in
    r <- decode_loop url str full_quad 0 (ret, 0%nat) ;;
    match r with
    | None => Ok None
    | Some (src, dst) => decode_tail url str tail_size src dst
    end.

Lemma length_decode_body url s :
  length (rfc_decode_body url s)
  = (length s / 4 * 3 + match length s - length s / 4 * 4 with 2 => 1 | 3 => 2 | _ => 0 end)%nat.
Proof.
  induction s as [|a|a b|a b c|a b c d s IH] using list4_ind; try reflexivity.
  rewrite rfc_decode_cons4.
  change (length (a :: b :: c :: d :: s)) with (4 + length s)%nat.
  rewrite div_mod_cons4. cbn [length]. rewrite IH.
  replace (4 + length s - S (length s / 4) * 4)%nat with (length s - length s / 4 * 4)%nat by lia.
  lia.
Qed.

Lemma decode_stripped_ok url s : Forall is_byte s ->
  decode_stripped url s
  = Ok (if good_dec url s
        then if Nat.eqb (length s mod 4) 1 then None
             else Some (rfc_decode_body url s, length (rfc_decode_body url s))
        else None).
Proof.
  intros Hs. unfold decode_stripped.
  assert (Hmod : (length s - length s / 4 * 4 = length s mod 4)%nat).
  { pose proof (Nat.div_mod (length s) 4). lia. }
  rewrite length_decode_body. rewrite Hmod.
  pose proof (Nat.mod_upper_bound (length s) 4 ltac:(lia)) as Hub.
  destruct (Nat.eqb_spec (length s mod 4) 1) as [E1|E1].
  { destruct (good_dec url s); reflexivity. }
  set (k := (if (length s mod 4 =? 0)%nat then 0%nat else (length s mod 4 - 1)%nat)).
  pose proof (decode_loop_ok url s Hs [] [] k) as HL.
  cbn [app] in HL. change (@length N []) with 0%nat in HL.
  replace (length s / 4 * 3 + k)%nat with (3 * (length s / 4) + k)%nat by lia.
  rewrite HL. clear HL. cbn [obind plus].
  destruct (full4_split s) as (t & Hst & Hp & Ht). rewrite Hmod in Ht.
  fold (full4 s) in Hst, Hp.
  assert (Hd : rfc_decode_body url s = rfc_decode_body url (full4 s) ++ rfc_decode_body url t).
  { rewrite Hst at 1. apply decode_body_split. eauto. }
  assert (Hdl : length (rfc_decode_body url (full4 s)) = (3 * (length s / 4))%nat).
  { rewrite length_decode_body, Hp. rewrite (Nat.mul_comm 4), Nat.div_mul by lia.
    rewrite Nat.sub_diag. lia. }
  destruct (good_dec url (full4 s)) as [Gf|Gf].
  2: { destruct (good_dec url s) as [G|G]; [|reflexivity].
       exfalso. apply Gf. rewrite Hst in G. apply good_app in G. apply G. }
  assert (Gs : good url s <-> good url t).
  { rewrite Hst at 1. rewrite good_app. tauto. }
  assert (Hbt : Forall is_byte t).
  { rewrite Hst in Hs. apply Forall_app in Hs. tauto. }
  rewrite Hd. rewrite <- Hp, <- Hdl.
  assert (Hrd : forall i x, nth_error t i = Some x -> rd s (length (full4 s) + i) = Ok x).
  { intros i x Hx. rewrite Hst at 1. rewrite rd_app_plus, Hx. reflexivity. }
  assert (Hrd0 : forall x, nth_error t 0 = Some x -> rd s (length (full4 s)) = Ok x).
  { intros x Hx. rewrite <- (Nat.add_0_r (length (full4 s))). now apply Hrd. }
  unfold k. clear k Hd.
  remember (length s mod 4)%nat as m eqn:Em. clear Em Hmod.
  remember (length s / 4)%nat as q eqn:Eq. clear Eq.
  destruct t as [|a [|b [|c [|? ?]]]]; cbn [length] in Ht; subst m; try lia.
  - cbn [Nat.eqb repeat]. unfold decode_tail. cbn [Nat.eqb].
    destruct (good_dec url s) as [G|G].
    + rewrite !app_nil_r. change (rfc_decode_body url []) with (@nil N).
      rewrite ?app_nil_r. do 2 f_equal. f_equal. lia.
    + exfalso. apply G, Gs. constructor.
  - cbn [Nat.eqb Nat.sub repeat]. unfold decode_tail. cbn [Nat.eqb].
    rewrite (Hrd0 a) by reflexivity.
    rewrite (Hrd 1%nat b) by reflexivity.
    cbn [obind].
    inversion_clear Hbt as [|? ? Ha Hbt']; inversion_clear Hbt' as [|? ? Hb _].
    rewrite !decode_lookup_ok by (cbn; tauto). cbn [obind].
    destruct (is_base64 (shifted url 0 a)) eqn:Ea; [destruct (is_base64 (shifted url 0 b)) eqn:Eb|].
    + apply is_base64_shifted in Ea, Eb. cbn [negb orb].
      rewrite !shifted_in by assumption. rewrite !N.shiftl_0_r.
      rewrite tail_b0 by apply char_value_lt.
      rewrite wr_at by reflexivity. cbn [obind].
      destruct (good_dec url s) as [G|G].
      * rewrite app_nil_r. do 2 f_equal. f_equal. lia.
      * exfalso. apply G, Gs. repeat constructor; assumption.
    + cbn [negb orb]. destruct (good_dec url s) as [G|G]; [|reflexivity].
      exfalso. apply Gs in G. inversion_clear G as [|? ? _ G1]. inversion_clear G1 as [|? ? G2 _].
      apply is_base64_shifted in G2. congruence.
    + cbn [negb orb]. destruct (good_dec url s) as [G|G]; [|reflexivity].
      exfalso. apply Gs in G. inversion_clear G as [|? ? G2 _].
      apply is_base64_shifted in G2. congruence.
  - cbn [Nat.eqb Nat.sub repeat]. unfold decode_tail. cbn [Nat.eqb].
    rewrite (Hrd0 a) by reflexivity.
    rewrite (Hrd 1%nat b) by reflexivity.
    rewrite (Hrd 2%nat c) by reflexivity.
    cbn [obind].
    inversion_clear Hbt as [|? ? Ha Hbt']; inversion_clear Hbt' as [|? ? Hb Hbt''];
      inversion_clear Hbt'' as [|? ? Hc _].
    rewrite !decode_lookup_ok by (cbn; tauto). cbn [obind].
    destruct (is_base64 (shifted url 0 a)) eqn:Ea;
      [destruct (is_base64 (shifted url 0 b)) eqn:Eb;
       [destruct (is_base64 (shifted url 0 c)) eqn:Ec|]|].
    + apply is_base64_shifted in Ea, Eb, Ec. cbn [negb orb].
      rewrite !shifted_in by assumption. rewrite !N.shiftl_0_r.
      rewrite tail_b0, tail_b1 by apply char_value_lt.
      rewrite wr_at by reflexivity. cbn [obind].
      rewrite wr_at by (rewrite app_length; cbn; lia). cbn [obind].
      destruct (good_dec url s) as [G|G].
      * rewrite app_nil_r, <- app_assoc. do 2 f_equal. f_equal. lia.
      * exfalso. apply G, Gs. repeat constructor; assumption.
    + cbn [negb orb]. destruct (good_dec url s) as [G|G]; [|reflexivity].
      exfalso. apply Gs in G. inversion_clear G as [|? ? _ G1]. inversion_clear G1 as [|? ? _ G2].
      inversion_clear G2 as [|? ? G3 _].
      apply is_base64_shifted in G3. congruence.
    + cbn [negb orb]. destruct (good_dec url s) as [G|G]; [|reflexivity].
      exfalso. apply Gs in G. inversion_clear G as [|? ? _ G1]. inversion_clear G1 as [|? ? G2 _].
      apply is_base64_shifted in G2. congruence.
    + cbn [negb orb]. destruct (good_dec url s) as [G|G]; [|reflexivity].
      exfalso. apply Gs in G. inversion_clear G as [|? ? G2 _].
      apply is_base64_shifted in G2. congruence.
Qed.

(* ---------- stripping of padding ---------- *)

Lemma count_eqs_spec l : exists r,
  l = repeat pad_char (count_leading_eqs l) ++ r /\ (forall t, r <> pad_char :: t).
Proof.
  induction l as [|c l (r & Hr & Hn)]; cbn.
  - exists []. split; [reflexivity|congruence].
  - destruct (N.eqb_spec c 61) as [->|Hc].
    + exists r. split; [cbn; f_equal; exact Hr|assumption].
    + exists (c :: l). split; [reflexivity|]. unfold pad_char. congruence.
Qed.

Lemma strip_spec s : exists body,
  s = body ++ repeat pad_char (count_leading_eqs (rev s))
  /\ (forall t, body <> t ++ [pad_char]).
Proof.
  destruct (count_eqs_spec (rev s)) as (r & Hr & Hn).
  set (n := count_leading_eqs (rev s)) in *. clearbody n.
  exists (rev r). split.
  - rewrite <- (rev_involutive s), Hr, rev_app_distr. f_equal.
    clear. induction n; [reflexivity|]. cbn. rewrite IHn.
    symmetry. exact (repeat_cons n pad_char).
  - intros t Ht. apply (Hn (rev t)). rewrite <- (rev_involutive r), Ht, rev_app_distr. reflexivity.
Qed.

Lemma pad_not_alpha url : ~ In pad_char (rfc_alphabet url).
Proof.
  rewrite index_of_in. destruct url; vm_compute; auto.
Qed.

(** Every text has one decomposition into a body not ending in '=' and padding. *)
Lemma strip_unique (b1 b2 : list N) n1 n2 :
  (forall t, b1 <> t ++ [pad_char]) -> (forall t, b2 <> t ++ [pad_char]) ->
  b1 ++ repeat pad_char n1 = b2 ++ repeat pad_char n2 -> b1 = b2 /\ n1 = n2.
Proof.
  revert n2. induction n1 as [|n1 IH]; intros n2 H1 H2 H.
  - destruct n2 as [|n2].
    + now rewrite !app_nil_r in H.
    + exfalso. cbn in H. rewrite app_nil_r in H. subst b1.
      apply (H1 (b2 ++ repeat pad_char n2)). rewrite <- app_assoc. f_equal.
      exact (repeat_cons n2 pad_char).
  - destruct n2 as [|n2].
    + exfalso. rewrite app_nil_r in H. subst b2.
      apply (H2 (b1 ++ repeat pad_char n1)). rewrite <- app_assoc. f_equal.
      exact (repeat_cons n1 pad_char).
    + assert (Hs : forall m, repeat pad_char (S m) = repeat pad_char m ++ [pad_char]).
      { intros m. exact (repeat_cons m pad_char). }
      rewrite !Hs, !app_assoc in H. apply app_inj_tail in H. destruct H as [H _].
      destruct (IH n2 H1 H2 H) as [-> ->]. auto.
Qed.

Lemma good_not_end url body : good url body -> forall t, body <> t ++ [pad_char].
Proof.
  intros H t ->. apply good_app in H. destruct H as [_ H].
  inversion_clear H. now apply (pad_not_alpha url).
Qed.

Lemma decode_run_strip url s body n :
  s = body ++ repeat pad_char n -> (forall t, body <> t ++ [pad_char]) ->
  base64_decode_run url s
  = if negb url && negb (Nat.eqb (length s mod 4) 0) then Ok None
    else if Nat.ltb 2 n then Ok None
    else decode_stripped url body.
Proof.
  intros Hs Hb. unfold base64_decode_run.
  destruct (strip_spec s) as (body' & Hs' & Hb').
  assert (E : body' = body /\ count_leading_eqs (rev s) = n).
  { apply strip_unique; auto. congruence. }
  destruct E as [-> ->]. clear Hs' Hb'.
  replace (Nat.div (length s) 4 * 4 =? length s)%nat with (length s mod 4 =? 0)%nat.
  2: { pose proof (Nat.div_mod (length s) 4 ltac:(lia)).
       destruct (Nat.eqb_spec (length s mod 4) 0);
       destruct (Nat.eqb_spec (length s / 4 * 4) (length s)); lia. }
  destruct (negb url && negb (length s mod 4 =? 0)%nat); [reflexivity|].
  destruct (2 <? n)%nat; [reflexivity|].
  assert (E : (if (0 <? n)%nat then firstn (length s - n) s else s) = body).
  { destruct n as [|n].
    - cbn. now rewrite Hs, app_nil_r.
    - cbn [Nat.ltb Nat.leb]. rewrite Hs, app_length, repeat_length.
      replace (length body + S n - S n)%nat with (length body) by lia.
      rewrite firstn_app, firstn_all, Nat.sub_diag. cbn. now rewrite app_nil_r. }
  cbv zeta. rewrite E. reflexivity.
Qed.

Lemma Forall_byte_app a b : Forall is_byte (a ++ b) <-> Forall is_byte a /\ Forall is_byte b.
Proof. apply Forall_app. Qed.

(** Main characterisation of the decoder. *)
Lemma decode_run_accepted url body pad :
  Forall is_byte body -> accepted url body pad ->
  base64_decode_run url (body ++ repeat pad_char pad)
  = Ok (Some (rfc_decode_body url body, length (rfc_decode_body url body))).
Proof.
  intros Hb (Hg & Hp & Hl).
  rewrite (decode_run_strip url _ body pad) by (auto; now apply good_not_end with url).
  rewrite app_length, repeat_length.
  replace (2 <? pad)%nat with false by (symmetry; apply Nat.ltb_ge; lia).
  rewrite decode_stripped_ok by assumption.
  destruct (good_dec url body) as [_|n]; [|exfalso; now apply n].
  destruct url; cbn [negb andb].
  - destruct (Nat.eqb_spec (length body mod 4) 1); congruence.
  - rewrite Hl. cbn [Nat.eqb negb].
    destruct (Nat.eqb_spec (length body mod 4) 1) as [E|E]; [|reflexivity].
    exfalso. rewrite Nat.add_mod, E in Hl by lia.
    assert (pad = 0 \/ pad = 1 \/ pad = 2)%nat as [->|[->| ->]] by lia; discriminate.
Qed.

Lemma decode_run_sound url s r :
  Forall is_byte s -> base64_decode_run url s = r ->
  r = Ok None \/
  exists body pad, s = body ++ repeat pad_char pad /\ accepted url body pad
    /\ r = Ok (Some (rfc_decode_body url body, length (rfc_decode_body url body))).
Proof.
  intros Hs <-.
  destruct (strip_spec s) as (body & Hb & Hn).
  set (n := count_leading_eqs (rev s)) in *. clearbody n.
  rewrite (decode_run_strip url s body n Hb Hn).
  destruct (negb url && negb (length s mod 4 =? 0)%nat) eqn:E1; [auto|].
  destruct (Nat.ltb_spec 2 n) as [|E2]; [auto|].
  assert (Hbb : Forall is_byte body). { rewrite Hb in Hs. apply Forall_app in Hs; tauto. }
  rewrite decode_stripped_ok by assumption.
  destruct (good_dec url body) as [G|G]; [|auto].
  destruct (Nat.eqb_spec (length body mod 4) 1) as [E|E]; [auto|].
  right. exists body, n. split; [assumption|]. split; [|reflexivity].
  split; [assumption|]. split; [lia|].
  destruct url; [assumption|]. cbn [negb andb] in E1.
  rewrite Hb, app_length, repeat_length in E1.
  apply negb_false_iff, Nat.eqb_eq in E1. exact E1.
Qed.

(* ---------- round trip ---------- *)

Lemma alpha_char_in url v : v < 64 -> In (alpha_char url v) (rfc_alphabet url).
Proof. intros H. apply nth_In. rewrite length_alphabet. lia. Qed.

Lemma char_value_alpha url v : v < 64 -> char_value url (alpha_char url v) = v.
Proof.
  intros H. apply N.eqb_eq. revert v H.
  destruct url; apply (sweep 64); vm_compute; reflexivity.
Qed.

Lemma value6_lt a b c d e f : value [a; b; c; d; e; f] < 64.
Proof. destruct a, b, c, d, e, f; vm_compute; reflexivity. Qed.

Lemma bits_value6 a b c d e f : bits 6 (value [a; b; c; d; e; f]) = [a; b; c; d; e; f].
Proof. destruct a, b, c, d, e, f; reflexivity. Qed.

Lemma value_bits8 a : is_byte a ->
  value [bit a 7; bit a 6; bit a 5; bit a 4; bit a 3; bit a 2; bit a 1; bit a 0] = a.
Proof.
  intros H. apply N.eqb_eq. revert a H. apply (sweep 256). vm_compute. reflexivity.
Qed.

Lemma bits6_alpha url a b c d e f :
  bits 6 (char_value url (alpha_char url (value [a; b; c; d; e; f]))) = [a; b; c; d; e; f].
Proof. rewrite char_value_alpha by apply value6_lt. apply bits_value6. Qed.

Lemma decode_body_body url s : Forall is_byte s ->
  rfc_decode_body url (rfc_body url s) = s.
Proof.
  induction s as [|a|a b|a b c s IH] using list3_ind; intros Hs.
  - reflexivity.
  - inversion_clear Hs as [|? ? Ha _].
    change (rfc_body url [a]) with
      [alpha_char url (value [bit a 7; bit a 6; bit a 5; bit a 4; bit a 3; bit a 2]);
       alpha_char url (value [bit a 1; bit a 0; false; false; false; false])].
    unfold rfc_decode_body. cbn [flat_map].
    rewrite !bits6_alpha. cbn [app octets map]. now rewrite value_bits8.
  - inversion_clear Hs as [|? ? Ha Hs1]; inversion_clear Hs1 as [|? ? Hb _].
    change (rfc_body url [a; b]) with
      [alpha_char url (value [bit a 7; bit a 6; bit a 5; bit a 4; bit a 3; bit a 2]);
       alpha_char url (value [bit a 1; bit a 0; bit b 7; bit b 6; bit b 5; bit b 4]);
       alpha_char url (value [bit b 3; bit b 2; bit b 1; bit b 0; false; false])].
    unfold rfc_decode_body. cbn [flat_map].
    rewrite !bits6_alpha. cbn [app octets map]. now rewrite !value_bits8.
  - inversion_clear Hs as [|? ? Ha Hs1]; inversion_clear Hs1 as [|? ? Hb Hs2];
      inversion_clear Hs2 as [|? ? Hc Hs3].
    rewrite rfc_body_cons3. unfold rfc_decode_body in *.
    cbn [flat_map]. rewrite !bits6_alpha. cbn [app octets map].
    rewrite !value_bits8 by assumption. now rewrite IH.
Qed.

Lemma body_good url s : good url (rfc_body url s).
Proof.
  unfold rfc_body, good. apply Forall_map.
  assert (H : forall l, Forall (fun g => length g = 6%nat) (sextets l)).
  { intros l.
    assert (G : forall n l, (length l <= n)%nat -> Forall (fun g => length g = 6%nat) (sextets l)).
    { clear. induction n as [|n IH]; intros l Hl.
      - destruct l; [constructor|cbn in Hl; lia].
      - destruct l as [|x0 [|x1 [|x2 [|x3 [|x4 [|x5 t]]]]]]; cbn; repeat constructor.
        apply IH. cbn in Hl. lia. }
    eauto. }
  eapply Forall_impl; [|apply H]. cbn beta. intros g Hg.
  apply alpha_char_in.
  destruct g as [|x0 [|x1 [|x2 [|x3 [|x4 [|x5 [|? ?]]]]]]]; try discriminate.
  apply value6_lt.
Qed.

Lemma good_byte url s : good url s -> Forall is_byte s.
Proof.
  intros H. eapply Forall_impl; [|exact H]. cbn beta. intros c Hc.
  assert (G : Forall is_byte (rfc_alphabet url)).
  { apply Forall_forall. intros x Hx. apply N.ltb_lt.
    assert (F : forallb (fun x => x <? 256) (rfc_alphabet url) = true)
      by (destruct url; vm_compute; reflexivity).
    rewrite forallb_forall in F. now apply F. }
  rewrite Forall_forall in G. now apply G.
Qed.

Lemma encode_accepted url s : accepted url (rfc_body url s) (pad_len url s).
Proof.
  split; [apply body_good|]. unfold pad_len. split.
  - destruct url; [lia|]. destruct (tail_len s) as [|[|[|]]]; lia.
  - rewrite length_body.
    rewrite (Nat.add_comm (4 * (length s / 3))), (Nat.mul_comm 4).
    destruct url.
    + rewrite Nat.mod_add by lia. destruct (tail_len s) as [|[|[|]]]; cbn; lia.
    + destruct (tail_len s) as [|[|[|]]];
        match goal with |- ((?a + ?b * 4 + ?c) mod 4 = 0)%nat =>
          replace (a + b * 4 + c)%nat with ((a + c) + b * 4)%nat by lia end;
        rewrite Nat.mod_add by lia; reflexivity.
Qed.

Lemma roundtrip url s t : Forall is_byte s ->
  base64_encode_impl url s = Ok t -> base64_decode_impl url t = Ok (Some s).
Proof.
  intros Hs H. rewrite encode_ok in H by assumption. injection H as <-.
  rewrite rfc_encode_body. unfold base64_decode_impl.
  rewrite decode_run_accepted.
  - cbn. now rewrite decode_body_body.
  - apply good_byte with url, body_good.
  - apply encode_accepted.
Qed.

(* ---------- canonical texts ---------- *)

Lemma alpha_char_value url c : In c (rfc_alphabet url) -> alpha_char url (char_value url c) = c.
Proof.
  intros H.
  assert (F : forallb (fun c => alpha_char url (char_value url c) =? c) (rfc_alphabet url) = true)
    by (destruct url; vm_compute; reflexivity).
  rewrite forallb_forall in F. now apply N.eqb_eq, F.
Qed.

Lemma alpha_bits url c : In c (rfc_alphabet url) ->
  alpha_char url (value [bit (cv url c) 5; bit (cv url c) 4; bit (cv url c) 3;
                         bit (cv url c) 2; bit (cv url c) 1; bit (cv url c) 0]) = c.
Proof.
  intros H. rewrite <- (alpha_char_value url c H) at 7. f_equal.
  pose proof (char_value_lt url c) as Hlt. revert Hlt. generalize (cv url c). intros v Hv.
  apply N.eqb_eq. revert v Hv. apply (sweep 64). vm_compute. reflexivity.
Qed.

Lemma bits_value8 a b c d e f g h :
  bits 8 (value [a; b; c; d; e; f; g; h]) = [a; b; c; d; e; f; g; h].
Proof. destruct a, b, c, d, e, f, g, h; reflexivity. Qed.

Lemma length_body_bits url body : length (body_bits url body) = (6 * length body)%nat.
Proof.
  unfold body_bits. induction body as [|c t IH]; [reflexivity|].
  cbn [flat_map]. rewrite app_length, IH. cbn [bits length]. lia.
Qed.

Lemma canonical_cons4 url a b c d s :
  canonical_text url (a :: b :: c :: d :: s) <-> canonical_text url s.
Proof.
  unfold canonical_text, unused_bits. rewrite !length_body_bits.
  replace (6 * length (a :: b :: c :: d :: s))%nat with (3 * 8 + 6 * length s)%nat
    by (cbn [length]; lia).
  rewrite Nat.div_add_l by lia.
  replace (8 * (3 + 6 * length s / 8))%nat with (24 + 8 * (6 * length s / 8))%nat by lia.
  reflexivity.
Qed.

Lemma rfc_body_decode_body url body :
  good url body -> (length body mod 4 <> 1)%nat -> canonical_text url body ->
  rfc_body url (rfc_decode_body url body) = body.
Proof.
  induction body as [|a|a b|a b c|a b c d s IH] using list4_ind; intros Hg Hl Hc.
  - reflexivity.
  - exfalso. now apply Hl.
  - inversion_clear Hg as [|? ? Ga Hg1]; inversion_clear Hg1 as [|? ? Gb _].
    unfold rfc_decode_body, rfc_body, byte_bits. cbn [flat_map]. 
    change (flat_map (bits 8) (map value (octets (bits 6 (cv url a) ++ bits 6 (cv url b) ++ []))))
      with (bits 8 (value [bit (cv url a) 5; bit (cv url a) 4; bit (cv url a) 3; bit (cv url a) 2;
           bit (cv url a) 1; bit (cv url a) 0; bit (cv url b) 5; bit (cv url b) 4]) ++ []).
    rewrite bits_value8. cbn [app sextets map firstn repeat].
    unfold canonical_text, unused_bits in Hc. rewrite length_body_bits in Hc.
    change (skipn (8 * (6 * length [a; b] / 8)) (body_bits url [a; b]))
      with [bit (cv url b) 3; bit (cv url b) 2; bit (cv url b) 1; bit (cv url b) 0] in Hc.
    inversion_clear Hc as [|? ? H3 Hc1]; inversion_clear Hc1 as [|? ? H2 Hc2];
      inversion_clear Hc2 as [|? ? H1 Hc3]; inversion_clear Hc3 as [|? ? H0 _].
    rewrite alpha_bits by assumption. f_equal.
    rewrite <- (alpha_bits url b Gb) at 3. rewrite H3, H2, H1, H0. reflexivity.
  - inversion_clear Hg as [|? ? Ga Hg1]; inversion_clear Hg1 as [|? ? Gb Hg2];
      inversion_clear Hg2 as [|? ? Gc _].
    unfold rfc_decode_body, rfc_body, byte_bits. cbn [flat_map].
    change (flat_map (bits 8) (map value (octets (bits 6 (cv url a) ++ bits 6 (cv url b) ++ bits 6 (cv url c) ++ []))))
      with (bits 8 (value [bit (cv url a) 5; bit (cv url a) 4; bit (cv url a) 3; bit (cv url a) 2;
           bit (cv url a) 1; bit (cv url a) 0; bit (cv url b) 5; bit (cv url b) 4])
           ++ bits 8 (value [bit (cv url b) 3; bit (cv url b) 2; bit (cv url b) 1; bit (cv url b) 0;
              bit (cv url c) 5; bit (cv url c) 4; bit (cv url c) 3; bit (cv url c) 2]) ++ []).
    rewrite !bits_value8. cbn [app sextets map firstn repeat].
    unfold canonical_text, unused_bits in Hc. rewrite length_body_bits in Hc.
    change (skipn (8 * (6 * length [a; b; c] / 8)) (body_bits url [a; b; c]))
      with [bit (cv url c) 1; bit (cv url c) 0] in Hc.
    inversion_clear Hc as [|? ? H1 Hc1]; inversion_clear Hc1 as [|? ? H0 _].
    rewrite !alpha_bits by assumption. do 2 f_equal.
    rewrite <- (alpha_bits url c Gc) at 5. rewrite H1, H0. reflexivity.
  - inversion_clear Hg as [|? ? Ga Hg1]; inversion_clear Hg1 as [|? ? Gb Hg2];
      inversion_clear Hg2 as [|? ? Gc Hg3]; inversion_clear Hg3 as [|? ? Gd Hg4].
    rewrite rfc_decode_cons4.
    unfold rfc_body, byte_bits. cbn [flat_map]. rewrite !bits_value8. cbn [app sextets map].
    rewrite !alpha_bits by assumption. do 4 f_equal.
    apply IH; auto.
    + change (length (a :: b :: c :: d :: s)) with (4 + length s)%nat in Hl.
      replace (4 + length s)%nat with (length s + 1 * 4)%nat in Hl by lia.
      now rewrite Nat.mod_add in Hl by lia.
    + now apply canonical_cons4 in Hc.
Qed.

Lemma decode_body_bytes url body : Forall is_byte (rfc_decode_body url body).
Proof.
  unfold rfc_decode_body. generalize (flat_map (fun c => bits 6 (cv url c)) body).
  intros l. remember (length l) as n eqn:Hn.
  assert (Hle : (length l <= n)%nat) by lia. clear Hn. revert l Hle.
  induction n as [|n IH]; intros l Hle.
  - destruct l; [constructor|cbn in Hle; lia].
  - destruct l as [|x0 [|x1 [|x2 [|x3 [|x4 [|x5 [|x6 [|x7 t]]]]]]]]; cbn [octets map]; try constructor.
    + destruct x0, x1, x2, x3, x4, x5, x6, x7; vm_compute; reflexivity.
    + apply IH. cbn in Hle. lia.
Qed.

Lemma canonical_pad body pad :
  accepted false body pad -> pad = pad_len false (rfc_decode_body false body).
Proof.
  intros (_ & Hp & Hl). unfold pad_len, tail_len. rewrite length_decode_body.
  assert (Hm : (length body - length body / 4 * 4 = length body mod 4)%nat).
  { pose proof (Nat.div_mod (length body) 4). lia. }
  rewrite Hm.
  pose proof (Nat.mod_upper_bound (length body) 4 ltac:(lia)) as Hub.
  rewrite Nat.add_mod in Hl by lia.
  set (q := (length body / 4)%nat) in *.
  assert (Hq : forall r, (r < 3 -> (q * 3 + r) / 3 = q)%nat).
  { intros r Hr. rewrite Nat.div_add_l by lia. rewrite Nat.div_small by lia. lia. }
  destruct (length body mod 4)%nat as [|[|[|[|]]]]; try lia;
    rewrite Hq by lia;
    match goal with |- context [(?a + ?b - ?a)%nat] => replace (a + b - a)%nat with b by lia end;
    destruct pad as [|[|[|]]]; cbn in Hl; try discriminate; try reflexivity; lia.
Qed.

Lemma canonical_roundtrip url t b :
  Forall is_byte t ->
  (exists body pad, t = body ++ repeat pad_char pad /\ canonical_text url body
     /\ (forall x, body <> x ++ [pad_char]) /\ (url = true -> pad = 0%nat)) ->
  base64_decode_impl url t = Ok (Some b) -> base64_encode_impl url b = Ok t.
Proof.
  intros Ht (body & pad & E & Hcan & Hend & Hpad) Hd.
  unfold base64_decode_impl in Hd.
  destruct (decode_run_sound url t _ Ht eq_refl) as [H|(body' & pad' & E' & Hacc & H)];
    rewrite H in Hd; cbn in Hd; [discriminate|]. injection Hd as <-.
  assert (EE : body = body' /\ pad = pad').
  { apply strip_unique; auto. apply (good_not_end url). apply Hacc. congruence. }
  destruct EE as [<- <-].
  rewrite encode_ok by apply decode_body_bytes.
  rewrite rfc_encode_body, E. f_equal.
  assert (Hl : (length body mod 4 <> 1)%nat).
  { destruct Hacc as (_ & Hp & Hl). destruct url; [assumption|]. intros E1.
    rewrite Nat.add_mod, E1 in Hl by lia. destruct pad as [|[|[|]]]; cbn in Hl; lia. }
  rewrite rfc_body_decode_body; [|apply Hacc|assumption|assumption]. f_equal.
  destruct url.
  - now rewrite Hpad.
  - now rewrite <- (canonical_pad body pad).
Qed.

(** Conversely the encoder only emits canonical texts. *)
Lemma encode_canonical url s : Forall is_byte s -> canonical_text url (rfc_body url s).
Proof.
  induction s as [|a|a b|a b c s IH] using list3_ind; intros Hs.
  - constructor.
  - unfold canonical_text, unused_bits. rewrite length_body_bits.
    change (rfc_body url [a]) with
      [alpha_char url (value [bit a 7; bit a 6; bit a 5; bit a 4; bit a 3; bit a 2]);
       alpha_char url (value [bit a 1; bit a 0; false; false; false; false])].
    unfold body_bits. cbn [flat_map length]. rewrite !bits6_alpha.
    change (8 * (6 * 2 / 8))%nat with 8%nat. cbn. repeat constructor.
  - unfold canonical_text, unused_bits. rewrite length_body_bits.
    change (rfc_body url [a; b]) with
      [alpha_char url (value [bit a 7; bit a 6; bit a 5; bit a 4; bit a 3; bit a 2]);
       alpha_char url (value [bit a 1; bit a 0; bit b 7; bit b 6; bit b 5; bit b 4]);
       alpha_char url (value [bit b 3; bit b 2; bit b 1; bit b 0; false; false])].
    unfold body_bits. cbn [flat_map length]. rewrite !bits6_alpha.
    change (8 * (6 * 3 / 8))%nat with 16%nat. cbn. repeat constructor.
  - rewrite rfc_body_cons3, canonical_cons4. apply IH.
    do 3 apply Forall_inv_tail in Hs. exact Hs.
Qed.

(* ---------- statements used in Base64Props ---------- *)

Lemma decode_impl_iff url t b : Forall is_byte t ->
  base64_decode_impl url t = Ok (Some b) <->
  exists body pad, t = body ++ repeat pad_char pad /\ accepted url body pad
                   /\ b = rfc_decode_body url body.
Proof.
  intros Ht. unfold base64_decode_impl. split.
  - intros Hd.
    destruct (decode_run_sound url t _ Ht eq_refl) as [H|(body & pad & E & Hacc & H)];
      rewrite H in Hd; cbn in Hd; [discriminate|]. injection Hd as <-. eauto.
  - intros (body & pad & -> & Hacc & ->). rewrite decode_run_accepted; auto.
    apply Forall_app in Ht. tauto.
Qed.

Lemma decode_impl_none url t : Forall is_byte t ->
  base64_decode_impl url t = Ok None <->
  ~ exists body pad, t = body ++ repeat pad_char pad /\ accepted url body pad.
Proof.
  intros Ht. split.
  - intros Hd (body & pad & E & Hacc).
    assert (H : base64_decode_impl url t = Ok (Some (rfc_decode_body url body)))
      by (apply decode_impl_iff; eauto). congruence.
  - intros Hn. unfold base64_decode_impl.
    destruct (decode_run_sound url t _ Ht eq_refl) as [H|(body & pad & E & Hacc & H)].
    + now rewrite H.
    + exfalso. eauto.
Qed.

Lemma decode_run_filled url t : Forall is_byte t ->
  exists r, base64_decode_run url t = Ok r /\
    match r with Some (buf, written) => written = length buf | None => True end.
Proof.
  intros Ht.
  destruct (decode_run_sound url t _ Ht eq_refl) as [H|(body & pad & E & Hacc & H)];
    rewrite H; eexists; (split; [reflexivity|]); exact I || reflexivity.
Qed.

Lemma rfc_encode_shape url s : Forall is_byte s ->
  exists body pad,
    base64_encode_impl url s = Ok (body ++ repeat pad_char pad)
    /\ Forall (fun c => In c (rfc_alphabet url)) body
    /\ (pad <= 2)%nat
    /\ (if url then pad = 0%nat /\ length body = ((4 * length s + 2) / 3)%nat
        else length (body ++ repeat pad_char pad) = (4 * ((length s + 2) / 3))%nat).
Proof.
  intros Hs. exists (rfc_body url s), (pad_len url s).
  rewrite encode_ok, rfc_encode_body by assumption. split; [reflexivity|].
  split; [apply body_good|].
  assert (Hdm : (length s = 3 * (length s / 3) + tail_len s)%nat).
  { unfold tail_len. pose proof (Nat.div_mod (length s) 3). lia. }
  split.
  { unfold pad_len. destruct url; [lia|]. destruct (tail_len s) as [|[|[|]]]; lia. }
  destruct url; [split; [reflexivity|]|]; rewrite ?app_length, ?repeat_length, length_body;
    unfold pad_len; cbv match; set (q := (length s / 3)%nat) in *; clearbody q;
    destruct (tail_len_cases s) as [Ht|[Ht|Ht]]; rewrite Ht in *; rewrite Hdm;
    pose proof (Nat.div_unique (4 * (3 * q + 0) + 2) 3 (4 * q + 0) 2);
    pose proof (Nat.div_unique (4 * (3 * q + 1) + 2) 3 (4 * q + 2) 0);
    pose proof (Nat.div_unique (4 * (3 * q + 2) + 2) 3 (4 * q + 3) 1);
    pose proof (Nat.div_unique (3 * q + 0 + 2) 3 q 2);
    pose proof (Nat.div_unique (3 * q + 1 + 2) 3 (q + 1) 0);
    pose proof (Nat.div_unique (3 * q + 2 + 2) 3 (q + 1) 1); lia.
Qed.
