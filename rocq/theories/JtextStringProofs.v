(** Strings are read as specified. *)
From Coq Require Import List NArith ZArith Arith Bool Lia.
From Verif Require Import Base ScalarModel ScalarSpec ScalarProofs SerialModel JtextModel JtextSpec.
Import ListNotations.
Local Open Scope N_scope.

Local Notation str := (list N) (only parsing).

(* ------------------------------------------------------------------ UTF-8 *)

Lemma land_low x k b : b < 2 ^ k -> N.land (x * 2 ^ k) b = 0.
Proof.
  intros Hb. apply N.bits_inj. intros n. rewrite N.land_spec, N.bits_0. destruct (N.lt_ge_cases n k).
  - now rewrite N.mul_pow2_bits_low.
  - rewrite <- (N.mod_small b (2 ^ k)) by auto. rewrite N.mod_pow2_bits_high by auto. apply andb_false_r.
Qed.
Lemma lor_low x k b : b < 2 ^ k -> N.lor (x * 2 ^ k) b = x * 2 ^ k + b.
Proof. intros Hb. pose proof (land_low x k b Hb) as L. rewrite N.add_nocarry_lxor by exact L. now rewrite N.lxor_lor. Qed.
Lemma low6 x : N.lor 128 (N.land x 63) = 128 + x mod 64.
Proof. change 63 with (N.ones 6). rewrite N.land_ones. change (2 ^ 6) with 64. apply (lor_low 2 6). apply N.mod_lt. lia. Qed.
Lemma top x m k a : a = m * 2 ^ k -> x < 2 ^ k -> x < 256 -> N.lor a (N.land x 255) = a + x.
Proof. intros -> H H'. change 255 with (N.ones 8). rewrite N.land_ones. change (2 ^ 8) with 256. rewrite N.mod_small by auto. now apply lor_low. Qed.

Lemma encode_spec cp : cp < 1114112 -> utf8_of cp (encode_utf8 cp).
Proof.
  intros H. unfold encode_utf8, utf8_of. rewrite !low6, !N.shiftr_div_pow2. change (2 ^ 6) with 64. change (2 ^ 12) with 4096. change (2 ^ 18) with 262144.
  destruct (N.leb_spec cp 127).
  { left. split; [lia|]. change 255 with (N.ones 8). rewrite N.land_ones. change (2 ^ 8) with 256. now rewrite N.mod_small by lia. }
  destruct (N.leb_spec cp 2047).
  { right; left. split; [lia|]. rewrite (top (cp / 64) 6 5); auto; apply N.div_lt_upper_bound; cbn; lia. }
  destruct (N.leb_spec cp 65535).
  { right; right; left. split; [lia|]. rewrite (top (cp / 4096) 14 4); auto; apply N.div_lt_upper_bound; cbn; lia. }
  right; right; right. split; [lia|]. rewrite (top (cp / 262144) 30 3); auto; apply N.div_lt_upper_bound; cbn; lia.
Qed.
Lemma utf8_of_fun cp s s' : utf8_of cp s -> utf8_of cp s' -> s = s'.
Proof. intros [[H ->]|[[H ->]|[[H ->]|[H ->]]]] [[H' ->]|[[H' ->]|[[H' ->]|[H' ->]]]]; auto; lia. Qed.
Lemma utf8_of_bound cp s : utf8_of cp s -> cp < 1114112.
Proof. intros [[H ->]|[[H ->]|[[H ->]|[H ->]]]]; lia. Qed.
Lemma encode_is cp s : utf8_of cp s <-> cp < 1114112 /\ s = encode_utf8 cp.
Proof.
  split.
  - intros H. pose proof (utf8_of_bound _ _ H). split; auto. eapply utf8_of_fun; eauto. now apply encode_spec.
  - intros [H ->]. now apply encode_spec.
Qed.

(* ------------------------------------------------------------------ escapes *)

Lemma hex_value_spells c d : hex_value c = Some d <-> spells c d.
Proof.
  unfold hex_value, spells.
  destruct (N.leb_spec 48 c), (N.leb_spec c 57); cbn [andb];
    try (split; [intros [= <-]; left; lia|intros [[-> Hd]|[[-> | ->] Hd]]; f_equal; lia]);
  destruct (N.leb_spec 65 c), (N.leb_spec c 70); cbn [andb];
    try (split; [intros [= <-]; right; lia|intros [[-> Hd]|[[-> | ->] Hd]]; f_equal; lia]);
  destruct (N.leb_spec 97 c), (N.leb_spec c 102); cbn [andb];
    try (split; [intros [= <-]; right; lia|intros [[-> Hd]|[[-> | ->] Hd]]; f_equal; lia]);
  (split; [discriminate|intros [[-> Hd]|[[-> | ->] Hd]]; lia]).
Qed.
Lemma spells_16 c d : spells c d -> d < 16.
Proof. unfold spells. lia. Qed.

Lemma hex4_quad a b c d n : hex4 a b c d = Some n <-> hex_quad n [a; b; c; d].
Proof.
  unfold hex4, hex_quad, numeral. split.
  - intros H. destruct (hex_value a) as [x1|] eqn:E1; [|discriminate]. destruct (hex_value b) as [x2|] eqn:E2; [|discriminate].
    destruct (hex_value c) as [x3|] eqn:E3; [|discriminate]. destruct (hex_value d) as [x4|] eqn:E4; [|discriminate]. injection H as <-.
    apply hex_value_spells in E1, E2, E3, E4. split; [reflexivity|]. split; [discriminate|]. exists [x1; x2; x3; x4].
    split; [repeat (apply Forall2_cons; [assumption|]); apply Forall2_nil|]. split; [repeat (apply Forall_cons; [eapply spells_16; eassumption|]); apply Forall_nil|]. cbn. lia.
  - intros (_ & _ & ds & H2 & _ & ->). inversion H2 as [|? x1 ? ? S1 H3]; subst. inversion H3 as [|? x2 ? ? S2 H4]; subst.
    inversion H4 as [|? x3 ? ? S3 H5]; subst. inversion H5 as [|? x4 ? ? S4 H6]; subst. inversion H6; subst.
    apply hex_value_spells in S1, S2, S3, S4. rewrite S1, S2, S3, S4. cbn. f_equal. lia.
Qed.
Lemma quad_list n h : hex_quad n h -> exists a b c d, h = [a; b; c; d] /\ hex4 a b c d = Some n.
Proof.
  intros H. pose proof H as [Hl _]. destruct h as [|a [|b [|c [|d [|]]]]]; try discriminate. exists a, b, c, d. split; auto. now apply hex4_quad.
Qed.
Lemma quad_bound n h : hex_quad n h -> n < 65536.
Proof.
  intros H. destruct (quad_list _ _ H) as (a & b & c & d & -> & E). unfold hex4 in E.
  destruct (hex_value a) as [x1|] eqn:E1; [|discriminate]. destruct (hex_value b) as [x2|] eqn:E2; [|discriminate].
  destruct (hex_value c) as [x3|] eqn:E3; [|discriminate]. destruct (hex_value d) as [x4|] eqn:E4; [|discriminate]. injection E as <-.
  apply hex_value_spells, spells_16 in E1, E2, E3, E4. lia.
Qed.

Lemma unescape_iff e c : unescape e = Some c <-> In (c, e) [(34, 34); (92, 92); (47, 47); (8, 98); (12, 102); (10, 110); (13, 114); (9, 116)].
Proof.
  unfold unescape. split.
  - repeat match goal with |- context [?x =? ?y] => destruct (N.eqb_spec x y) as [->|] end; intros [= <-]; cbn; tauto.
  - cbn. intros H. repeat destruct H as [[= <- <-]|H]; try reflexivity. contradiction.
Qed.

Lemma pair_value hi lo : 55296 <= hi < 56320 -> 56320 <= lo < 57344 ->
  N.lor (N.shiftl (hi - 55296) 10) (lo - 56320) + 65536 = 65536 + (hi - 55296) * 1024 + (lo - 56320).
Proof. intros H H'. rewrite N.shiftl_mul_pow2, lor_low by (cbn; lia). change (2 ^ 10) with 1024. lia. Qed.

(* ------------------------------------------------------------------ strings *)

Lemma string_complete m t : characters m t -> forall r, string_body (t ++ 34 :: r) = Got m r.
Proof.
  induction 1 as [|c m s H1 H2 H3 Hc IH|c e m s Hi Hc IH|cp h c m s Hq Hs Hu Hc IH|hi lo h h' c m s Hq Hq' Hh Hl Hu Hc IH]; intros r.
  - reflexivity.
  - cbn [app string_body]. apply N.eqb_neq in H2, H3. rewrite H2, H3. destruct (N.ltb_spec c 32); [lia|]. now rewrite IH.
  - cbn [app string_body N.eqb Pos.eqb]. apply unescape_iff in Hi. rewrite Hi, IH. reflexivity.
  - destruct (quad_list _ _ Hq) as (a & b & c' & d & -> & E). cbn [app string_body N.eqb Pos.eqb unescape negb]. rewrite E.
    assert ((55296 <=? cp) && (cp <=? 57343) = false) as ->.
    { apply not_true_iff_false. rewrite andb_true_iff, !N.leb_le. intros ?. apply Hs. unfold surrogate. lia. }
    rewrite IH. cbn [onto]. apply encode_is in Hu. destruct Hu as [_ ->]. reflexivity.
  - destruct (quad_list _ _ Hq) as (a & b & c' & d & -> & E). destruct (quad_list _ _ Hq') as (a' & b' & c'' & d' & -> & E').
    cbn [app string_body N.eqb Pos.eqb unescape negb andb]. rewrite E, E'.
    assert ((55296 <=? hi) && (hi <=? 57343) = true) as -> by (rewrite andb_true_iff, !N.leb_le; lia).
    assert ((hi <=? 56319) = true) as -> by (apply N.leb_le; lia).
    assert ((lo <? 56320) || (57343 <? lo) = false) as -> by (rewrite orb_false_iff, !N.ltb_ge; lia).
    rewrite IH. cbn [onto]. rewrite pair_value by auto. apply encode_is in Hu. destruct Hu as [_ ->]. reflexivity.
Qed.

Lemma onto_got x r m s : onto x r = Got m s -> exists m', r = Got m' s /\ m = x ++ m'.
Proof. destruct r; [|discriminate]. intros [= <- <-]. eauto. Qed.

Lemma string_sound : forall n s m r, (length s <= n)%nat -> string_body s = Got m r -> exists t, s = t ++ 34 :: r /\ characters m t.
Proof.
  induction n as [|n IH]; intros s m r Hn E; [destruct s; [discriminate|cbn in Hn; lia]|].
  destruct s as [|c s1]; [discriminate|]. cbn [string_body] in E. cbn in Hn. destruct (N.eqb_spec c 92) as [->|H92].
  - destruct s1 as [|e s2]; [discriminate|]. destruct (unescape e) as [x|] eqn:Eu.
    + apply onto_got in E. destruct E as (m' & E & ->). apply IH in E; [|cbn in Hn; lia]. destruct E as (t & -> & Hc).
      exists (92 :: e :: t). split; [reflexivity|]. apply unescape_iff in Eu. now constructor.
    + destruct (N.eqb_spec e 117) as [->|]; cbn [negb] in E; [|discriminate].
      destruct s2 as [|h1 [|h2 [|h3 [|h4 s3]]]]; try discriminate. destruct (hex4 h1 h2 h3 h4) as [cp|] eqn:Eh; [|discriminate]. apply hex4_quad in Eh.
      destruct ((55296 <=? cp) && (cp <=? 57343)) eqn:Es.
      * destruct (N.leb_spec cp 56319); [|discriminate]. destruct s3 as [|b [|u s4]]; try discriminate.
        destruct ((b =? 92) && (u =? 117)) eqn:Eb; cbn [negb] in E; [|discriminate]. apply andb_true_iff in Eb. rewrite !N.eqb_eq in Eb. destruct Eb as [-> ->].
        destruct s4 as [|g1 [|g2 [|g3 [|g4 s5]]]]; try discriminate. destruct (hex4 g1 g2 g3 g4) as [cp2|] eqn:Eh2; [|discriminate]. apply hex4_quad in Eh2.
        destruct ((cp2 <? 56320) || (57343 <? cp2)) eqn:El; [discriminate|]. apply orb_false_iff in El. rewrite !N.ltb_ge in El. apply andb_true_iff in Es. rewrite !N.leb_le in Es.
        apply onto_got in E. destruct E as (m' & E & ->). apply IH in E; [|cbn in Hn; lia]. destruct E as (t & -> & Hc).
        exists (92 :: 117 :: [h1; h2; h3; h4] ++ 92 :: 117 :: [g1; g2; g3; g4] ++ t). split; [reflexivity|].
        eapply C_pair; eauto; [lia|lia|]. apply encode_is. rewrite <- pair_value by lia. split; [|reflexivity]. rewrite pair_value by lia. lia.
      * apply onto_got in E. destruct E as (m' & E & ->). apply IH in E; [|cbn in Hn; lia]. destruct E as (t & -> & Hc).
        exists (92 :: 117 :: [h1; h2; h3; h4] ++ t). split; [reflexivity|]. pose proof (quad_bound _ _ Eh).
        apply C_code with cp; auto; [|apply encode_is; split; [lia|reflexivity]].
        unfold surrogate. intros Hs. apply not_true_iff_false in Es. apply Es. rewrite andb_true_iff, !N.leb_le. lia.
  - destruct (N.eqb_spec c 34) as [->|H34].
    + injection E as <- <-. exists []. split; [reflexivity|constructor].
    + destruct (N.ltb_spec c 32); [destruct (c =? 0); discriminate|]. apply onto_got in E. destruct E as (m' & E & ->).
      apply IH in E; [|lia]. destruct E as (t & -> & Hc). exists (c :: t). split; [reflexivity|]. now constructor.
Qed.

Lemma string_exact s m r : string_body s = Got m r <-> exists t, s = t ++ 34 :: r /\ characters m t.
Proof.
  split; [apply (string_sound (length s)); lia|]. intros (t & -> & H). now apply string_complete.
Qed.
