(** Numbers are read as specified. *)
From Coq Require Import List NArith ZArith Arith Bool Lia.
From Verif Require Import Base ScalarModel ScalarSpec ScalarProofs SerialModel JtextModel JtextSpec.
Import ListNotations.
Local Open Scope N_scope.

Local Notation str := (list N) (only parsing).

Lemma is_digit_iff c : is_digit c = true <-> 48 <= c <= 57.
Proof. unfold is_digit. rewrite andb_true_iff, !N.leb_le. tauto. Qed.
Lemma is_digit_not c : is_digit c = false <-> ~ 48 <= c <= 57.
Proof. rewrite <- is_digit_iff. destruct (is_digit c); split; congruence. Qed.

Definition dig (s : str) : Prop := Forall (fun c => 48 <= c <= 57) s.
Definition dec (s : str) (acc : N) : N := fold_left (fun a c => a * 10 + (c - 48)) s acc.

Lemma dec_app p q acc : dec (p ++ q) acc = dec q (dec p acc).
Proof. apply fold_left_app. Qed.
Lemma dec_ge s : forall acc, acc <= dec s acc.
Proof. induction s as [|c s IH]; intros acc; cbn; [lia|]. pose proof (IH (acc * 10 + (c - 48))). fold (dec s (acc * 10 + (c - 48))). lia. Qed.
Lemma dec_weighs s ds : Forall2 spells s ds -> Forall (fun d => d < 10) ds -> forall acc, dec s acc = acc * 10 ^ N.of_nat (length ds) + weighs 10 ds.
Proof.
  induction 1 as [|c d s ds Hs H2 IH]; intros Hf acc; cbn [dec fold_left length weighs]; [cbn; lia|].
  inversion Hf; subst. fold (dec s (acc * 10 + (c - 48))). rewrite IH by auto. rewrite Nat2N.inj_succ, N.pow_succ_r'.
  unfold spells in Hs. assert (c - 48 = d) as -> by lia. lia.
Qed.
Lemma dig_spells s : dig s -> Forall2 spells s (map (fun c => c - 48) s) /\ Forall (fun d => d < 10) (map (fun c => c - 48) s).
Proof.
  induction 1 as [|c s Hc Hs [I1 I2]]; cbn; split; constructor; auto; [left|]; lia.
Qed.
Lemma spells_dig s ds : Forall2 spells s ds -> Forall (fun d => d < 10) ds -> dig s.
Proof. induction 1 as [|c d s ds Hs H2 IH]; intros Hf; constructor; inversion Hf; subst; [unfold spells in Hs; lia|now apply IH]. Qed.
Lemma numeral_dec s n : numeral 10 s n <-> s <> [] /\ dig s /\ n = dec s 0.
Proof.
  split.
  - intros (Hne & ds & H2 & Hf & ->). split; auto. split; [eapply spells_dig; eauto|]. rewrite (dec_weighs s ds) by auto. lia.
  - intros (Hne & Hd & ->). split; auto. destruct (dig_spells s Hd) as [H1 H2]. exists (map (fun c => c - 48) s). split; auto. split; auto.
    rewrite (dec_weighs s _ H1 H2). lia.
Qed.

(** The text does not go on with a digit. *)
Definition no_digit (r : str) : Prop := at_digit r = false.
Lemma at_digit_nil : at_digit [] = false.
Proof. reflexivity. Qed.

Lemma skip_digits_all p r : dig p -> no_digit r -> skip_digits (p ++ r) = r.
Proof.
  intros Hd Hr. induction Hd as [|c p Hc Hp IH]; cbn.
  - destruct r as [|c r]; auto. cbn. unfold no_digit, at_digit in Hr. cbn in Hr. now rewrite Hr.
  - apply is_digit_iff in Hc. now rewrite Hc.
Qed.
Lemma digit_run s : exists p r, s = p ++ r /\ dig p /\ no_digit r /\ (at_digit s = true -> p <> []).
Proof.
  induction s as [|c s (p & r & -> & Hd & Hr & _)].
  - exists [], []. repeat split; auto; [constructor|discriminate].
  - destruct (is_digit c) eqn:E.
    + exists (c :: p), r. repeat split; auto; [constructor; auto; now apply is_digit_iff|discriminate].
    + exists [], (c :: p ++ r). repeat split; auto; [constructor|]. unfold at_digit. cbn. congruence.
Qed.

(** One loop over the digits. *)
Lemma int_loop_fits lim last p : 48 <= last <= 57 -> dig p -> forall i r, no_digit r -> dec p i <= lim * 10 + (last - 48) ->
  int_loop lim last i (p ++ r) = (dec p i, r).
Proof.
  intros Hl Hd. induction Hd as [|c p Hc Hp IH]; intros i r Hr Hb; cbn [app int_loop].
  - destruct r as [|c r]; auto. cbn. unfold no_digit, at_digit in Hr. cbn in Hr. now rewrite Hr.
  - rewrite (proj2 (is_digit_iff c) Hc). cbn [dec fold_left] in *. fold (dec p (i * 10 + (c - 48))) in *.
    pose proof (dec_ge p (i * 10 + (c - 48))).
    destruct (N.leb_spec lim i); cbn [andb]; [|now apply IH].
    destruct (N.eqb_spec i lim); cbn [negb orb]; [|lia]. destruct (N.ltb_spec last c); [lia|]. now apply IH.
Qed.
Lemma int_loop_stops lim last p : 48 <= last <= 57 -> dig p -> forall i r, no_digit r ->
  i <= lim * 10 + (last - 48) -> lim * 10 + (last - 48) < dec p i ->
  exists p1 p2, p = p1 ++ p2 /\ p2 <> [] /\ dec p1 i <= lim * 10 + (last - 48) /\ int_loop lim last i (p ++ r) = (dec p1 i, p2 ++ r).
Proof.
  intros Hl Hd. induction Hd as [|c p Hc Hp IH]; intros i r Hr Hi Hb; cbn [app int_loop].
  - cbn in Hb. lia.
  - rewrite (proj2 (is_digit_iff c) Hc). cbn [dec fold_left] in Hb. fold (dec p (i * 10 + (c - 48))) in *.
    assert (forall b, b = (lim <=? i) && (negb (i =? lim) || (last <? c)) -> b = true <-> lim * 10 + (last - 48) < i * 10 + (c - 48)) as Hc'.
    { intros b ->. rewrite andb_true_iff, orb_true_iff, negb_true_iff, N.leb_le, N.eqb_neq, N.ltb_lt. lia. }
    specialize (Hc' _ eq_refl). destruct ((lim <=? i) && (negb (i =? lim) || (last <? c))).
    + exists [], (c :: p). split; [reflexivity|]. split; [discriminate|]. split; [exact Hi|reflexivity].
    + destruct (IH (i * 10 + (c - 48)) r) as (p1 & p2 & -> & Hn & Hd1 & El); auto; [|].
      { destruct (N.le_gt_cases (i * 10 + (c - 48)) (lim * 10 + (last - 48))); auto. exfalso. destruct Hc' as [_ Hc']. specialize (Hc' H). discriminate. }
      exists (c :: p1), p2. repeat split; auto.
Qed.

Definition most (minus : bool) : N := if minus then 9223372036854775808 else 18446744073709551615.

(** No digit follows an integer part; after [0] there may be one, it is not read. *)
Definition int_end (body r : str) : Prop := body = [48] \/ no_digit r.

Lemma at_digit_app p r : dig p -> p <> [] -> at_digit (p ++ r) = true.
Proof. intros [|c p' Hc Hp] Hn; [contradiction|]. now apply is_digit_iff. Qed.

Lemma int_part_spec minus body r : dig body -> body <> [] -> (forall s', body = 48 :: s' -> s' = []) -> int_end body r ->
  exists i, int_part minus (body ++ r) = (i, negb (dec body 0 <=? most minus), r) /\ (dec body 0 <= most minus -> i = dec body 0).
Proof.
  intros Hd Hne Hl He. destruct body as [|c body]; [contradiction|]. unfold int_part. cbn [app peek tl].
  destruct (N.eqb_spec c 48) as [->|Hc].
  - rewrite (Hl body eq_refl). exists 0. cbn [dec fold_left]. destruct minus; cbn; auto.
  - inversion Hd as [|? ? Hc1 Hb]; subst. assert (no_digit r) as Hr by (destruct He as [[= -> ->]|]; [contradiction|auto]).
    assert (dec (c :: body) 0 = dec body (c - 48)) as Ed by reflexivity. rewrite Ed. clear Ed He Hl Hne Hd.
    set (lim := if minus then 214748364 else 429496729). set (last := if minus then 56 else 53).
    set (lim' := if minus then 922337203685477580 else 1844674407370955161).
    assert ((if minus then int_loop 214748364 56 (c - 48) (body ++ r) else int_loop 429496729 53 (c - 48) (body ++ r)) = int_loop lim last (c - 48) (body ++ r)) as -> by (destruct minus; reflexivity).
    assert (forall i s, (if minus then int_loop 922337203685477580 56 i s else int_loop 1844674407370955161 53 i s) = int_loop lim' last i s) as El by (intros; destruct minus; reflexivity).
    assert (48 <= last <= 57) as Hla by (unfold last; destruct minus; lia).
    assert (most minus = lim' * 10 + (last - 48)) as Em by (unfold most, lim', last; destruct minus; reflexivity).
    assert (lim * 10 + (last - 48) < lim' /\ 9 <= lim) as [Hll Hl9] by (unfold lim, lim', last; destruct minus; lia).
    clearbody lim last lim'. rewrite Em. clear Em.
    destruct (N.le_gt_cases (dec body (c - 48)) (lim * 10 + (last - 48))) as [Hs|Hs].
    + rewrite int_loop_fits by auto. unfold no_digit in Hr. rewrite Hr. exists (dec body (c - 48)).
      destruct (N.leb_spec (dec body (c - 48)) (lim' * 10 + (last - 48))); [auto|lia].
    + destruct (int_loop_stops lim last body Hla Hb (c - 48) r Hr ltac:(lia) Hs) as (p1 & p2 & -> & Hn & Hd1 & ->).
      apply Forall_app in Hb. destruct Hb as [Hb1 Hb2]. rewrite at_digit_app by auto. rewrite dec_app in *. rewrite El.
      destruct (N.le_gt_cases (dec p2 (dec p1 (c - 48))) (lim' * 10 + (last - 48))) as [Hm|Hm].
      * rewrite int_loop_fits by auto. unfold no_digit in Hr. rewrite Hr. eexists. split; [|intros _; reflexivity].
        apply N.leb_le in Hm. now rewrite Hm.
      * destruct (int_loop_stops lim' last p2 Hla Hb2 (dec p1 (c - 48)) r Hr ltac:(lia) Hm) as (q1 & q2 & -> & Hn' & Hd2 & ->).
        apply Forall_app in Hb2. destruct Hb2 as [Hc2 Hc3]. rewrite at_digit_app by auto. rewrite skip_digits_all by auto.
        eexists. split; [|lia]. apply N.leb_gt in Hm. now rewrite Hm.
Qed.

Lemma upto_app t r : upto (t ++ r) r = t.
Proof. unfold upto. rewrite app_length. replace (length t + length r - length r)%nat with (length t) by lia. rewrite firstn_app, Nat.sub_diag, firstn_all. cbn. apply app_nil_r. Qed.

(** The number on its own ends here. *)
Definition ended (r : str) : Prop := no_digit r /\ peek r <> 46 /\ peek r <> 101 /\ peek r <> 69.

Definition sign_of (minus : bool) : str := if minus then [45] else [].

(** A fraction and an exponent that [number] takes. *)
Lemma int_part_split minus s : at_digit s = true -> exists body r i, s = body ++ r /\ dig body /\ body <> [] /\ (forall s', body = 48 :: s' -> s' = []) /\
  int_end body r /\ int_part minus s = (i, negb (dec body 0 <=? most minus), r) /\ (dec body 0 <= most minus -> i = dec body 0).
Proof.
  intros Ha. destruct (digit_run s) as (p & r & -> & Hd & Hr & Hn). specialize (Hn Ha). destruct p as [|c p]; [contradiction|].
  destruct (N.eq_dec c 48) as [->|Hc].
  - assert (dig [48]) as D1 by (constructor; [lia|constructor]).
    destruct (int_part_spec minus [48] (p ++ r)) as (i & E & Hi); auto; [discriminate|intros s' [= <-]; auto|left; auto|].
    exists [48], (p ++ r), i. repeat split; auto; [discriminate|intros s' [= <-]; auto|left; auto].
  - destruct (int_part_spec minus (c :: p) r) as (i & E & Hi); auto; [intros s' [= -> _]; contradiction|right; auto|].
    exists (c :: p), r, i. repeat split; auto. + intros s' [= -> _]; contradiction. + right; auto.
Qed.

Lemma most_held minus n : n <= most minus <-> held (if minus then - Z.of_N n else Z.of_N n).
Proof. unfold most, held. destruct minus; lia. Qed.

Lemma whole_parts i z : whole i z <-> exists minus body, i = sign_of minus ++ body /\ dig body /\ body <> [] /\ (forall s', body = 48 :: s' -> s' = []) /\
  z = (if minus then - Z.of_N (dec body 0) else Z.of_N (dec body 0))%Z.
Proof.
  split.
  - intros (body & n & Hn & Hl & H). apply numeral_dec in Hn. destruct Hn as (Hne & Hd & ->). destruct H as [[-> ->]|[-> ->]].
    + exists false, body. auto.
    + exists true, body. auto.
  - intros (minus & body & -> & Hd & Hne & Hl & ->). exists body, (dec body 0). split; [now apply numeral_dec|]. split; auto. destruct minus; auto.
Qed.

Lemma digits_iff s : digits s <-> dig s /\ s <> [].
Proof. unfold digits, dig. tauto. Qed.

Lemma digit_not c : 48 <= c <= 57 -> (c =? 46) = false /\ (c =? 101) = false /\ (c =? 69) = false /\ (c =? 45) = false /\ (c =? 43) = false.
Proof. intros H. repeat split; apply N.eqb_neq; lia. Qed.

Lemma peek_dig p r : dig p -> p <> [] -> 48 <= peek (p ++ r) <= 57.
Proof. intros [|c q Hc Hq] Hn; [contradiction|exact Hc]. Qed.

(** Fraction and exponent, as [number] takes them off. *)
Lemma fraction_read f r : f = [] \/ fraction f -> (f = [] -> peek r <> 46) -> no_digit r ->
  let s := f ++ r in let frac := peek s =? 46 in
  frac = negb (match f with [] => true | _ => false end) /\ frac && negb (at_digit (tl s)) = false /\ (if frac then skip_digits (tl s) else s) = r.
Proof.
  intros [->|(ds & -> & Hd)] Hf Hr; cbn [app].
  - cbv zeta. apply N.eqb_neq in Hf; auto. rewrite Hf. auto.
  - cbn. apply digits_iff in Hd. destruct Hd as [Hd Hn]. rewrite at_digit_app by auto. rewrite skip_digits_all by auto. auto.
Qed.
Lemma exponent_read e r : e = [] \/ exponent e -> (e = [] -> peek r <> 101 /\ peek r <> 69) -> no_digit r ->
  let s := e ++ r in let exp := (peek s =? 101) || (peek s =? 69) in
  let s3 := if exp then (if (peek (tl s) =? 43) || (peek (tl s) =? 45) then tl (tl s) else tl s) else s in
  exp = negb (match e with [] => true | _ => false end) /\ exp && negb (at_digit s3) = false /\ (if exp then skip_digits s3 else s3) = r.
Proof.
  intros [->|(x & sg & ds & -> & Hx & Hs & Hd)] Hf Hr; cbn [app].
  - cbv zeta. destruct (Hf eq_refl) as [H1 H2]. apply N.eqb_neq in H1, H2. rewrite H1, H2. auto.
  - apply digits_iff in Hd. destruct Hd as [Hd Hn]. cbn [peek tl].
    assert ((x =? 101) || (x =? 69) = true) as -> by (destruct Hx as [-> | ->]; reflexivity). cbv zeta. rewrite <- !app_assoc.
    assert ((if (peek (sg ++ ds ++ r) =? 43) || (peek (sg ++ ds ++ r) =? 45) then tl (sg ++ ds ++ r) else sg ++ ds ++ r) = ds ++ r) as ->.
    { destruct Hs as [->|[->| ->]]; try reflexivity. cbn [app]. pose proof (peek_dig ds r Hd Hn) as Hp. apply digit_not in Hp.
      destruct Hp as (_ & _ & _ & -> & ->). reflexivity. }
    rewrite at_digit_app by auto. rewrite skip_digits_all by auto. auto.
Qed.

Lemma number_reads dc minus body f e r : dig body -> body <> [] -> (forall s', body = 48 :: s' -> s' = []) ->
  f = [] \/ fraction f -> e = [] \/ exponent e ->
  (f = [] -> e = [] -> peek r <> 46) -> (e = [] -> peek r <> 101 /\ peek r <> 69) ->
  (f = [] -> e = [] -> int_end body r) -> (f <> [] \/ e <> [] -> no_digit r) ->
  let t := sign_of minus ++ body ++ f ++ e in
  number dc (t ++ r) =
    if negb (dec body 0 <=? most minus) || negb (match f with [] => true | _ => false end) || negb (match e with [] => true | _ => false end)
    then match strtod dc t with Some b => Got (JDbl b) r | None => Fail PNumberTooBig end
    else Got (JInt (if minus then - Z.of_N (dec body 0) else Z.of_N (dec body 0))) r.
Proof.
  intros Hd Hne Hl Hf He Hr1 Hr2 Hr3 Hr4 t. unfold number.
  assert (t ++ r = sign_of minus ++ body ++ f ++ e ++ r) as Et by (unfold t; now rewrite <- !app_assoc). 
  assert ((peek (t ++ r) =? 45) = minus) as Em.
  { rewrite Et. destruct minus; [reflexivity|]. cbn [sign_of app]. pose proof (peek_dig body (f ++ e ++ r) Hd Hne) as Hp. apply digit_not in Hp. tauto. }
  rewrite Em. cbv zeta. assert ((if minus then tl (t ++ r) else t ++ r) = body ++ f ++ e ++ r) as -> by (rewrite Et; destruct minus; reflexivity).
  rewrite at_digit_app by auto. cbn [negb].
  assert (int_end body (f ++ e ++ r)) as Hie.
  { destruct Hf as [->|(ds & -> & _)]; [|right; reflexivity]. destruct He as [->|(x & sg & ds & -> & Hx & _)]; [now apply Hr3|].
    right. cbn. destruct Hx as [-> | ->]; reflexivity. }
  destruct (int_part_spec minus body (f ++ e ++ r) Hd Hne Hl Hie) as (i & -> & Hi).
  (* in front of the exponent *)
  assert (f <> [] -> no_digit (e ++ r)) as Hn1.
  { intros Hfn. destruct He as [->|(x & sg & ds & -> & Hx & _)]; [now apply Hr4; left|destruct Hx as [-> | ->]; reflexivity]. }
  assert (f = [] -> peek (e ++ r) <> 46) as Hn2.
  { intros Hf0. destruct He as [->|(x & sg & ds & -> & Hx & _)]; [now apply Hr1|cbn; destruct Hx; lia]. }
  assert ((peek (f ++ e ++ r) =? 46) = negb (match f with [] => true | _ => false end) /\
          (peek (f ++ e ++ r) =? 46) && negb (at_digit (tl (f ++ e ++ r))) = false /\
          (if peek (f ++ e ++ r) =? 46 then skip_digits (tl (f ++ e ++ r)) else f ++ e ++ r) = e ++ r) as (F1 & F2 & F3).
  { destruct Hf as [->|Hf].
    - cbn [app]. specialize (Hn2 eq_refl). apply N.eqb_neq in Hn2. rewrite Hn2. auto.
    - assert (f <> []) as Hfn by (destruct Hf as (? & -> & _); discriminate). apply fraction_read; auto. }
  rewrite F2, F3.
  assert (((peek (e ++ r) =? 101) || (peek (e ++ r) =? 69)) = negb (match e with [] => true | _ => false end)) as E1.
  { destruct He as [->|(x & sg & ds & -> & Hx & _)]; cbn; [destruct (Hr2 eq_refl) as [H1 H2]; apply N.eqb_neq in H1, H2; now rewrite H1, H2|destruct Hx as [-> | ->]; reflexivity]. }
  assert (let s3 := if (peek (e ++ r) =? 101) || (peek (e ++ r) =? 69) then (if (peek (tl (e ++ r)) =? 43) || (peek (tl (e ++ r)) =? 45) then tl (tl (e ++ r)) else tl (e ++ r)) else e ++ r in
          ((peek (e ++ r) =? 101) || (peek (e ++ r) =? 69)) && negb (at_digit s3) = false /\
          (if (peek (e ++ r) =? 101) || (peek (e ++ r) =? 69) then skip_digits s3 else s3) = r) as [E2 E3].
  { destruct He as [->|He]; [cbn [app] in *; rewrite E1; cbn; auto|].
    assert (e <> []) as Hen by (destruct He as (? & ? & ? & -> & _); discriminate).
    apply exponent_read; auto. }
  cbv zeta in E2, E3. rewrite E2, E3, F1, E1, upto_app.
  destruct (negb (dec body 0 <=? most minus)) eqn:Eb; cbn [orb]; auto.
  apply negb_false_iff, N.leb_le in Eb. rewrite (Hi Eb). reflexivity.
Qed.

(** What [number] takes apart. *)
Lemma number_parts dc s j r : number dc s = Got j r -> exists minus body f e,
  s = (sign_of minus ++ body ++ f ++ e) ++ r /\ dig body /\ body <> [] /\ (forall s', body = 48 :: s' -> s' = []) /\
  (f = [] \/ fraction f) /\ (e = [] \/ exponent e) /\
  (f = [] -> e = [] -> peek r <> 46) /\ (e = [] -> peek r <> 101 /\ peek r <> 69) /\
  (f = [] -> e = [] -> int_end body r) /\ (f <> [] \/ e <> [] -> no_digit r).
Proof.
  unfold number. set (minus := peek s =? 45). set (s0 := if minus then tl s else s).
  assert (s = sign_of minus ++ s0) as Es.
  { unfold s0, sign_of, minus. destruct (N.eqb_spec (peek s) 45) as [E|]; [|reflexivity]. destruct s; [discriminate|]. cbn in E. now subst. }
  destruct (at_digit s0) eqn:Ha; cbn [negb]; [|discriminate].
  destruct (int_part_split minus s0 Ha) as (body & s1 & i & E0 & Hd & Hne & Hl & Hie & Ei & _). rewrite Ei. cbv zeta.
  destruct ((peek s1 =? 46) && negb (at_digit (tl s1))) eqn:Ef; [discriminate|].
  assert (exists f s2, s1 = f ++ s2 /\ (f = [] \/ fraction f) /\ (f = [] -> peek s2 <> 46) /\ (f <> [] -> no_digit s2) /\
    (if peek s1 =? 46 then skip_digits (tl s1) else s1) = s2) as (f & s2 & E1 & Hf & Hf1 & Hf2 & Hf3).
  { destruct (N.eqb_spec (peek s1) 46) as [E|E].
    - destruct s1 as [|c s1]; [discriminate|]. cbn in E. subst c. cbn [tl] in *. cbn [andb] in Ef. apply negb_false_iff in Ef.
      destruct (digit_run s1) as (p & s2 & -> & Hp & Hs2 & Hpn). exists (46 :: p), s2. split; [reflexivity|]. split.
      { right. exists p. split; auto. apply digits_iff. auto. }
      split; [discriminate|]. split; [auto|]. now apply skip_digits_all.
    - exists [], s1. cbn. repeat split; auto. contradiction. }
  rewrite Hf3. clear Ef Hf3.
  match goal with |- (if ?c then _ else _) = _ -> _ => destruct c eqn:Ee; [discriminate|] end.
  assert (exists e s4, s2 = e ++ s4 /\ (e = [] \/ exponent e) /\ (e = [] -> peek s4 <> 101 /\ peek s4 <> 69) /\ (e <> [] -> no_digit s4) /\
    (if (peek s2 =? 101) || (peek s2 =? 69)
     then skip_digits (if (peek s2 =? 101) || (peek s2 =? 69) then (if (peek (tl s2) =? 43) || (peek (tl s2) =? 45) then tl (tl s2) else tl s2) else s2)
     else (if (peek s2 =? 101) || (peek s2 =? 69) then (if (peek (tl s2) =? 43) || (peek (tl s2) =? 45) then tl (tl s2) else tl s2) else s2)) = s4) as (e & s4 & E2 & He & He1 & He2 & He3).
  { destruct ((peek s2 =? 101) || (peek s2 =? 69)) eqn:Ex.
    - apply orb_true_iff in Ex. rewrite !N.eqb_eq in Ex. destruct s2 as [|x s2]; [destruct Ex; discriminate|]. cbn [peek tl] in *. cbn [andb] in Ee. apply negb_false_iff in Ee.
      assert (exists sg q, s2 = sg ++ q /\ (sg = [] \/ sg = [43] \/ sg = [45]) /\ (if (peek s2 =? 43) || (peek s2 =? 45) then tl s2 else s2) = q) as (sg & q & -> & Hs & Hq).
      { destruct ((peek s2 =? 43) || (peek s2 =? 45)) eqn:Eg; [|exists [], s2; auto].
        apply orb_true_iff in Eg. rewrite !N.eqb_eq in Eg. destruct s2 as [|y s2]; [destruct Eg; discriminate|]. cbn in Eg. exists [y], s2. destruct Eg as [-> | ->]; auto. }
      rewrite Hq in *. destruct (digit_run q) as (p & s4 & -> & Hp & Hs4 & Hpn). specialize (Hpn Ee).
      exists (x :: sg ++ p), s4. split; [cbn; now rewrite <- app_assoc|]. split.
      { right. exists x, sg, p. split; auto. split; auto. split; auto. apply digits_iff. auto. }
      split; [discriminate|]. split; [auto|]. now apply skip_digits_all.
    - exists [], s2. cbn. apply orb_false_iff in Ex. rewrite !N.eqb_neq in Ex. destruct Ex. repeat split; auto. }
  rewrite He3. clear Ee He3. intros H.
  assert (s4 = r) as ->.
  { match type of H with (if ?c then _ else _) = _ => destruct c end.
    - destruct (strtod dc (upto s s4)); [congruence|discriminate].
    - congruence. }
  exists minus, body, f, e. rewrite Es, E0, E1, E2, <- !app_assoc. split; [reflexivity|]. split; [auto|]. split; [auto|]. split; [auto|]. split; [auto|]. split; [auto|].
  split. { intros -> ->. rewrite E2 in Hf1. now apply Hf1. }
  split; [auto|]. split. { intros -> ->. rewrite E1, E2 in Hie. exact Hie. }
  intros [Hfn|Hen]; [|auto]. destruct He as [->|He]; [|apply He2; destruct He as (? & ? & ? & -> & _); discriminate].
  specialize (Hf2 Hfn). rewrite E2 in Hf2. exact Hf2.
Qed.

Lemma number_sound dc s j r : number dc s = Got j r -> exists t, s = t ++ r /\ denotes (strtod dc) j t.
Proof.
  intros E. destruct (number_parts _ _ _ _ E) as (minus & body & f & e & -> & Hd & Hne & Hl & Hf & He & H1 & H2 & H3 & H4).
  eexists. split; [reflexivity|]. rewrite number_reads in E by auto.
  assert (whole (sign_of minus ++ body) (if minus then - Z.of_N (dec body 0) else Z.of_N (dec body 0))) as W by (apply whole_parts; exists minus, body; auto).
  match type of E with (if ?c then _ else _) = _ => destruct c eqn:Ec end.
  - destruct (strtod dc _) as [b|] eqn:Es; [|discriminate]. injection E as <-. constructor; auto.
    exists (sign_of minus ++ body), (if minus then - Z.of_N (dec body 0) else Z.of_N (dec body 0))%Z, f, e.
    rewrite <- app_assoc. repeat split; auto. rewrite <- most_held. apply orb_true_iff in Ec. rewrite orb_true_iff in Ec.
    destruct Ec as [[Ec|Ec]|Ec]; [right; right|left|right; left].
    + apply negb_true_iff, N.leb_gt in Ec. lia.
    + destruct f; discriminate.
    + destruct e; discriminate.
  - apply orb_false_iff in Ec. destruct Ec as [Ec Ece]. apply orb_false_iff in Ec. destruct Ec as [Ec Ecf].
    destruct f; [|discriminate]. destruct e; [|discriminate]. injection E as <-. rewrite !app_nil_r. constructor; auto.
    apply most_held. apply negb_false_iff, N.leb_le in Ec. exact Ec.
Qed.

Lemma number_int dc t z r : whole t z -> held z -> ended r -> number dc (t ++ r) = Got (JInt z) r.
Proof.
  intros W Hz (R1 & R2 & R3 & R4). apply whole_parts in W. destruct W as (minus & body & -> & Hd & Hne & Hl & ->). apply most_held in Hz.
  pose proof (number_reads dc minus body [] [] r Hd Hne Hl) as E. cbn [app] in E. rewrite app_nil_r in E. cbv zeta in E. rewrite E; auto.
  - apply N.leb_le in Hz. rewrite Hz. reflexivity.
  - intros _ _. right. auto.
Qed.
Lemma number_dbl dc t b r : real t -> strtod dc t = Some b -> ended r -> number dc (t ++ r) = Got (JDbl b) r.
Proof.
  intros (i & z & f & e & -> & W & Hf & He & Hb) Es (R1 & R2 & R3 & R4). apply whole_parts in W. destruct W as (minus & body & -> & Hd & Hne & Hl & ->).
  rewrite <- most_held in Hb. pose proof (number_reads dc minus body f e r Hd Hne Hl Hf He) as E. cbv zeta in E.
  rewrite <- (app_assoc (sign_of minus) body) in *. rewrite E; auto.
  - rewrite Es. match goal with |- (if ?c then _ else _) = _ => assert (c = true) as -> end; [|reflexivity].
    destruct Hb as [Hb|[Hb|Hb]].
    + destruct f; [contradiction|]. cbn. now rewrite orb_true_r.
    + destruct e; [contradiction|]. cbn. now rewrite orb_true_r.
    + destruct (N.leb_spec (dec body 0) (most minus)); [contradiction|]. reflexivity.
  - intros _ _. right. auto.
Qed.

(** How numbers begin. *)
Lemma whole_head t z : whole t z -> exists c t', t = c :: t' /\ (c = 45 \/ 48 <= c <= 57).
Proof.
  intros W. apply whole_parts in W. destruct W as (minus & body & -> & Hd & Hne & _ & _). destruct minus; [exists 45, body; cbn; auto|].
  destruct Hd as [|c q Hc Hq]; [contradiction|]. exists c, q. auto.
Qed.
Lemma real_head t : real t -> exists c t', t = c :: t' /\ (c = 45 \/ 48 <= c <= 57).
Proof.
  intros (i & z & f & e & -> & W & _). destruct (whole_head _ _ W) as (c & t' & -> & Hc). exists c, (t' ++ f ++ e). auto.
Qed.
Lemma number_no_zero t : (exists z, whole t z) \/ real t -> Forall (fun c => 32 < c < 128) t.
Proof.
  assert (forall p, dig p -> Forall (fun c => 32 < c < 128) p) as D by (intros p H; eapply Forall_impl; [|exact H]; cbn; intros; lia).
  assert (forall i z, whole i z -> Forall (fun c => 32 < c < 128) i) as W.
  { intros i z W. apply whole_parts in W. destruct W as (minus & body & -> & Hd & _). apply Forall_app. split; [|auto]. destruct minus; repeat constructor. }
  intros [[z H]|(i & z & f & e & -> & Hw & Hf & He & _)]; [eauto|]. apply Forall_app. split; [eauto|]. apply Forall_app. split.
  - destruct Hf as [->|(ds & -> & Hd)]; constructor; [lia|]. apply D, Hd.
  - destruct He as [->|(x & sg & ds & -> & Hx & Hs & Hd)]; constructor; [lia|]. apply Forall_app. split; [|apply D, Hd].
    destruct Hs as [->|[->| ->]]; repeat constructor.
Qed.
