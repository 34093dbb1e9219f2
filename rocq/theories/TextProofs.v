(** Proofs about splitting, joining and index segments. *)
From Coq Require Import List NArith Arith Bool Lia ZifyBool ZifyNat ZifyN.
From Verif Require Import Base TextModel TextSpec.
Import ListNotations.
Local Open Scope outcome_scope.

Lemma any_of_In c ds : any_of c ds = true <-> In c ds.
Proof.
  induction ds as [|d ds IH]; cbn; [intuition discriminate|].
  destruct (N.eqb_spec c d); [subst; tauto|]. rewrite IH. intuition congruence.
Qed.

Lemma any_of_not c ds : any_of c ds = false <-> ~ In c ds.
Proof. rewrite <- any_of_In. destruct (any_of c ds); intuition congruence. Qed.

(** Where the search stops. *)
Lemma find_spec ds : forall s pre n, n = length s ->
  exists t r, s = t ++ r /\ free ds t /\
    find_first_of (pre ++ s) ds n (length pre) = Ok (length pre + length t) /\
    (r = [] \/ exists d r', r = d :: r' /\ In d ds).
Proof.
  induction s as [|c s IH]; intros pre n ->; cbn [length find_first_of].
  - exists [], []. rewrite Nat.add_0_r. repeat split; [constructor|now left].
  - rewrite rd_app. cbn [obind]. destruct (any_of c ds) eqn:E.
    + exists [], (c :: s). cbn. rewrite Nat.add_0_r. repeat split; [constructor|]. right. exists c, s. split; [easy|]. now apply any_of_In.
    + destruct (IH (pre ++ [c]) (length s) eq_refl) as (t & r & -> & Hf & Ef & Hr).
      exists (c :: t), r. split; [easy|]. split; [constructor; [now apply any_of_not|exact Hf]|]. split; [|exact Hr].
      rewrite <- app_assoc in Ef. cbn [app] in Ef. rewrite (app_length pre [c]) in Ef. cbn [length] in Ef. rewrite Ef. f_equal. cbn [length]. lia.
Qed.

Lemma make_string_mid pre t s : make_string (pre ++ t ++ s) (length pre, length pre + length t) = t.
Proof.
  unfold make_string. cbn [fst snd]. rewrite skipn_app, skipn_all, Nat.sub_diag. cbn [skipn app].
  replace (length pre + length t - length pre) with (length t + 0) by lia.
  rewrite firstn_app_2. cbn. apply app_nil_r.
Qed.

Lemma tokens_spec ds : forall fuel s pre, length s < fuel ->
  exists ps ts, for_each_token fuel (pre ++ s) ds (length pre) (length (pre ++ s)) = Ok ps /\
    map (make_string (pre ++ s)) ps = ts /\ cut ds s ts /\
    Forall2 (fun p t => snd p = fst p + length t) ps ts.
Proof.
  induction fuel as [|fuel IH]; intros s pre Hl; [lia|]. cbn [for_each_token]. rewrite app_length.
  destruct (Nat.eqb_spec (length pre) (length pre + length s)) as [E|E].
  - destruct s; [|cbn in E; lia]. exists [], []. repeat split; constructor.
  - replace (length pre + length s - length pre) with (length s) by lia.
    destruct (find_spec ds s pre (length s) eq_refl) as (t & r & Es & Hf & Ef & Hr).
    rewrite Ef. cbn [obind]. destruct Hr as [-> | (d & r' & -> & Hd)].
    + rewrite app_nil_r in Es. subst t. rewrite Nat.eqb_refl. exists [(length pre, length pre + length s)], [s].
      split; [reflexivity|]. split.
      { cbn [map]. rewrite <- (app_nil_r s) at 1. rewrite make_string_mid. reflexivity. }
      split; [constructor; [|assumption]; intros ->; cbn in E; lia|]. repeat constructor.
    + subst s. rewrite app_length in *. cbn [length] in *.
      destruct (Nat.eqb_spec (length pre + length t) (length pre + (length t + S (length r')))); [lia|].
      destruct (IH r' (pre ++ t ++ [d])) as (ps & ts & E1 & E2 & E3 & E4); [lia|].
      assert (EQ : (pre ++ t ++ [d]) ++ r' = pre ++ t ++ d :: r') by (rewrite <- !app_assoc; reflexivity).
      rewrite EQ in *. rewrite !app_length in E1. cbn [length] in E1.
      replace (length pre + (length t + 1)) with (length pre + length t + 1) in E1 by lia. rewrite E1. cbn [obind].
      exists ((length pre, length pre + length t) :: ps), (t :: ts). split; [reflexivity|].
      split; [cbn [map]; rewrite E2, make_string_mid; reflexivity|]. split; [now constructor|]. constructor; [reflexivity|exact E4].
Qed.

Definition nonempty (t : list N) : bool := match t with [] => false | _ => true end.

Lemma filter_empty str ps ts : map (make_string str) ps = ts -> Forall2 (fun p t => snd p = fst p + length t) ps ts ->
  map (make_string str) (filter (fun p => (negb (Nat.eqb (fst p) (snd p)) || negb true)%bool) ps) = filter nonempty ts.
Proof.
  revert ts; induction ps as [|p ps IH]; intros ts E F; destruct ts as [|y ts]; cbn [map] in E; try discriminate; [reflexivity|].
  assert (E1 : make_string str p = y) by congruence. assert (E2 : map (make_string str) ps = ts) by congruence.
  assert (F1 : snd p = fst p + length y) by now inversion F.
  assert (F2 : Forall2 (fun p t => snd p = fst p + length t) ps ts) by now inversion F.
  specialize (IH ts E2 F2).
  cbn [filter]. rewrite orb_false_r in *.
  destruct y as [|c y]; cbn [nonempty length] in *.
  - destruct (Nat.eqb_spec (fst p) (snd p)); [|lia]. cbn [negb]. exact IH.
  - destruct (Nat.eqb_spec (fst p) (snd p)); [lia|]. cbn [negb map]. f_equal; [exact E1|exact IH].
Qed.

Lemma filter_all {A} f (l : list A) : (forall x, f x = true) -> filter f l = l.
Proof. intros H. induction l; cbn; [easy|]. rewrite H. congruence. Qed.

Lemma split_lemma ds s : exists ts, cut ds s ts /\ split s ds false = Ok ts /\ split s ds true = Ok (filter nonempty ts).
Proof.
  destruct (tokens_spec ds (S (length s)) s []) as (ps & ts & E1 & E2 & E3 & E4); [lia|]. cbn [app length] in *.
  exists ts. split; [exact E3|]. unfold split. rewrite E1. cbn [obind]. split; f_equal.
  - rewrite filter_all; [exact E2|]. intros x. apply orb_true_r.
  - now apply filter_empty.
Qed.

Lemma free_app ds a b : free ds (a ++ b) <-> free ds a /\ free ds b.
Proof. unfold free. apply Forall_app. Qed.

Lemma free_unique ds t d s t' d' s' : free ds t -> free ds t' -> In d ds -> In d' ds ->
  t ++ d :: s = t' ++ d' :: s' -> t = t' /\ d = d' /\ s = s'.
Proof.
  revert t'; induction t as [|x t IH]; intros [|x' t'] Ht Ht' Hd Hd' E; cbn in E.
  - injection E as -> ->. auto.
  - injection E as <- _. inversion Ht'; subst. contradiction.
  - injection E as -> _. inversion Ht; subst. contradiction.
  - injection E as -> E. inversion Ht; inversion Ht'; subst. destruct (IH t') as (-> & -> & ->); auto.
Qed.

Lemma free_no ds t d s : free ds (t ++ d :: s) -> ~ In d ds.
Proof. rewrite free_app. intros [_ H]. now inversion H. Qed.

Lemma cut_unique ds s ts : cut ds s ts -> forall ts', cut ds s ts' -> ts = ts'.
Proof.
  induction 1 as [|t Hne Hf|t d s ts Hf Hd Hc IH]; intros ts' H'.
  - inversion H'; subst; try easy. now destruct t.
  - inversion H'; subst; try easy. exfalso. eapply free_no; eauto.
  - remember (t ++ d :: s) as w eqn:E. destruct H' as [|t' Hne' Hf'|t' d' s' ts' Hf' Hd' Hc'].
    + now destruct t.
    + subst. exfalso. eapply free_no; eauto.
    + destruct (free_unique ds t' d' s' t d s) as (-> & -> & ->); auto. f_equal. auto.
Qed.

Lemma cut_restores ds s ts : cut ds s ts ->
  exists seps, s = interleave ts seps /\ Forall (fun d => In d ds) seps /\ Forall (free ds) ts /\
    (length ts = length seps \/ length ts = S (length seps) /\ last ts [] <> []).
Proof.
  induction 1 as [|t Hne Hf|t d s ts Hf Hd Hc (seps & E & F & G & L)].
  - exists []. cbn. repeat split; auto.
  - exists []. cbn. repeat split; auto.
  - exists (d :: seps). cbn [interleave length]. rewrite <- E. repeat split; auto.
    destruct L as [L|[L1 L2]]; [left; lia|right]. split; [lia|]. destruct ts; [easy|exact L2].
Qed.

(* ---------- joining ---------- *)

Lemma join_loop_spec {A} (fmt : A -> text) delim xs : forall os x,
  join_loop fmt (os ++ fmt x) delim xs = os ++ intercalate delim (map fmt (x :: xs)).
Proof.
  induction xs as [|y xs IH]; intros os x; [reflexivity|]. cbn [join_loop].
  rewrite (app_assoc (os ++ fmt x)), IH. cbn [map intercalate]. rewrite <- !app_assoc. reflexivity.
Qed.

Lemma stream_join_lemma {A} (fmt : A -> text) os delim empty xs :
  stream_join fmt os delim empty xs = os ++ match xs with [] => empty | _ => intercalate delim (map fmt xs) end.
Proof. destruct xs; cbn [stream_join]; [reflexivity|]. apply join_loop_spec. Qed.

Lemma copy_loop {A} (fmt : A -> text) delim xs : forall os x,
  fst (fold_left (joiner_assign fmt) xs (os ++ fmt x, mkjoiner delim false)) = os ++ intercalate delim (map fmt (x :: xs)).
Proof.
  induction xs as [|y xs IH]; intros os x; [reflexivity|]. cbn [fold_left]. cbn [joiner_assign jfirst jdelim].
  rewrite IH. cbn [map intercalate]. rewrite <- !app_assoc. reflexivity.
Qed.

Lemma copy_to_lemma {A} (fmt : A -> text) os delim xs :
  fst (copy_to fmt os (make_joiner delim) xs) = os ++ intercalate delim (map fmt xs).
Proof.
  unfold copy_to. destruct xs as [|x xs]; [cbn; now rewrite app_nil_r|]. cbn [fold_left]. apply copy_loop.
Qed.

(** Carrying on with the returned joiner is the same as one run. *)
Lemma copy_to_app {A} (fmt : A -> text) os j xs ys :
  copy_to fmt os j (xs ++ ys) = let '(os', j') := copy_to fmt os j xs in copy_to fmt os' j' ys.
Proof. unfold copy_to. rewrite fold_left_app. destruct (fold_left _ xs _). reflexivity. Qed.

(* ---------- index segments ---------- *)

Lemma digit_spec c : is_digit c = true <-> (48 <= c <= 57)%N.
Proof. unfold is_digit. lia. Qed.

Definition value_of (s : text) (acc : N) : N := (acc * 10 ^ N.of_nat (length s) + numeral s)%N.

Lemma value_step c s acc : value_of s (10 * acc + (c - 48)) = value_of (c :: s) acc.
Proof.
  unfold value_of. cbn [numeral length]. rewrite Nat2N.inj_succ, N.pow_succ_r'. ring.
Qed.

Lemma value_mono s acc : (acc <= value_of s acc)%N.
Proof.
  unfold value_of. assert (1 <= 10 ^ N.of_nat (length s))%N by (pose proof (N.pow_nonzero 10 (N.of_nat (length s))); lia).
  nia.
Qed.

Definition fits (v : N) : option N := if (v <? 18446744073709551616)%N then Some v else None.

Lemma run_none s : Forall (fun c => is_digit c = true) s -> digits_run s None = ([], None).
Proof. induction 1 as [|c s H _ IH]; cbn [digits_run]; [reflexivity|]. rewrite H. exact IH. Qed.

Lemma run_digits s : Forall (fun c => is_digit c = true) s -> forall acc, (acc < 18446744073709551616)%N ->
  digits_run s (Some acc) = ([], fits (value_of s acc)).
Proof.
  induction 1 as [|c s H F IH]; intros acc Ha; cbn [digits_run].
  - unfold value_of, fits. cbn [length numeral]. change (N.of_nat 0) with 0%N. rewrite N.pow_0_r, N.mul_1_r, N.add_0_r.
    destruct (N.ltb_spec acc 18446744073709551616); [reflexivity|lia].
  - rewrite H. cbv zeta. destruct (N.ltb_spec (10 * acc + (c - 48)) 18446744073709551616) as [L|L].
    + rewrite IH by assumption. now rewrite value_step.
    + rewrite run_none by assumption. f_equal. unfold fits.
      destruct (N.ltb_spec (value_of (c :: s) acc) 18446744073709551616) as [L'|]; [|reflexivity].
      rewrite <- value_step in L'. pose proof (value_mono s (10 * acc + (c - 48))). lia.
Qed.

Lemma run_rest s : forall acc, fst (digits_run s acc) = [] -> Forall (fun c => is_digit c = true) s.
Proof.
  induction s as [|c s IH]; intros acc H; [constructor|]. cbn [digits_run] in H. destruct (is_digit c) eqn:E; [|discriminate].
  constructor; [exact E|]. eapply IH, H.
Qed.

Lemma parse_index_lemma s v : parse_index s = Some v <-> decimal s /\ numeral s = v /\ (v < 2 ^ 64)%N.
Proof.
  change (2 ^ 64)%N with 18446744073709551616%N. unfold decimal.
  assert (HD : Forall (fun c => (48 <= c <= 57)%N) s <-> Forall (fun c => is_digit c = true) s).
  { split; apply Forall_impl; intros c; apply digit_spec. }
  rewrite HD. clear HD. destruct s as [|c s]; [cbn; split; [discriminate|intuition congruence]|].
  unfold parse_index, from_chars. destruct (is_digit c) eqn:Ec.
  - destruct (digits_run (c :: s) (Some 0%N)) as [rest o] eqn:Er. split.
    + intros H. destruct o as [v0|]; [|discriminate]. destruct rest; [|discriminate]. injection H as ->.
      assert (F : Forall (fun c => is_digit c = true) (c :: s)) by (eapply run_rest; now rewrite Er).
      rewrite (run_digits _ F) in Er by lia. injection Er as Er. unfold fits in Er.
      destruct (N.ltb_spec (value_of (c :: s) 0) 18446744073709551616); [|discriminate]. injection Er as Er.
      assert (EV : value_of (c :: s) 0 = numeral (c :: s)) by (unfold value_of; lia). rewrite EV in *.
      repeat split; [discriminate|exact F|exact Er|lia].
    + intros ((_ & F) & E & L). rewrite (run_digits _ F) in Er by lia. injection Er as <- <-.
      assert (EV : value_of (c :: s) 0 = numeral (c :: s)) by (unfold value_of; lia). rewrite EV. unfold fits.
      destruct (N.ltb_spec (numeral (c :: s)) 18446744073709551616); [now rewrite E|lia].
  - split; [discriminate|]. intros ((_ & F) & _). inversion F; congruence.
Qed.

Lemma split_cut_lemma delims s : exists ts,
  (forall ts', cut delims s ts' <-> ts' = ts) /\
  split s delims false = Ok ts /\
  split s delims true = Ok (filter (fun t => negb (Nat.eqb (length t) 0)) ts).
Proof.
  destruct (split_lemma delims s) as (ts & Hc & H1 & H2). exists ts. split; [|split; [exact H1|]].
  - intros ts'. split; [intros H'; symmetry; eapply cut_unique; eauto|intros ->; exact Hc].
  - rewrite H2. f_equal. apply filter_ext. now intros [|].
Qed.

Lemma split_restore_lemma delims s ts : split s delims false = Ok ts ->
  exists seps, s = interleave ts seps /\ Forall (fun d => In d delims) seps /\
    Forall (Forall (fun c => ~ In c delims)) ts /\
    (length ts = length seps \/ length ts = S (length seps) /\ last ts [] <> []).
Proof.
  intros E. destruct (split_lemma delims s) as (ts' & Hc & H1 & _). rewrite H1 in E. injection E as ->.
  exact (cut_restores delims s ts Hc).
Qed.

Lemma joiner_lemma {A} (fmt : A -> text) os delim xs ys :
  fst (copy_to fmt os (make_joiner delim) xs) = os ++ intercalate delim (map fmt xs) /\
  fst (let '(os', j) := copy_to fmt os (make_joiner delim) xs in copy_to fmt os' j ys) =
    os ++ intercalate delim (map fmt (xs ++ ys)).
Proof. split; [apply copy_to_lemma|]. rewrite <- copy_to_app. apply copy_to_lemma. Qed.
