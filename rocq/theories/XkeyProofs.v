(** Keys of extra fields. *)
From Coq Require Import List NArith Arith Bool Lia.
From Verif Require Import Base XkeyModel XkeySpec.
Import ListNotations.

Lemma same_iff a b : same a b = true <-> a = b.
Proof. unfold same. destruct (list_eq_dec N.eq_dec a b); split; congruence. Qed.

Lemma reserved_iff n l : existsb (same n) l = true <-> In n l.
Proof.
  rewrite existsb_exists. split.
  - intros (x & H & E). apply same_iff in E. now subst.
  - intros H. exists n. split; [exact H | now apply same_iff].
Qed.
Lemma reserved_not n l : existsb (same n) l = false <-> ~ In n l.
Proof. rewrite <- reserved_iff. destruct (existsb (same n) l); split; congruence. Qed.

Section Extras.
Context {V D : Type} (probe : list str -> str -> list nat).
Implicit Types (m : list (key * V)) (ms : list (option str * D)) (live : nat -> bool) (read : D -> outcome V)
  (patch : D -> V -> outcome V) (x : option str * D).

Notation keys m := (map (fun e => chars (fst e)) m).

Lemma keys_texts m : map fst (texts m) = keys m.
Proof. unfold texts. rewrite map_map. reflexivity. Qed.

Lemma readable_usable live k : readable live k = true <-> usable live k.
Proof. destruct k as [[|r] s]; cbn; [now split|reflexivity]. Qed.

Lemma find_extra_ok live m s o : finds probe -> find_extra probe live m s = Ok o ->
  match o with
  | Some i => exists e, nth_error m i = Some e /\ chars (fst e) = s
  | None => ~ In s (keys m)
  end.
Proof.
  intros F. unfold find_extra. destruct (forallb _ _); [|discriminate]. intros [= <-].
  destruct (find _ _) as [i|] eqn:E.
  - apply find_some in E as [_ E]. destruct (nth_error m i) as [e|]; [|discriminate]. exists e. split; [reflexivity | now apply same_iff].
  - intros H. apply In_nth_error in H as [i H]. pose proof (F _ _ _ H) as Hp.
    apply (find_none _ _ E) in Hp. cbn in Hp. rewrite nth_error_map in H. destruct (nth_error m i) as [e|]; [|discriminate].
    cbn in H. injection H as H. apply same_iff in H. congruence.
Qed.

Lemma find_extra_defined live m s : Forall (fun e => usable live (fst e)) m -> exists o, find_extra probe live m s = Ok o.
Proof.
  intros U. unfold find_extra.
  assert (E : forallb (fun i => match nth_error m i with Some e => readable live (fst e) | None => true end) (probe (keys m) s) = true).
  { apply forallb_forall. intros i _. destruct (nth_error m i) as [e|] eqn:N; [|reflexivity].
    apply readable_usable. rewrite Forall_forall in U. apply U. eapply nth_error_In; eauto. }
  rewrite E. eauto.
Qed.

Lemma find_extra_not_throws live m s : find_extra probe live m s <> Throws.
Proof. unfold find_extra. destruct (forallb _ _); discriminate. Qed.

Lemma emplace_ok live m k v m' : finds probe -> emplace probe live m k v = Ok m' ->
  (In (chars k) (keys m) /\ m' = m) \/ (~ In (chars k) (keys m) /\ m' = m ++ [(k, v)]).
Proof.
  intros F. unfold emplace. destruct (find_extra probe live m (chars k)) as [o| |] eqn:E; try discriminate. cbn.
  apply find_extra_ok in E; [|exact F]. destruct o as [i|]; intros [= <-].
  - left. split; [|reflexivity]. destruct E as (e & N & <-). apply in_map_iff. exists e. split; [reflexivity | eapply nth_error_In; eauto].
  - right. now split.
Qed.

Lemma chars_key_from kind r s : chars (key_from kind r s) = s.
Proof. now destruct kind. Qed.

Lemma texts_app m k v : texts (m ++ [(k, v)]) = texts m ++ [(chars k, v)].
Proof. unfold texts. now rewrite map_app. Qed.

(** ** Reading *)

Lemma each_read kind reserved read live : finds probe -> forall ms r m m',
  each (read_extra probe kind reserved read live) r ms m = Ok m' ->
  said reserved read ms (texts m) (texts m') /\
  exists rest, m' = m ++ rest /\ Forall (fun e => exists r', r <= r' /\ fst e = key_from kind r' (chars (fst e))) rest.
Proof.
  intros F. induction ms as [|[name d] ms IH]; intros r m m' H; cbn [each] in H.
  - injection H as <-. split; [constructor|]. exists []. rewrite app_nil_r. split; [reflexivity|constructor].
  - destruct (read_extra probe kind reserved read live r (name, d) m) as [m1| |] eqn:E; try discriminate. cbn [obind] in H.
    apply IH in H as (S1 & rest & -> & R).
    assert (R' : Forall (fun e : key * V => exists r', r <= r' /\ fst e = key_from kind r' (chars (fst e))) rest).
    { eapply Forall_impl; [|exact R]. cbn. intros e (r' & L & X). exists r'. split; [lia|exact X]. }
    unfold read_extra in E. cbn [fst snd] in E. destruct name as [n|]; [|discriminate].
    destruct (existsb (same n) reserved) eqn:Er.
    + injection E as <-. apply reserved_iff in Er. split; [now apply said_reserved|]. eauto.
    + apply reserved_not in Er. destruct (read d) as [v| |] eqn:Ed; try discriminate. cbn [obind] in E.
      apply emplace_ok in E; [|exact F]. rewrite chars_key_from in E. rewrite <- keys_texts in E. destruct E as [[I ->]|[I ->]].
      * split; [eapply said_again; eauto|]. eauto.
      * rewrite texts_app, chars_key_from in S1. split; [eapply said_new; eauto|].
        exists ((key_from kind r n, v) :: rest). split; [now rewrite <- app_assoc|]. constructor; [|exact R'].
        exists r. cbn [fst]. now rewrite chars_key_from.
Qed.

Lemma during_usable live r k : usable live k -> usable (during live r) k.
Proof. destruct k as [[|x] s]; cbn; [auto|]. unfold during. intros ->. reflexivity. Qed.
Lemma during_all live r m : Forall (fun e => usable live (fst e)) m -> Forall (fun e => usable (during live r) (fst e)) m.
Proof. intros H. eapply Forall_impl; [|exact H]. intros e. apply during_usable. Qed.

Lemma emplace_defined live m k v : Forall (fun e => usable live (fst e)) m -> exists m', emplace probe live m k v = Ok m'.
Proof.
  intros U. unfold emplace. destruct (find_extra_defined live m (chars k) U) as [[i|] ->]; cbn; eauto.
Qed.

Lemma owned_step reserved read live r x m : Forall (fun e => usable live (fst e)) m -> (forall d, read d <> UB) ->
  read_extra probe Owns reserved read live r x m <> UB /\
  (forall m', read_extra probe Owns reserved read live r x m = Ok m' -> Forall (fun e => usable live (fst e)) m').
Proof.
  intros U NU. unfold read_extra. destruct (fst x) as [n|]; [|split; discriminate].
  destruct (existsb (same n) reserved); [split; [discriminate|]; intros m' [= <-]; exact U|].
  pose proof (NU (snd x)) as N1. destruct (read (snd x)) as [v| |]; try congruence; cbn [obind]; [|split; discriminate].
  destruct (emplace_defined (during live r) m (key_from Owns r n) v (during_all _ _ _ U)) as [m1 E]. rewrite E. split; [discriminate|].
  intros m' [= <-]. unfold emplace in E. destruct (find_extra _ _ _ _) as [[i|]| |]; try discriminate; injection E as <-; [exact U|].
  apply Forall_app. split; [exact U|]. constructor; [exact I|constructor].
Qed.

Lemma each_owned reserved read live : (forall d, read d <> UB) -> forall ms r m, Forall (fun e => usable live (fst e)) m ->
  each (read_extra probe Owns reserved read live) r ms m <> UB.
Proof.
  intros NU. induction ms as [|x ms IH]; intros r m U; cbn [each]; [discriminate|].
  destruct (owned_step reserved read live r x m U NU) as [H1 H2].
  destruct (read_extra probe Owns reserved read live r x m) as [m1| |] eqn:E; cbn [obind]; try congruence.
  apply IH. now apply H2.
Qed.

Lemma each_said reserved read live : finds probe -> forall ms acc out, said reserved read ms acc out ->
  forall r m, Forall (fun e => usable live (fst e)) m -> texts m = acc ->
  exists m', each (read_extra probe Owns reserved read live) r ms m = Ok m' /\ texts m' = out.
Proof.
  intros F ms acc out H. induction H as [acc | n d ms acc out I H IH | n d v ms acc out NI Rd I H IH | n d v ms acc out NI Rd I H IH];
    intros r m U T.
  - eexists. split; [reflexivity|exact T].
  - cbn [each]. unfold read_extra at 1. cbn [fst snd]. apply reserved_iff in I. rewrite I. cbn [obind]. now apply IH.
  - cbn [each]. unfold read_extra at 1. cbn [fst snd]. apply reserved_not in NI. rewrite NI, Rd. cbn [obind].
    destruct (emplace_defined (during live r) m (key_from Owns r n) v (during_all _ _ _ U)) as [m1 E]. rewrite E. cbn [obind].
    apply emplace_ok in E; [|exact F]. rewrite chars_key_from, <- keys_texts, T in E. destruct E as [[_ ->]|[X _]]; [|contradiction].
    now apply IH.
  - cbn [each]. unfold read_extra at 1. cbn [fst snd]. apply reserved_not in NI. rewrite NI, Rd. cbn [obind].
    destruct (emplace_defined (during live r) m (key_from Owns r n) v (during_all _ _ _ U)) as [m1 E]. rewrite E. cbn [obind].
    apply emplace_ok in E; [|exact F]. rewrite chars_key_from, <- keys_texts, T in E. destruct E as [[X _]|[_ ->]]; [contradiction|].
    apply IH; [|rewrite texts_app, chars_key_from; now rewrite T].
    apply Forall_app. split; [exact U|]. constructor; [exact Logic.I|constructor].
Qed.

Lemma owned_reads reserved read live base ms old : finds probe -> (forall d, read d <> UB) ->
  deserialize_extras probe Owns reserved read live base ms old <> UB /\
  (forall m, deserialize_extras probe Owns reserved read live base ms old = Ok m ->
     said reserved read ms [] (texts m) /\ forall later, Forall (fun e => usable later (fst e)) m) /\
  (forall out, said reserved read ms [] out ->
     exists m, deserialize_extras probe Owns reserved read live base ms old = Ok m /\ texts m = out).
Proof.
  intros F NU. unfold deserialize_extras. split; [apply each_owned; [exact NU|constructor]|]. split.
  - intros m H. apply each_read in H as (S1 & rest & E & R); [|exact F]. split; [exact S1|]. intros later. subst m. cbn.
    eapply Forall_impl; [|exact R]. intros [k v] (r & _ & X). cbn in *. rewrite X. exact Logic.I.
  - intros out H. eapply each_said; [exact F|exact H|constructor|reflexivity].
Qed.

Lemma viewed_reads reserved read live base ms old m : finds probe -> (forall r, base <= r -> live r = false) ->
  deserialize_extras probe Views reserved read live base ms old = Ok m ->
  said reserved read ms [] (texts m) /\ Forall (fun e => ~ usable live (fst e)) m.
Proof.
  intros F Dead H. apply each_read in H as (S1 & rest & E & R); [|exact F]. split; [exact S1|]. subst m. cbn.
  eapply Forall_impl; [|exact R]. intros [k v] (r & L & X). cbn in *. rewrite X. cbn. rewrite (Dead r L). discriminate.
Qed.

(** *** A second key is compared with the first *)

Lemma second_key reserved read live r0 t v0 : ordered probe -> live r0 = false -> forall ms r, r0 < r ->
  (each (read_extra probe Views reserved read live) r ms [(mkkey (At r0) t, v0)] = UB <->
   exists b n d c, ms = b ++ (Some n, d) :: c /\ only_reserved reserved b /\ ~ In n reserved /\
     ((exists v, read d = Ok v) \/ read d = UB)).
Proof.
  intros O L0. induction ms as [|[name d] ms IH]; intros r Hr; cbn [each].
  - split; [discriminate|]. intros ([|x b] & n & d & c & E & _); discriminate.
  - unfold read_extra at 1. cbn [fst snd]. destruct name as [n|].
    2:{ cbn [obind]. split; [discriminate|]. intros ([|x b] & n & d' & c & E & Rb & _); cbn in E; [discriminate|].
        injection E as <- E. inversion Rb as [|? ? (k & K & _) _]; subst. discriminate. }
    destruct (existsb (same n) reserved) eqn:Er.
    + cbn [obind]. rewrite (IH (S r) ltac:(lia)). apply reserved_iff in Er. split.
      * intros (b & n' & d' & c & -> & Rb & NI & X). exists ((Some n, d) :: b), n', d', c. split; [reflexivity|].
        split; [constructor; [cbn; eauto|exact Rb]|]. now split.
      * intros ([|x b] & n' & d' & c & E & Rb & NI & X); cbn in E.
        -- injection E as E1 E2 E3. subst. contradiction.
        -- injection E as _ ->. inversion Rb; subst. exists b, n', d', c. split; [reflexivity|]. split; [assumption|]. now split.
    + apply reserved_not in Er.
      assert (B : (exists b n' d' c, (Some n, d) :: ms = b ++ (Some n', d') :: c /\ only_reserved reserved b /\ ~ In n' reserved /\
          ((exists v, read d' = Ok v) \/ read d' = UB)) <-> ((exists v, read d = Ok v) \/ read d = UB)).
      { split.
        - intros ([|x b] & n' & d' & c & E & Rb & NI & X); cbn in E.
          + injection E as E1 E2 E3. subst. exact X.
          + injection E as <- E. inversion Rb as [|? ? (k & K & I) _]; subst. cbn in K. injection K as <-. contradiction.
        - intros X. exists [], n, d, ms. split; [reflexivity|]. split; [constructor|]. now split. }
      rewrite B. clear B. destruct (read d) as [v| |]; cbn [obind].
      * split; [intros _; left; eauto|]. intros _.
        assert (E : emplace probe (during live r) [(mkkey (At r0) t, v0)] (key_from Views r n) v = UB); [|now rewrite E].
        unfold emplace, find_extra. cbn [map fst chars].
        destruct (O [t] (chars (key_from Views r n)) ltac:(discriminate)) as (i & Li & Hi). cbn in Li. assert (i = 0) as -> by lia.
        assert (Ef : forallb (fun i => match nth_error [(mkkey (At r0) t, v0)] i with
                                   | Some e => readable (during live r) (fst e) | None => true end) (probe [t] (chars (key_from Views r n))) = false).
        { apply not_true_iff_false. intros H. rewrite forallb_forall in H. specialize (H 0 Hi). cbn in H. unfold during in H.
          rewrite L0 in H. cbn in H. apply Nat.eqb_eq in H. lia. }
        rewrite Ef. reflexivity.
      * split; [discriminate|]. intros [[v H]|H]; discriminate.
      * split; auto.
Qed.

Lemma viewed_undefined reserved read live base ms old : ordered probe -> (forall d, read d <> UB) ->
  (forall r, base <= r -> live r = false) ->
  (deserialize_extras probe Views reserved read live base ms old = UB <->
   exists a n1 d1 v1 b n2 d2 v2 c, ms = a ++ (Some n1, d1) :: b ++ (Some n2, d2) :: c /\
     only_reserved reserved a /\ ~ In n1 reserved /\ read d1 = Ok v1 /\
     only_reserved reserved b /\ ~ In n2 reserved /\ read d2 = Ok v2).
Proof.
  intros O NU. unfold deserialize_extras. revert base. induction ms as [|[name d] ms IH]; intros base Dead; cbn [each].
  - split; [discriminate|]. intros ([|x a] & n1 & d1 & v1 & b & n2 & d2 & v2 & c & E & _); discriminate.
  - unfold read_extra at 1. cbn [fst snd]. destruct name as [n|].
    2:{ cbn [obind]. split; [discriminate|]. intros ([|x a] & n1 & d1 & v1 & b & n2 & d2 & v2 & c & E & Ra & _); cbn in E; [discriminate|].
        injection E as <- E. inversion Ra as [|? ? (k & K & _) _]; subst. discriminate. }
    destruct (existsb (same n) reserved) eqn:Er.
    + cbn [obind]. rewrite (IH (S base)); [|intros r Hr; apply Dead; lia]. apply reserved_iff in Er. split.
      * intros (a & n1 & d1 & v1 & b & n2 & d2 & v2 & c & -> & Ra & H).
        exists ((Some n, d) :: a), n1, d1, v1, b, n2, d2, v2, c. split; [reflexivity|]. split; [constructor; [cbn; eauto|exact Ra]|exact H].
      * intros ([|x a] & n1 & d1 & v1 & b & n2 & d2 & v2 & c & E & Ra & N1 & H); cbn in E.
        -- injection E as E1 E2 E3. subst. contradiction.
        -- injection E as _ ->. inversion Ra; subst. exists a, n1, d1, v1, b, n2, d2, v2, c. split; [reflexivity|]. split; [assumption|]. now split.
    + apply reserved_not in Er. pose proof (NU d) as NUd. destruct (read d) as [v| |] eqn:Ed; try congruence; cbn [obind].
      * assert (E : emplace probe (during live base) [] (key_from Views base n) v = Ok [(mkkey (At base) n, v)]).
        { unfold emplace, find_extra. cbn [map].
          assert (Ef : forall l, forallb (fun i => match nth_error (@nil (key * V)) i with
                      | Some e => readable (during live base) (fst e) | None => true end) l = true).
          { intros l. apply forallb_forall. intros i _. destruct i; reflexivity. }
          rewrite Ef.
          assert (Eg : forall l, find (fun i => match nth_error (@nil (key * V)) i with
                      | Some e => same (chars (fst e)) (chars (key_from Views base n)) | None => false end) l = None).
          { induction l as [|i l IHl]; [reflexivity|]. cbn [find]. destruct i; cbn [nth_error]; exact IHl. }
          rewrite Eg. reflexivity. }
        rewrite E. cbn [obind]. rewrite (second_key reserved read live base n v O (Dead base (le_n _)) ms (S base) (Nat.lt_succ_diag_r _)). split.
        -- intros (b & n2 & d2 & c & -> & Rb & N2 & [[v2 X]|X]); [|exfalso; exact (NU _ X)].
           exists [], n, d, v, b, n2, d2, v2, c. split; [reflexivity|]. split; [constructor|]. repeat split; assumption.
        -- intros ([|x a] & n1 & d1 & v1 & b & n2 & d2 & v2 & c & E1 & Ra & N1 & R1 & Rb & N2 & R2); cbn in E1.
           ++ injection E1 as E1 E2 E3. exists b, n2, d2, c. split; [exact E3|]. split; [exact Rb|]. split; [exact N2|]. left. eauto.
           ++ injection E1 as <- E1. inversion Ra as [|? ? (k & K & I) _]; subst. cbn in K. injection K as <-. contradiction.
      * split; [discriminate|].
        intros ([|x a] & n1 & d1 & v1 & b & n2 & d2 & v2 & c & E1 & Ra & N1 & R1 & _); cbn in E1.
        -- injection E1 as E1 E2 E3. congruence.
        -- injection E1 as <- E1. inversion Ra as [|? ? (k & K & I) _]; subst. cbn in K. injection K as <-. contradiction.
Qed.

(** ** Patching *)

Lemma upd_split {A} (l : list A) : forall i (x y : A), nth_error l i = Some x -> exists a b, l = a ++ x :: b /\ upd l i y = a ++ y :: b /\ length a = i.
Proof.
  induction l as [|h l IH]; intros [|i] x y E; try discriminate; cbn in E |- *.
  - injection E as ->. exists [], l. repeat split.
  - destruct (IH i x y E) as (a & b & -> & -> & <-). exists (h :: a), b. repeat split.
Qed.

Lemma texts_mid (a : list (key * V)) k v b : texts (a ++ (k, v) :: b) = texts a ++ (chars k, v) :: texts b.
Proof. unfold texts. now rewrite map_app. Qed.

Lemma each_patch kind reserved patch fresh live : finds probe -> forall ms r m m',
  each (patch_extra probe kind reserved patch fresh live) r ms m = Ok m' ->
  patched reserved patch fresh ms (texts m) (texts m') /\
  exists rest, map fst m' = map fst m ++ rest /\ Forall (fun k => exists r', r <= r' /\ k = key_from kind r' (chars k)) rest /\
    (rest = [] <-> Forall (fun x => exists n, fst x = Some n /\ (In n reserved \/ In n (keys m))) ms).
Proof.
  intros F. induction ms as [|[name d] ms IH]; intros r m m' H; cbn [each] in H.
  - injection H as <-. split; [constructor|]. exists []. rewrite app_nil_r. split; [reflexivity|]. split; [constructor|]. split; auto.
  - destruct (patch_extra probe kind reserved patch fresh live r (name, d) m) as [m1| |] eqn:E; try discriminate. cbn [obind] in H.
    apply IH in H as (S1 & rest & Eq & R & Em).
    assert (R' : Forall (fun k => exists r', r <= r' /\ k = key_from kind r' (chars k)) rest).
    { eapply Forall_impl; [|exact R]. cbn. intros e (r' & L & X). exists r'. split; [lia|exact X]. }
    unfold patch_extra in E. cbn [fst snd] in E. destruct name as [n|]; [|discriminate].
    destruct (existsb (same n) reserved) eqn:Er.
    + injection E as <-. apply reserved_iff in Er. split; [now apply patched_reserved|]. exists rest. split; [exact Eq|]. split; [exact R'|].
      rewrite Em. split; [intros X; constructor; [cbn; eauto|exact X] | intros X; now inversion X].
    + apply reserved_not in Er. destruct (find_extra probe (during live r) m n) as [o| |] eqn:Ef; try discriminate. cbn [obind] in E.
      apply find_extra_ok in Ef; [|exact F]. destruct o as [i|].
      * destruct Ef as ([k v] & N & X). rewrite N in E. cbn [fst] in X. destruct (patch d v) as [v'| |] eqn:Ep; try discriminate.
        cbn [obind] in E. injection E as <-. destruct (upd_split m i _ (k, v') N) as (a & b & -> & Eu & _). rewrite Eu in *. clear Eu.
        rewrite texts_mid in S1 |- *. rewrite X in S1 |- *. split; [eapply patched_there; eauto|].
        exists rest. rewrite !map_app in *. cbn [map fst] in *. split; [exact Eq|]. split; [exact R'|]. rewrite Em. split.
        -- intros Y. constructor; [|exact Y]. cbn. exists n. split; [reflexivity|]. right. apply in_or_app. right. now left.
        -- intros Y. now inversion Y.
      * destruct (patch d fresh) as [v| |] eqn:Ep; try discriminate. cbn [obind] in E.
        apply emplace_ok in E; [|exact F]. rewrite chars_key_from in E. destruct E as [[I _]|[_ ->]]; [contradiction|].
        rewrite texts_app, chars_key_from in S1. rewrite <- keys_texts in Ef.
        split; [eapply patched_new; eauto|]. exists (key_from kind r n :: rest).
        split; [rewrite Eq, map_app, <- app_assoc; reflexivity|]. split.
        -- constructor; [|exact R']. exists r. now rewrite chars_key_from.
        -- split; [discriminate|]. intros Y. inversion Y as [|? ? (n' & K & I) _]; subst. cbn in K. injection K as <-.
           rewrite <- keys_texts in I. destruct I; contradiction.
Qed.

Lemma patch_step reserved patch fresh live r x m : finds probe -> Forall (fun e => usable live (fst e)) m -> (forall d v, patch d v <> UB) ->
  patch_extra probe Owns reserved patch fresh live r x m <> UB /\
  (forall m', patch_extra probe Owns reserved patch fresh live r x m = Ok m' -> Forall (fun e => usable live (fst e)) m').
Proof.
  intros F U NU. unfold patch_extra. destruct (fst x) as [n|]; [|split; discriminate].
  destruct (existsb (same n) reserved); [split; [discriminate|]; intros m' [= <-]; exact U|].
  destruct (find_extra_defined (during live r) m n (during_all _ _ _ U)) as [o Eo]. rewrite Eo. cbn [obind].
  apply find_extra_ok in Eo; [|exact F]. destruct o as [i|].
  - destruct Eo as ([k v] & N & _). rewrite N. pose proof (NU (snd x) v) as N1. destruct (patch (snd x) v) as [v'| |]; try congruence; cbn [obind];
      [|split; discriminate]. split; [discriminate|]. intros m' [= <-].
    destruct (upd_split m i _ (k, v') N) as (a & b & -> & -> & _). apply Forall_app in U as [U1 U2]. apply Forall_app. split; [exact U1|].
    inversion U2; subst. now constructor.
  - pose proof (NU (snd x) fresh) as N1. destruct (patch (snd x) fresh) as [v| |]; try congruence; cbn [obind]; [|split; discriminate].
    destruct (emplace_defined (during live r) m (key_from Owns r n) v (during_all _ _ _ U)) as [m1 E]. rewrite E. split; [discriminate|].
    intros m' [= <-]. unfold emplace in E. destruct (find_extra _ _ _ _) as [[i|]| |]; try discriminate; injection E as <-; [exact U|].
    apply Forall_app. split; [exact U|]. constructor; [exact I|constructor].
Qed.

Lemma owned_patches reserved patch fresh live base ms m : finds probe -> (forall d v, patch d v <> UB) ->
  Forall (fun e => usable live (fst e)) m ->
  patch_extras probe Owns reserved patch fresh live base ms m <> UB /\
  (forall m', patch_extras probe Owns reserved patch fresh live base ms m = Ok m' ->
     patched reserved patch fresh ms (texts m) (texts m') /\ Forall (fun e => usable live (fst e)) m').
Proof.
  intros F NU U. unfold patch_extras.
  assert (A : each (patch_extra probe Owns reserved patch fresh live) base ms m <> UB /\
    (forall m', each (patch_extra probe Owns reserved patch fresh live) base ms m = Ok m' -> Forall (fun e => usable live (fst e)) m')).
  { revert base m U. induction ms as [|x ms IH]; intros r m U; cbn [each].
    - split; [discriminate|]. now intros m' [= <-].
    - destruct (patch_step reserved patch fresh live r x m F U NU) as [H1 H2].
      destruct (patch_extra probe Owns reserved patch fresh live r x m) as [m1| |] eqn:E; cbn [obind]; [|split; discriminate|congruence].
      apply IH. now apply H2. }
  destruct A as [A1 A2]. split; [exact A1|]. intros m' H. split; [|now apply A2]. now apply each_patch in H as [H _].
Qed.

Lemma viewed_patches reserved patch fresh live base ms m m' : finds probe -> (forall r, base <= r -> live r = false) ->
  patch_extras probe Views reserved patch fresh live base ms m = Ok m' ->
  patched reserved patch fresh ms (texts m) (texts m') /\
  exists rest, map fst m' = map fst m ++ rest /\ Forall (fun k => ~ usable live k) rest /\
    (rest = [] <-> Forall (fun x => exists n, fst x = Some n /\ (In n reserved \/ In n (map (fun e => chars (fst e)) m))) ms).
Proof.
  intros F Dead H. apply each_patch in H as (S1 & rest & E & R & Em); [|exact F]. split; [exact S1|]. exists rest. split; [exact E|].
  split; [|exact Em]. eapply Forall_impl; [|exact R]. intros k (r & L & X). rewrite X. cbn. rewrite (Dead r L). discriminate.
Qed.
End Extras.
