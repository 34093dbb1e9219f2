(** Reading and patching do exactly what the specification says. *)
From Coq Require Import List NArith ZArith Arith Bool Lia.
From Verif Require Import Base PathModel EnumModel EnumSpec EnumProofs SerialModel SerialSpec SerialLeafProofs SerialBaseProofs
  SerialTypeProofs SerialIntProofs SerialKeyProofs SerialRoundProofs SerialFieldProofs SerialDocSpec SerialDocProofs.
Import ListNotations.
Local Open Scope outcome_scope.

Local Notation str := (list N) (only parsing).

(** The function [f] computes the relation [P] on values of the type [t]. *)
Definition computes (f : json -> val -> dres) (P : json -> val -> val -> option exn -> Prop) (t : ty) : Prop :=
  forall j w v e, typed t w -> (f j w = (v, e) <-> P j w v e).

Lemma checks_iff a v e : validate (a_validators a) v = e <-> checks a v e.
Proof.
  unfold checks, accepted. induction (a_validators a) as [|f l IH]; cbn [validate].
  - split; [intros <-; left; split; [intros ? []|reflexivity]|].
    intros [[_ ->]|(pre & f & post & E & _)]; [reflexivity|now destruct pre].
  - destruct (f v) eqn:E.
    + rewrite IH. split.
      * intros [[H ->]|(pre & g & post & -> & Hp & H)].
        -- left. split; [|reflexivity]. intros g [<- |Hg]; auto.
        -- right. exists (f :: pre), g, post. split; [reflexivity|]. split; [now constructor|exact H].
      * intros [[H ->]|([|g pre] & h & post & El & Hp & H)].
        -- left. split; [|reflexivity]. intros g Hg. apply H. now right.
        -- injection El as -> ->. rewrite E in H. destruct H as [[H _]|[H _]]; discriminate.
        -- injection El as -> ->. inversion Hp; subst. right. exists pre, h, post. auto.
    + split.
      * intros <-. right. exists [], f, l. split; [reflexivity|]. split; [constructor|]. left. auto.
      * intros [[H _]|([|g pre] & h & post & El & Hp & H)].
        -- rewrite (H f (or_introl eq_refl)) in E. discriminate.
        -- injection El as -> ->. rewrite E in H. destruct H as [[_ ->]|[H _]]; [reflexivity|discriminate].
        -- injection El as -> ->. inversion Hp; subst. congruence.
    + split.
      * intros <-. right. exists [], f, l. split; [reflexivity|]. split; [constructor|]. right. auto.
      * intros [[H _]|([|g pre] & h & post & El & Hp & H)].
        -- rewrite (H f (or_introl eq_refl)) in E. discriminate.
        -- injection El as -> ->. rewrite E in H. destruct H as [[H _]|[_ ->]]; [discriminate|reflexivity].
        -- injection El as -> ->. inversion Hp; subst. congruence.
Qed.

Lemma then_validate_iff a f P t j w v e : computes f P t -> typed t w ->
  (then_validate a (f j w) = (v, e) <-> read_checked a (P j) w v e).
Proof.
  intros Hf Hw. unfold read_checked. rewrite <- !(Hf j w _ _ Hw).
  destruct (f j w) as [x [x'|]]; cbn [then_validate].
  - split; [intros [= -> <-]; left; split; [discriminate|reflexivity]|].
    intros [[_ H]|[H _]]; congruence.
  - split.
    + intros [= -> E]. right. split; [reflexivity|]. now apply checks_iff.
    + intros [[H E]|[E H]]; [congruence|]. injection E as ->. apply checks_iff in H. congruence.
Qed.

(* ------------------------------------------------------------------ *)
(** ** Sequences *)

Lemma seq_loop_iff f P t d : computes f P t -> typed t d -> forall js acc r e,
  (seq_loop f d js acc = (r, e) <-> exists vs, r = acc ++ vs /\ grown (fun j => P j d) js vs e).
Proof.
  intros Hf Hd. induction js as [|j js IH]; intros acc r e; cbn [seq_loop].
  - split.
    + intros [= <- <-]. exists []. split; [now rewrite app_nil_r|]. left. split; [reflexivity|exact I].
    + intros (vs & -> & [[-> H]|(_ & pre & j & post & w & E & _)]); [|now destruct pre].
      destruct vs; [now rewrite app_nil_r|destruct H].
  - pose proof (Hf j d) as Hj. destruct (f j d) as [v [x|]] eqn:E.
    + split.
      * intros [= <- <-]. exists []. split; [now rewrite app_nil_r|]. right. split; [discriminate|].
        exists [], j, js, v. split; [reflexivity|]. split; [exact I|]. now apply Hj.
      * intros (vs & -> & [[-> H]|(He & pre & j' & post & w & E' & Ha & Hp)]).
        -- destruct vs as [|v' vs]; [destruct H|]. destruct H as [H _]. apply Hj in H; [discriminate|exact Hd].
        -- destruct pre as [|j1 pre].
           ++ injection E' as <- <-. destruct vs; [|destruct Ha]. apply Hj in Hp; [|exact Hd]. injection Hp as -> <-. now rewrite app_nil_r.
           ++ injection E' as <- ->. destruct vs as [|v' vs]; [destruct Ha|]. destruct Ha as [Ha _]. apply Hj in Ha; [discriminate|exact Hd].
    + rewrite IH. assert (Hv : forall v', P j d v' None <-> v' = v).
      { intros v'. rewrite <- (Hj v' None Hd). split; [now intros [= ->]|now intros ->]. }
      split.
      * intros (vs & -> & H). exists (v :: vs). split; [now rewrite <- app_assoc|].
        destruct H as [[-> H]|(He & pre & j' & post & w & -> & Ha & Hp)].
        -- left. split; [reflexivity|]. split; [now apply Hv|exact H].
        -- right. split; [exact He|]. exists (j :: pre), j', post, w. split; [reflexivity|]. split; [|exact Hp].
           split; [now apply Hv|exact Ha].
      * intros (vs & -> & H). destruct H as [[-> H]|(He & pre & j' & post & w & E' & Ha & Hp)].
        -- destruct vs as [|v' vs]; [destruct H|]. destruct H as [H H']. apply Hv in H. subst v'. exists vs.
           split; [now rewrite <- app_assoc|]. left. auto.
        -- destruct pre as [|j1 pre]; injection E' as <- ->.
           ++ apply Hj in Hp; [|exact Hd]. injection Hp as _ <-. congruence.
           ++ destruct vs as [|v' vs]; [destruct Ha|]. destruct Ha as [H H']. apply Hv in H. subst v'. exists vs.
              split; [now rewrite <- app_assoc|]. right. split; [exact He|]. exists pre, j', post, w. auto.
Qed.

Lemma padded_skipn js n i : length js <= n -> i < n ->
  skipn i (padded js n) = at_index js i :: skipn (S i) (padded js n).
Proof.
  intros Hl Hi. unfold padded.
  assert (L : length (js ++ repeat JNull (n - length js)) = n) by (rewrite app_length, repeat_length; lia).
  assert (E : nth_error (js ++ repeat JNull (n - length js)) i = Some (at_index js i)).
  { unfold at_index. destruct (Nat.lt_ge_cases i (length js)) as [H|H].
    - rewrite nth_error_app1 by exact H. destruct (nth_error js i) eqn:E; [reflexivity|].
      apply nth_error_None in E. lia.
    - rewrite nth_error_app2 by exact H. rewrite (proj2 (nth_error_None js i) H).
      apply nth_error_repeat. lia. }
  revert E. generalize (at_index js i) as y, (js ++ repeat JNull (n - length js)) as l. clear. intros y l E. revert l E. induction i as [|i IH]; intros [|x l] E; try discriminate; cbn in *; [congruence|now apply IH].
Qed.

Lemma padded_end js n : length js <= n -> skipn n (padded js n) = [].
Proof. intros H. apply skipn_all2. unfold padded. rewrite app_length, repeat_length. lia. Qed.

Lemma arr_loop_iff f P t js n : computes f P t -> length js <= n -> forall ws i r e, i + length ws = n -> all1 (typed t) ws ->
  (arr_loop f js i ws = (r, e) <-> in_turn P (skipn i (padded js n)) ws r e).
Proof.
  intros Hf Hl. induction ws as [|w ws IH]; intros i r e Hi Hw; cbn [arr_loop].
  - cbn in Hi. replace i with n by lia. rewrite (padded_end js n Hl). cbn. destruct r as [|v r].
    + split; [now intros [= <-]|now intros ->].
    + split; [discriminate|intros []].
  - cbn in Hi. rewrite (padded_skipn js n i Hl) by lia. destruct Hw as [Hw Hws]. cbn [in_turn].
    pose proof (Hf (at_index js i) w) as Hj. destruct (f (at_index js i) w) as [v [x|]].
    + destruct r as [|v' r]; [split; [discriminate|intros []]|]. split.
      * intros [= <- <- <-]. right. split; [discriminate|]. split; [now apply Hj|reflexivity].
      * intros [[H _]|(_ & H & ->)]; apply Hj in H; try exact Hw; congruence.
    + specialize (IH (S i)). destruct (arr_loop f js (S i) ws) as [r' e'].
      destruct r as [|v' r]; [split; [discriminate|intros []]|]. split.
      * intros [= <- <- <-]. left. split; [now apply Hj|]. apply IH; [lia|exact Hws|reflexivity].
      * intros [[H H']|(He & H & _)]; apply Hj in H; try exact Hw; [|congruence].
        apply IH in H'; [|lia|exact Hws]. congruence.
Qed.

Lemma tuple_iff (f : ty -> json -> val -> dres) (P : ty -> json -> val -> val -> option exn -> Prop) js n :
  length js <= n -> forall ts, Forall (fun t => computes (f t) (P t) t) ts -> forall i ws r e, i + length ts = n -> all2 typed ts ws ->
  (deser_tuple f js ts i ws = (r, e) <-> tuple_turn P ts (skipn i (padded js n)) ws r e).
Proof.
  intros Hl. induction ts as [|t ts IH]; intros HC i [|w ws] r e Hi Hw; cbn in Hw; try contradiction; cbn [deser_tuple].
  - cbn in Hi. replace i with n by lia. rewrite (padded_end js n Hl). cbn. destruct r as [|v r].
    + split; [now intros [= <-]|now intros ->].
    + split; [discriminate|intros []].
  - cbn in Hi. rewrite (padded_skipn js n i Hl) by lia. destruct Hw as [Hw Hws]. cbn [tuple_turn].
    inversion HC as [|? ? HC1 HCr]; subst.
    pose proof (HC1 (at_index js i) w) as Hj. destruct (f t (at_index js i) w) as [v [x|]].
    + destruct r as [|v' r]; [split; [discriminate|intros []]|]. split.
      * intros [= <- <- <-]. right. split; [discriminate|]. split; [now apply Hj|reflexivity].
      * intros [[H _]|(_ & H & ->)]; apply Hj in H; try exact Hw; congruence.
    + specialize (IH HCr (S i) ws). destruct (deser_tuple f js ts (S i) ws) as [r' e'].
      destruct r as [|v' r]; [split; [discriminate|intros []]|]. split.
      * intros [= <- <- <-]. left. split; [now apply Hj|]. apply IH; [lia|exact Hws|reflexivity].
      * intros [[H H']|(He & H & _)]; apply Hj in H; try exact Hw; [|congruence].
        apply IH in H'; [|lia|exact Hws]. congruence.
Qed.

(* ------------------------------------------------------------------ *)
(** ** Maps *)

Lemma sorted_in_find m : sorted_keys m -> forall k v, In (k, v) m <-> map_find k m = Some v.
Proof.
  intros Hs k v. split; [apply map_find_nodup, sorted_keys_nodup, Hs|apply map_find_in].
Qed.

(** Maps with the same elements are the same. *)
Lemma sorted_ext m : forall m', sorted_keys m -> sorted_keys m' -> (forall k v, In (k, v) m <-> In (k, v) m') -> m = m'.
Proof.
  induction m as [|[k v] m IH]; intros [|[k' v'] m'] Hs Hs' H.
  - reflexivity.
  - destruct (proj2 (H k' v') (or_introl eq_refl)).
  - destruct (proj1 (H k v) (or_introl eq_refl)).
  - destruct Hs as [H1 Hs]. destruct Hs' as [H1' Hs'].
    assert (E : k = k' /\ v = v').
    { destruct (proj1 (H k v) (or_introl eq_refl)) as [E|E]; [injection E as -> ->; auto|].
      destruct (proj2 (H k' v') (or_introl eq_refl)) as [E'|E']; [injection E' as -> ->; auto|].
      apply (in_map fst) in E, E'. cbn in E, E'. pose proof (H1 _ E') as L. pose proof (H1' _ E) as L'.
      pose proof (str_ltb_trans _ _ _ L L') as L2. rewrite str_ltb_irrefl in L2. discriminate. }
    destruct E as [<- <-]. f_equal. apply IH; [exact Hs|exact Hs'|]. intros a b. specialize (H a b). cbn in H.
    assert (N : forall l, (forall k', In k' (map fst l) -> str_ltb k k' = true) -> In (a, b) l -> a <> k).
    { intros l Hl Hin ->. apply (in_map fst) in Hin. apply Hl in Hin. cbn in Hin. rewrite str_ltb_irrefl in Hin. discriminate. }
    split; intros Hin.
    + pose proof (N m H1 Hin). destruct (proj1 H (or_intror Hin)) as [E|E]; [congruence|exact E].
    + pose proof (N m' H1' Hin). destruct (proj2 H (or_intror Hin)) as [E|E]; [congruence|exact E].
Qed.

(** What [map_loop] has collected after the members [good]. *)
Definition collected (P : json -> val -> option exn -> Prop) (acc : list (str * val)) (good : list (str * json))
  (m : list (str * val)) : Prop :=
  sorted_keys m /\ forall k v, In (k, v) m <-> In (k, v) acc \/ (~ In k (map fst acc) /\ exists j, first_member good k j /\ P j v None).

Lemma collected_cons (P : json -> val -> option exn -> Prop) acc k j v good m : sorted_keys acc ->
  (forall v', P j v' None <-> v' = v) ->
  (collected P (map_emplace k v acc) good m <-> collected P acc ((k, j) :: good) m).
Proof.
  intros Hs HP. unfold collected. enough (H : forall k' v',
    (In (k', v') (map_emplace k v acc) \/ ~ In k' (map fst (map_emplace k v acc)) /\ (exists j0, first_member good k' j0 /\ P j0 v' None)) <->
    (In (k', v') acc \/ ~ In k' (map fst acc) /\ (exists j0, first_member ((k, j) :: good) k' j0 /\ P j0 v' None))).
  { split; intros [H1 H2]; (split; [exact H1|]); intros k' v'; rewrite H2, H; reflexivity. }
  intros k' v'. pose proof (map_emplace_sorted k v acc Hs) as Hs'.
  rewrite (sorted_in_find _ Hs'), (sorted_in_find _ Hs).
  assert (Hn : forall l, ~ In k' (map fst l) <-> map_find k' l = None) by (intros l; now rewrite map_find_none).
  rewrite !Hn, map_emplace_find.
  assert (Hf : forall j0, first_member ((k, j) :: good) k' j0 <-> if str_eqb k k' then j0 = j else first_member good k' j0).
  { intros j0. rewrite <- find_member_first. cbn [find_member]. destruct (str_eqb k k'); [split; congruence|]. apply find_member_first. }
  destruct (map_find k' acc) as [u|] eqn:E.
  - split; (intros [H|[H _]]; [now left|try discriminate]).
  - destruct (str_eqb k k') eqn:Ek.
    + split.
      * intros [[= <-]|[H _]]; [|discriminate]. right. split; [reflexivity|]. exists j. split; [now apply Hf|now apply HP].
      * intros [H|(_ & j0 & H1 & H2)]; [discriminate|]. apply Hf in H1. subst j0. apply HP in H2. subst. now left.
    + split.
      * intros [H|(H & j0 & H1 & H2)]; [discriminate|]. right. split; [reflexivity|]. exists j0. split; [now apply Hf|exact H2].
      * intros [H|(H & j0 & H1 & H2)]; [discriminate|]. right. split; [reflexivity|]. exists j0. split; [now apply Hf|exact H2].
Qed.

Lemma map_loop_iff f P t d : computes f P t -> typed t d -> forall ms acc m e, sorted_keys acc ->
  (map_loop f d ms acc = (m, e) <->
   exists good, (forall k j, In (k, j) good -> exists v, P j d v None) /\ collected (fun j => P j d) acc good m /\
     ((e = None /\ ms = good) \/ (e <> None /\ exists k j post w, ms = good ++ (k, j) :: post /\ P j d w e))).
Proof.
  intros Hf Hd. induction ms as [|[k j] ms IH]; intros acc m e Hs; cbn [map_loop].
  - assert (C0 : forall m', collected (fun j => P j d) acc [] m' <-> m' = acc).
    { intros m'. split.
      - intros [H1 H2]. apply sorted_ext; [exact H1|exact Hs|]. intros k v. rewrite H2. split; [|now left].
        intros [H|(_ & j & (p & q & E & _) & _)]; [exact H|now destruct p].
      - intros ->. split; [exact Hs|]. intros k v. split; [now left|].
        intros [H|(_ & j & (p & q & E & _) & _)]; [exact H|now destruct p]. }
    split.
    + intros [= <- <-]. exists []. split; [intros ? ? []|]. split; [now apply C0|left; auto].
    + intros (good & _ & Hc & [[-> <-]|(_ & k & j & post & w & E & _)]); [|now destruct good].
      apply C0 in Hc. now subst.
  - pose proof (Hf j d) as Hj. destruct (f j d) as [v [x|]] eqn:E.
    + split.
      * intros [= <- <-]. exists []. split; [intros ? ? []|]. split.
        -- split; [exact Hs|]. intros k' v'. split; [now left|].
           intros [H|(_ & j0 & (p & q & E0 & _) & _)]; [exact H|now destruct p].
        -- right. split; [discriminate|]. exists k, j, ms, v. split; [reflexivity|now apply Hj].
      * intros (good & Hg & Hc & H). destruct good as [|[k1 j1] good].
        -- destruct H as [[_ H]|(He & k' & j' & post & w & E' & Hp)]; [discriminate|]. injection E' as <- <- <-.
           apply Hj in Hp; [|exact Hd]. injection Hp as <- <-. f_equal.
           apply sorted_ext; [exact Hs|exact (proj1 Hc)|]. intros k' v'. rewrite (proj2 Hc k' v'). split; [now left|].
           intros [H|(_ & j0 & (p & q & E0 & _) & _)]; [exact H|now destruct p].
        -- exfalso. assert (Ej : j1 = j) by (destruct H as [[_ H]|(He & k' & j' & post & w & E' & Hp)]; [|cbn in E']; congruence). subst j1.
           destruct (Hg k1 j (or_introl eq_refl)) as (v' & H'). apply Hj in H'; [discriminate|exact Hd].
    + assert (Hv : forall v', P j d v' None <-> v' = v).
      { intros v'. rewrite <- (Hj v' None Hd). split; [now intros [= ->]|now intros ->]. }
      rewrite (IH (map_emplace k v acc) m e (map_emplace_sorted k v acc Hs)). split.
      * intros (good & Hg & Hc & H). exists ((k, j) :: good). split; [|split].
        -- intros k' j' [[= <- <-]|Hin]; [exists v; now apply Hv|eauto].
        -- now apply (collected_cons (fun j => P j d) acc k j v good m Hs Hv).
        -- destruct H as [[-> ->]|(He & k' & j' & post & w & -> & Hp)]; [left; auto|].
           right. split; [exact He|]. exists k', j', post, w. auto.
      * intros (good & Hg & Hc & H). destruct good as [|[k1 j1] good].
        -- exfalso. destruct H as [[_ H]|(He & k' & j' & post & w & E' & Hp)]; [discriminate|]. injection E' as <- <- <-.
           apply Hj in Hp; [|exact Hd]. congruence.
        -- assert (E1 : k1 = k /\ j1 = j /\ ((e = None /\ ms = good) \/
             (e <> None /\ exists k j post w, ms = good ++ (k, j) :: post /\ P j d w e))).
           { destruct H as [[-> H]|(He & k' & j' & post & w & E' & Hp)].
             - injection H as <- <- ->. auto.
             - injection E' as <- <- ->. split; [reflexivity|]. split; [reflexivity|]. right. split; [exact He|].
               exists k', j', post, w. auto. }
           destruct E1 as (-> & -> & H'). exists good. split; [|split; [|exact H']].
           ++ intros k' j' Hin. apply (Hg k' j'). now right.
           ++ now apply (collected_cons (fun j => P j d) acc k j v good m Hs Hv).
Qed.

Lemma map_read_iff f P t d ms m e : computes f P t -> typed t d ->
  (map_loop f d ms [] = (m, e) <-> gathered (fun j => P j d) ms m e).
Proof.
  intros Hf Hd. rewrite (map_loop_iff f P t d Hf Hd ms [] m e I). unfold gathered, collected. split.
  - intros (good & Hg & [Hs Hc] & H). split; [exact Hs|]. exists good. split; [exact Hg|]. split; [|exact H].
    intros k v. rewrite Hc. cbn. tauto.
  - intros (Hs & good & Hg & Hc & H). exists good. split; [exact Hg|]. split; [|exact H]. split; [exact Hs|].
    intros k v. rewrite Hc. cbn. tauto.
Qed.

Lemma unreserved_iff names ms ms' : unreserved_members names ms ms' <-> ms' = filter (unreserved names) ms.
Proof.
  unfold unreserved_members. apply picks_filter. intros m _. unfold unreserved.
  rewrite <- in_set_false. now destruct (in_set (fst m) names).
Qed.

Lemma extra_read_iff f P t d names ms m e : computes f P t -> typed t d ->
  (extra_loop f d names ms [] = (m, e) <->
   exists ms', unreserved_members names ms ms' /\ gathered (fun j => P j d) ms' m e).
Proof.
  intros Hf Hd. rewrite extra_loop_filter, (map_read_iff f P t d _ m e Hf Hd). split.
  - intros H. exists (filter (unreserved names) ms). split; [now apply unreserved_iff|exact H].
  - intros (ms' & H & H'). apply unreserved_iff in H. now subst.
Qed.

(* ------------------------------------------------------------------ *)
(** ** Enum sets *)

Lemma union_unique t xs z z' : 1 <= ibits t -> union t xs z -> union t xs z' -> z = z'.
Proof.
  intros Hb [Hz H] [Hz' H']. apply (eq_by_bits t); [exact Hb|exact Hz|exact Hz'|].
  intros i Hi. apply eq_true_iff_eq. exact (iff_trans (H i Hi) (iff_sym (H' i Hi))).
Qed.

Lemma set_loop_iff en js : enum_ok en -> forall acc z e, of_type (e_ity en) acc ->
  (set_loop en js acc = (z, e) <->
   exists good xs, all2 (fun j x => exists s, j = JStr s /\ enumerator en s x) good xs /\
     z = fold_left (es_or (e_ity en)) xs acc /\
     ((e = None /\ js = good) \/
      (e = Some EDeser /\ exists j post, js = good ++ j :: post /\ forall s x, j = JStr s -> ~ enumerator en s x))).
Proof.
  intros He. induction js as [|j js IH]; intros acc z e Ha; cbn [set_loop].
  - split.
    + intros [= <- <-]. exists [], []. split; [exact I|]. split; [reflexivity|]. left. auto.
    + intros (good & xs & H1 & -> & [[-> <-]|(_ & j & post & E & _)]); [|now destruct good].
      destruct xs; [reflexivity|destruct H1].
  - set (G := forall s x, j = JStr s -> ~ enumerator en s x).
    assert (D : (exists s x, j = JStr s /\ from_string (e_tab en) s = Some x) \/ G).
    { destruct j as [|b|z1|b|s|l|l]; try (right; intros s' x E; discriminate).
      destruct (from_string (e_tab en) s) as [x|] eqn:E; [left; eauto|].
      right. intros s' x [= <-] H. apply enumerator_iff in H. congruence. }
    destruct D as [(s & x & -> & Hx)|D].
    + rewrite Hx. assert (Hxt : of_type (e_ity en) x) by (eapply from_string_typed; eassumption).
      pose proof He as (Hty & _). pose proof (bits_pos _ Hty) as Hb.
      rewrite IH by (apply wrap_range, Hb). split.
      * intros (good & xs & H1 & -> & H). exists (JStr s :: good), (x :: xs). split.
        { split; [exists s; split; [reflexivity|now apply enumerator_iff]|exact H1]. }
        split; [reflexivity|]. destruct H as [[-> ->]|(-> & j & post & -> & Hn)]; [left; auto|].
        right. split; [reflexivity|]. exists j, post. auto.
      * intros (good & xs & H1 & -> & H). destruct good as [|j1 good].
        { exfalso. destruct H as [[_ H]|(_ & j & post & E & Hn)]; [discriminate|]. injection E as <- <-.
          apply (Hn s x eq_refl). now apply enumerator_iff. }
        destruct xs as [|x1 xs]; [destruct H1|]. destruct H1 as [(s1 & -> & Hs1) H1].
        assert (E1 : JStr s1 = JStr s /\ ((e = None /\ js = good) \/
            (e = Some EDeser /\ exists j post, js = good ++ j :: post /\ forall s x, j = JStr s -> ~ enumerator en s x))).
        { destruct H as [[-> H]|(-> & j & post & E & Hn)]; [injection H as <- ->; auto|].
          injection E as <- ->. split; [reflexivity|]. right. split; [reflexivity|]. exists j, post. auto. }
        destruct E1 as [[= ->] H']. apply enumerator_iff in Hs1. assert (x1 = x) by congruence. subst x1.
        exists good, xs. auto.
    + assert (E : match j with
                  | JStr s => match from_string (e_tab en) s with
                              | Some x => set_loop en js (es_or (e_ity en) acc x) | None => (acc, Some EDeser) end
                  | _ => (acc, Some EDeser) end = (acc, Some EDeser)).
      { destruct j as [|b|z1|b|s|l|l]; try reflexivity. destruct (from_string (e_tab en) s) as [x|] eqn:E; [|reflexivity].
        exfalso. apply (D s x eq_refl). now apply enumerator_iff. }
      rewrite E. split.
      * intros [= <- <-]. exists [], []. split; [exact I|]. split; [reflexivity|]. right. split; [reflexivity|]. exists j, js. auto.
      * intros (good & xs & H1 & -> & H). destruct good as [|j1 good].
        { destruct xs; [|destruct H1]. destruct H as [[_ H]|(-> & _)]; [discriminate|reflexivity]. }
        exfalso. assert (j1 = j) by (destruct H as [[_ H]|(_ & j' & post & E' & Hn)]; [|cbn in E']; congruence). subst j1.
        destruct xs as [|x1 xs]; [destruct H1|]. destruct H1 as [(s1 & -> & Hs1) H1]. exact (D s1 x1 eq_refl Hs1).
Qed.

Lemma set_read_iff en js z e : enum_ok en ->
  (set_loop en js es_empty = (z, e) <-> set_read en js (VInt z) e).
Proof.
  intros He. pose proof He as (Hty & _). pose proof (bits_pos _ Hty) as Hb.
  pose proof (zero_of_type _ Hb) as H0. rewrite (set_loop_iff en js He es_empty z e H0).
  assert (U : forall xs, union (e_ity en) xs (fold_left (es_or (e_ity en)) xs es_empty)).
  { intros xs. split; [apply fold_or_type; assumption|]. intros i Hi. unfold flag.
    rewrite (fold_or_bits (e_ity en) xs es_empty i Hi). unfold es_empty. rewrite Z.bits_0. split; [intros [H|H]; [discriminate|exact H]|now right]. }
  unfold set_read. split.
  - intros (good & xs & H1 & -> & H). exists good, xs, (fold_left (es_or (e_ity en)) xs es_empty).
    split; [reflexivity|]. split; [exact H1|]. split; [apply U|exact H].
  - intros (good & xs & z' & [= <-] & H1 & Hu & H). exists good, xs. split; [exact H1|]. split; [|exact H].
    exact (union_unique _ _ _ _ Hb Hu (U xs)).
Qed.

(* ------------------------------------------------------------------ *)
(** ** Fields *)

Lemma present_iff a (f : json -> val -> dres) P t j w v e : computes f P t -> typed t w ->
  (match is_null j, a_default a with true, Some d => (d, None) | _, _ => then_validate a (f j w) end = (v, e) <->
   match j, a_default a with JNull, Some d => v = d /\ e = None | _, _ => read_checked a (P j) w v e end).
Proof.
  intros Hf Hw. pose proof (then_validate_iff a f P t j w v e Hf Hw) as H.
  destruct j; cbn [is_null]; try exact H. destruct (a_default a) as [d|]; [|exact H].
  split; [intros [= <- <-]; auto|now intros [-> ->]].
Qed.

Lemma read_field_iff a f P t ms w v e : computes f P t -> typed t w ->
  (read_field a f ms w = (v, e) <->
   (exists j, first_named ms (wire_names a) j /\
      match j, a_default a with JNull, Some d => v = d /\ e = None | _, _ => read_checked a (P j) w v e end) \/
   (Forall (absent ms) (wire_names a) /\
      match a_default a with
      | Some d => v = d /\ e = None
      | None => if a_allow_missing a then v = w /\ e = None else read_checked a (P JNull) w v e
      end)).
Proof.
  intros Hf Hw. pose proof (resolve_spec ms a) as H. change (lookup_names a) with (wire_names a) in H.
  unfold read_field. destruct (resolve_field_name ms a) as [n|].
  - rewrite (present_iff a f P t _ w v e Hf Hw). split; [intros Hr; left; eauto|].
    intros [(j & Hj & Hr)|[Ha _]]; [|now destruct (first_named_absent _ _ _ H)].
    assert (j = at_field ms n) by (eapply first_named_fun; eassumption). now subst j.
  - assert (E : at_field ms (serialized_name a) = JNull).
    { unfold at_field. inversion H; subst. apply absent_find in H2. change (serialized_name a) with (wire_name a). now rewrite H2. }
    rewrite E. pose proof (then_validate_iff a f P t JNull w v e Hf Hw) as Ht.
    transitivity (match a_default a with
      | Some d => v = d /\ e = None
      | None => if a_allow_missing a then v = w /\ e = None else read_checked a (P JNull) w v e
      end).
    + destruct (a_default a); [split; [intros [= <- <-]; auto|now intros [-> ->]]|].
      destruct (a_allow_missing a); [split; [intros [= <- <-]; auto|now intros [-> ->]]|exact Ht].
    + split; [intros Hr; right; auto|]. intros [(j & Hj & _)|[_ Hr]]; [now destruct (first_named_absent _ _ _ Hj)|exact Hr].
Qed.

Lemma patch_field_iff a f P t ms w v e : computes f P t -> typed t w ->
  (patch_field a f ms w = (v, e) <->
   (exists j, first_named ms (wire_names a) j /\
      match j, a_default a with JNull, Some d => v = d /\ e = None | _, _ => read_checked a (P j) w v e end) \/
   (Forall (absent ms) (wire_names a) /\ v = w /\ e = None)).
Proof.
  intros Hf Hw. pose proof (resolve_spec ms a) as H. change (lookup_names a) with (wire_names a) in H.
  unfold patch_field. destruct (resolve_field_name ms a) as [n|].
  - rewrite (present_iff a f P t _ w v e Hf Hw). split; [intros Hr; left; eauto|].
    intros [(j & Hj & Hr)|[Ha _]]; [|now destruct (first_named_absent _ _ _ H)].
    assert (j = at_field ms n) by (eapply first_named_fun; eassumption). now subst j.
  - split; [intros [= <- <-]; auto|]. intros [(j & Hj & _)|(_ & -> & ->)]; [now destruct (first_named_absent _ _ _ Hj)|reflexivity].
Qed.

(** The names only matter when there is a flattened or an extra field. *)
Definition same_names (fs : list (attrs * ty)) (names names' : list str) : Prop :=
  any_extra_or_flatten fs = true -> names = names'.

Lemma same_names_cons f fs n n' : same_names (f :: fs) n n' -> same_names fs n n'.
Proof. unfold same_names, any_extra_or_flatten. cbn [existsb]. intros H Ha. apply H. rewrite Ha. apply orb_true_r. Qed.

Lemma members_iff (f : ty -> json -> val -> dres) (P : ty -> json -> val -> val -> option exn -> Prop) names names' ms fs :
  same_names fs names names' -> all1 (fun g => wf (snd g)) fs -> all1 field_ok fs ->
  Forall (fun g : attrs * ty => computes (f (snd g)) (P (snd g)) (snd g) /\
            forall te, snd g = TMap te -> computes (f te) (P te) te) fs ->
  forall ws r e, all2 (fun g => typed (snd g)) fs ws ->
  (deser_members f names ms fs ws = (r, e) <-> fields_turn (field_read P names' ms) fs ws r e).
Proof.
  induction fs as [|[a t] fs IH]; intros Hn Hw Ho HC [|w ws] r e Hv; cbn in Hv; try contradiction; cbn [deser_members].
  - cbn. destruct r; [split; [now intros [= <-]|now intros ->]|split; [discriminate|intros []]].
  - destruct Hw as [Hwt Hw]. destruct Ho as [Hot Ho]. destruct Hv as [Hvt Hv]. inversion HC as [|? ? [HC1 HC2] HCr]; subst. cbn [fst snd] in *.
    pose proof (IH (same_names_cons _ _ _ _ Hn) Hw Ho HCr ws) as IH'. cbn [fields_turn].
    set (one := if a_skip_deser a then (w, None)
          else if a_extra a then
            match t with TMap te => let '(m, e) := extra_loop (f te) (default_of te) names ms [] in (VMap m, e) | _ => (w, Some EStuck) end
          else if a_flatten a then f t (JObj ms) w else read_field a (f t) ms w).
    assert (Hone : forall v e, one = (v, e) <-> field_read P names' ms (a, t) w v e).
    { intros v e'. unfold one, field_read. destruct (a_skip_deser a); [split; [intros [= <- <-]; auto|now intros [-> ->]]|].
      destruct (a_extra a) eqn:Ex.
      - destruct Hot as (_ & _ & _ & Hm). specialize (Hm Ex). cbn [snd] in Hm.
        destruct t as [ |it| | | |t|t|n t|te|ts|en|en|gs]; try (now destruct Hm).
        assert (names = names') by (apply Hn; cbn; rewrite Ex; reflexivity). subst names'.
        destruct (extra_loop (f te) (default_of te) names ms []) as [m e1] eqn:E.
        pose proof (extra_read_iff (f te) (P te) te (default_of te) names ms) as X. split.
        + intros [= <- <-]. apply X in E; [|now apply HC2|apply default_typed; exact Hwt].
          destruct E as (ms' & E1 & E2). exists ms', m. auto.
        + intros (ms' & m' & -> & E1 & E2). assert (E' : extra_loop (f te) (default_of te) names ms [] = (m', e')).
          { apply X; [now apply HC2|apply default_typed; exact Hwt|]. exists ms'. auto. }
          congruence.
      - destruct (a_flatten a); [now apply HC1|]. now apply (read_field_iff a (f t) (P t) t). }
    clearbody one. destruct one as [v [x|]].
    + destruct r as [|v' r]; [split; [discriminate|intros []]|]. split.
      * intros [= <- <- <-]. right. split; [discriminate|]. split; [now apply Hone|reflexivity].
      * intros [[H _]|(_ & H & ->)]; apply Hone in H; congruence.
    + destruct (deser_members f names ms fs ws) as [r' e'] eqn:E'.
      destruct r as [|v' r]; [split; [discriminate|intros []]|]. split.
      * intros [= <- <- <-]. left. split; [now apply Hone|]. now apply IH'.
      * intros [[H H']|(He & H & _)]; apply Hone in H; [|congruence]. apply IH' in H'; [|exact Hv]. congruence.
Qed.

Lemma at_index_skipn (js : list json) i :
  at_index js i = match skipn i js with [] => JNull | j :: _ => j end /\
  skipn (S i) js = match skipn i js with [] => [] | _ :: js' => js' end.
Proof.
  unfold at_index. revert i. induction js as [|j js IH]; intros [|i]; cbn [nth_error skipn]; try (split; reflexivity).
  destruct (IH i) as [H1 H2]. split; [exact H1|exact H2].
Qed.

Lemma elements_iff (f : ty -> json -> val -> dres) (P : ty -> json -> val -> val -> option exn -> Prop) js fs :
  Forall (fun g : attrs * ty => computes (f (snd g)) (P (snd g)) (snd g)) fs ->
  forall i ws r e, all2 (fun g => typed (snd g)) fs ws ->
  (deser_elements f js fs i ws = (r, e) <-> elements_turn P fs (skipn i js) ws r e).
Proof.
  induction fs as [|[a t] fs IH]; intros HC i [|w ws] r e Hv; cbn in Hv; try contradiction; cbn [deser_elements].
  - cbn. destruct r; [split; [now intros [= <-]|now intros ->]|split; [discriminate|intros []]].
  - destruct Hv as [Hvt Hv]. inversion HC as [|? ? HC1 HCr]; subst. cbn [snd] in *. cbn [elements_turn].
    destruct r as [|v' r].
    { split; [|intros []]. destruct (a_skip_deser a); [destruct (deser_elements f js fs i ws); discriminate|].
      destruct (a_extra a || a_flatten a); [discriminate|]. destruct (then_validate a (f t (at_index js i) w)) as [v [x|]]; [discriminate|].
      destruct (deser_elements f js fs (S i) ws); discriminate. }
    destruct (a_skip_deser a).
    { pose proof (IH HCr i ws) as H. destruct (deser_elements f js fs i ws) as [r' e']. split.
      - intros [= <- <- <-]. split; [reflexivity|]. now apply H.
      - intros [-> H']. apply H in H'; [|exact Hv]. congruence. }
    destruct (a_extra a || a_flatten a); [split; [intros [= <- <- <-]; auto|now intros (-> & -> & ->)]|].
    destruct (at_index_skipn js i) as [E1 E2].
    pose proof (then_validate_iff a (f t) (P t) t (at_index js i) w) as Hj. pose proof (IH HCr (S i) ws) as H.
    rewrite E2 in H.
    assert (Es : (match skipn i js with [] => (JNull, []) | j :: js' => (j, js') end) =
                 (at_index js i, match skipn i js with [] => [] | _ :: js' => js' end)).
    { rewrite E1. now destruct (skipn i js). }
    rewrite Es. clear E1 E2 Es. set (js1 := match skipn i js with [] => [] | _ :: js' => js' end) in *. clearbody js1.
    destruct (then_validate a (f t (at_index js i) w)) as [v [x|]].
    + split.
      * intros [= <- <- <-]. right. split; [discriminate|]. split; [now apply Hj|reflexivity].
      * intros [[H1 _]|(_ & H1 & ->)]; apply Hj in H1; auto; congruence.
    + destruct (deser_elements f js fs (S i) ws) as [r' e']. split.
      * intros [= <- <- <-]. left. split; [now apply Hj|now apply H].
      * intros [[H1 H2]|(He & H1 & _)]; apply Hj in H1; auto; [|congruence]. apply H in H2; [|exact Hv]. congruence.
Qed.

Lemma readable_count fs : readable_fields fs = sequence_field_count fs.
Proof.
  unfold sequence_field_count. induction fs as [|[a t] fs IH]; [reflexivity|]. cbn. destruct (a_skip_deser a); cbn; now rewrite IH.
Qed.

(* ------------------------------------------------------------------ *)
(** ** Reading *)

Lemma refused_iff (w v : val) e : (w, Some EDeser) = (v, e) <-> refused w v e.
Proof. unfold refused. split; [intros [= -> <-]; auto|now intros [-> ->]]. Qed.

Lemma read_eq (x v : val) (e : option exn) : (x, None) = (v, e) <-> v = x /\ e = None.
Proof. split; [intros [= -> <-]; auto|now intros [-> ->]]. Qed.

Lemma pair_wrap {A} (c : list A -> val) (r : list A * option exn) v e (Q : list A -> option exn -> Prop) :
  (forall x y, r = (x, y) <-> Q x y) ->
  ((let '(x, y) := r in (c x, y)) = (v, e) <-> exists x, v = c x /\ Q x e).
Proof.
  destruct r as [x y]. intros H. split.
  - intros [= <- <-]. exists x. split; [reflexivity|now apply H].
  - intros (x' & -> & H'). apply H in H'. congruence.
Qed.

Section WithBackend.
Context (be : backend).

Lemma reads_computes t : wf t -> computes (deser be t) (reads be t) t.
Proof.
  induction t as [ |it| | | |t IH|t IH|n t IH|t IH|ts IH|en|en|fs IH] using ty_ind1; intros Hw j w v e Hv; cbn [deser reads].
  - apply take_spec. intros b. apply dec_bool_spec.
  - apply take_spec. intros z. now apply dec_int_spec.
  - apply take_spec. intros b. apply dec_dbl_spec.
  - apply take_spec. intros b. apply dec_flt_spec.
  - destruct j; first [apply refused_iff|apply read_eq].
  - pose proof (IH Hw j (default_of t)) as H. pose proof (default_typed t Hw) as Hd.
    assert (Hn : is_null j = true <-> j = JNull) by (destruct j; split; (reflexivity || discriminate)).
    destruct (is_null j).
    + assert (j = JNull) by now apply Hn. rewrite read_eq. split; [intros [-> ->]; left; auto|].
      intros [(_ & -> & ->)|[H' _]]; [auto|contradiction].
    + assert (Hj : j <> JNull) by (intros E; apply Hn in E; discriminate).
      destruct (deser be t j (default_of t)) as [x [x'|]].
      * split.
        -- intros [= -> <-]. right. split; [exact Hj|]. right. split; [discriminate|]. split; [reflexivity|]. exists x. now apply H.
        -- intros [(H' & _)|[_ [(_ & v' & _ & H')|(_ & -> & v' & H')]]]; [contradiction| |]; apply H in H'; auto; congruence.
      * split.
        -- intros [= <- <-]. right. split; [exact Hj|]. left. split; [reflexivity|]. exists x. split; [reflexivity|]. now apply H.
        -- intros [(H' & _)|[_ [(-> & v' & -> & H')|(He & -> & v' & H')]]]; [contradiction| |]; apply H in H'; auto; congruence.
  - destruct j as [|b|z|b|s|js|ms]; try apply refused_iff. apply pair_wrap. intros x y.
    rewrite (seq_loop_iff _ (reads be t) t _ (IH Hw) (default_typed t Hw)). split.
    + intros (vs & -> & H). exact H.
    + intros H. exists x. auto.
  - destruct w as [b|z|b|b|s| |w|ws|m|ws]; cbn in Hv; try contradiction. destruct Hv as [Hl Hv].
    destruct j as [|b|z|b|s|js|ms]; try apply refused_iff. rewrite Hl.
    destruct (Nat.ltb_spec n (length js)) as [L|L].
    + rewrite refused_iff. split; [now left|]. intros [[_ H]|[H _]]; [exact H|lia].
    + rewrite (pair_wrap VSeq _ v e (fun r e => in_turn (reads be t) (padded js n) ws r e)).
      * split; [intros H; right; auto|]. intros [[H _]|[_ H]]; [lia|exact H].
      * intros x y. apply (arr_loop_iff _ (reads be t) t js n (IH Hw) L ws 0); auto.
  - destruct j as [|b|z|b|s|js|ms]; try apply refused_iff. apply pair_wrap. intros x y.
    apply (map_read_iff _ (reads be t) t _ _ _ _ (IH Hw) (default_typed t Hw)).
  - destruct w as [b|z|b|b|s| |w|ws|m|ws]; cbn in Hv; try contradiction.
    destruct j as [|b|z|b|s|js|ms]; try apply refused_iff.
    destruct (Nat.ltb_spec (length ts) (length js)) as [L|L].
    + rewrite refused_iff. split; [now left|]. intros [[_ H]|[H _]]; [exact H|lia].
    + rewrite (pair_wrap VSeq _ v e (fun r e => tuple_turn (reads be) ts (padded js (length ts)) ws r e)).
      * split; [intros H; right; auto|]. intros [[H _]|[_ H]]; [lia|exact H].
      * intros x y. apply (tuple_iff (deser be) (reads be) js (length ts) L ts) with (i := 0); [|reflexivity|exact Hv].
        apply all1_Forall in Hw. rewrite Forall_forall in IH, Hw |- *. intros t Ht. exact (IH t Ht (Hw t Ht)).
  - assert (D : (exists s z, j = JStr s /\ from_string (e_tab en) s = Some z) \/
                ((forall s z, j = JStr s -> ~ enumerator en s z) /\
                 (match j with JStr s => from_string (e_tab en) s = None | _ => True end))).
    { destruct j as [|b|z1|b|s|l|l]; try (right; split; [intros s' x E; discriminate|exact I]).
      destruct (from_string (e_tab en) s) as [x|] eqn:E; [left; eauto|].
      right. split; [|reflexivity]. intros s' x [= <-] H. apply enumerator_iff in H. congruence. }
    destruct D as [(s & z & -> & E)|[D D']].
    + rewrite E, read_eq. split.
      * intros [-> ->]. left. exists s, z. split; [reflexivity|]. split; [now apply enumerator_iff|auto].
      * intros [(s' & z' & [= <-] & H & -> & ->)|[H _]].
        -- apply enumerator_iff in H. assert (z' = z) by congruence. subst. auto.
        -- destruct (H s z eq_refl). now apply enumerator_iff.
    + transitivity (refused w v e).
      * destruct j; try apply refused_iff. rewrite D'. apply refused_iff.
      * split; [intros H; right; auto|]. intros [(s & z & E & H & _)|[_ H]]; [destruct (D s z E H)|exact H].
  - destruct j as [|b|z|b|s|js|ms]; try apply refused_iff.
    destruct (set_loop en js es_empty) as [z ex] eqn:E.
    pose proof (fun z e => set_read_iff en js z e Hw) as H. rewrite E in H. split.
    + intros [= <- <-]. now apply H.
    + intros H'. pose proof H' as (good & xs & z' & -> & _). apply H in H'. congruence.
  - destruct w as [b|z|b|b|s| |w|ws|m|ws]; cbn in Hv; try contradiction. destruct Hw as (Hw & Ho & _).
    assert (IH' : Forall (fun g : attrs * ty => computes (deser be (snd g)) (reads be (snd g)) (snd g) /\
              forall te, snd g = TMap te -> computes (deser be te) (reads be te) te) fs).
    { apply all1_Forall in Hw. rewrite Forall_forall in IH, Hw |- *. intros g Hg. destruct (IH g Hg) as [I1 I2]. specialize (Hw g Hg).
      split; [auto|]. intros te E. apply (I2 te E). rewrite E in Hw. exact Hw. }
    destruct j as [|b|z|b|s|js|ms]; try apply refused_iff.
    + rewrite readable_count. destruct (Nat.ltb_spec (sequence_field_count fs) (length js)) as [L|L].
      * rewrite refused_iff. split; [now left|]. intros [[_ H]|[H _]]; [exact H|lia].
      * rewrite (pair_wrap VRec _ v e (fun r e => elements_turn (reads be) fs js ws r e)).
        -- split; [intros H; right; auto|]. intros [[H _]|[_ H]]; [lia|exact H].
        -- intros x y. apply (elements_iff (deser be) (reads be) js fs) with (i := 0); [|exact Hv].
           eapply Forall_impl; [|exact IH']. cbn. tauto.
    + destruct (sound_dec fs) as [Hs|Hs].
      * destruct (reserved_sound fs Hs) as [[Ha Er]|[Ha Er]]; rewrite Er;
          (rewrite (pair_wrap VRec _ v e (fun r e => fields_turn (field_read (reads be) (declared (TRec fs)) ms) fs ws r e));
           [split; [intros H; right; auto|intros [[H _]|[_ H]]; [contradiction|exact H]]|]).
        -- intros x y. apply members_iff; auto. now intros _.
        -- intros x y. apply members_iff; auto. intros H. congruence.
      * rewrite (reserved_unsound fs Hs). split; [intros [= <- <-]; left; auto|].
        intros [(_ & -> & ->)|[H _]]; [reflexivity|contradiction].
Qed.

(* ------------------------------------------------------------------ *)
(** ** Patching *)

Lemma bound_assign k v w m m1 : sorted_keys m -> In (k, w) m -> (bound k v m m1 <-> m1 = map_assign k v m).
Proof.
  intros Hs Hin. pose proof (sorted_keys_ext m (map_assign k v m) (eq_sym (map_assign_keys k v m)) Hs) as Hs'.
  assert (B : bound k v m (map_assign k v m)).
  { split; [exact Hs'|]. intros k' v'. rewrite (sorted_in_find _ Hs'), (sorted_in_find _ Hs), map_assign_find.
    apply (sorted_in_find _ Hs) in Hin. destruct (str_eqb k k') eqn:E.
    - apply str_eqb_true in E. subst k'. rewrite Hin. split; [intros [= <-]; auto|]. intros [[_ ->]|[H _]]; [reflexivity|congruence].
    - apply str_eqb_false in E. assert (E1 : match map_find k' m with Some w0 => Some w0 | None => None end = map_find k' m)
        by now destruct (map_find k' m).
      rewrite E1. split; [intros H; right; split; [congruence|exact H]|]. intros [[Ek _]|[_ H']]; [congruence|exact H']. }
  split; [|now intros ->]. intros [H1 H2]. apply sorted_ext; [exact H1|exact Hs'|]. intros k' v'. exact (iff_trans (H2 k' v') (iff_sym (proj2 B k' v'))).
Qed.

Lemma bound_emplace k v m m1 : sorted_keys m -> ~ In k (map fst m) -> (bound k v m m1 <-> m1 = map_emplace k v m).
Proof.
  intros Hs Hn. pose proof (map_emplace_sorted k v m Hs) as Hs'.
  assert (B : bound k v m (map_emplace k v m)).
  { split; [exact Hs'|]. intros k' v'. rewrite (sorted_in_find _ Hs'), (sorted_in_find _ Hs), map_emplace_find.
    destruct (map_find k' m) as [u|] eqn:E.
    - assert (k' <> k). { intros ->. apply Hn. apply map_find_in in E. now apply (in_map fst) in E. }
      split; [intros H'; right; auto|]. intros [[-> _]|[_ H']]; [contradiction|exact H'].
    - destruct (str_eqb k k') eqn:Ek.
      + apply str_eqb_true in Ek. subst k'. split; [intros [= <-]; auto|]. intros [[_ ->]|[H _]]; [reflexivity|congruence].
      + apply str_eqb_false in Ek. split; [discriminate|]. intros [[Ek' _]|[_ H']]; [congruence|discriminate]. }
  split; [|now intros ->]. intros [H1 H2]. apply sorted_ext; [exact H1|exact Hs'|]. intros k' v'. exact (iff_trans (H2 k' v') (iff_sym (proj2 B k' v'))).
Qed.

Lemma extras_patch_iff f P t d names ms : computes f P t -> good f t -> typed t d -> forall m m' e, map_typed t m ->
  (patch_extra_loop f d names ms m = (m', e) <-> extras_patched P d names ms m m' e).
Proof.
  intros Hf Hg Hd. induction ms as [|[k j] ms IH]; intros m m' e Hm; cbn [patch_extra_loop extras_patched].
  - split; [intros [= <- <-]; auto|now intros [-> ->]].
  - destruct (in_set k names) eqn:En.
    { apply in_set_true in En. rewrite (IH m m' e Hm). split; [intros H; left; auto|]. intros [[_ H]|[H _]]; [exact H|contradiction]. }
    apply in_set_false in En. pose proof Hm as [Hs Ht]. destruct (map_find k m) as [w|] eqn:Ek.
    + assert (Hin : In (k, w) m) by now apply map_find_in.
      assert (Hw : typed t w) by exact (proj1 (all1_in _ _) Ht (k, w) Hin).
      assert (Hu : forall w', In (k, w') m -> w' = w) by (intros w' H; apply (sorted_in_find m Hs) in H; congruence).
      assert (Hk : In k (map fst m)) by now apply (in_map fst) in Hin.
      pose proof (Hf j w) as Hj. destruct (Hg j w Hw) as [Gt _]. destruct (f j w) as [v [x|]].
      * split.
        -- intros [= <- <-]. right. split; [exact En|]. left. exists w, v. split; [exact Hin|]. right. split; [discriminate|].
           split; [now apply Hj|]. now apply (bound_assign k v w).
        -- intros [[H _]|[_ [(w' & v' & H1 & H2)|[H _]]]]; try contradiction. apply Hu in H1. subst w'.
           destruct H2 as [[H2 _]|(_ & H2 & H3)]; apply Hj in H2; auto; [discriminate|]. injection H2 as <- <-.
           apply (bound_assign k v w _ _ Hs Hin) in H3. now subst.
      * assert (Hm' : map_typed t (map_assign k v m)) by (apply assign_typed; [exact Gt|exact Hm]). rewrite (IH _ m' e Hm'). split.
        -- intros H. right. split; [exact En|]. left. exists w, v. split; [exact Hin|]. left. split; [now apply Hj|].
           exists (map_assign k v m). split; [|exact H]. now apply (bound_assign k v w).
        -- intros [[H _]|[_ [(w' & v' & H1 & H2)|[H _]]]]; try contradiction. apply Hu in H1. subst w'.
           destruct H2 as [[H2 (m1 & H3 & H4)]|(He & H2 & H3)]; apply Hj in H2; auto; [|congruence]. injection H2 as <-.
           apply (bound_assign k v w _ _ Hs Hin) in H3. now subst.
    + assert (Hk : ~ In k (map fst m)) by now apply map_find_none.
      pose proof (Hf j d) as Hj. destruct (Hg j d Hd) as [Gt _]. destruct (f j d) as [v [x|]].
      * split.
        -- intros [= <- <-]. right. split; [exact En|]. right. split; [exact Hk|]. exists v. right. split; [discriminate|].
           split; [now apply Hj|reflexivity].
        -- intros [[H _]|[_ [(w' & v' & H1 & H2)|(_ & v' & H2)]]]; [contradiction|apply (in_map fst) in H1; contradiction|].
           destruct H2 as [[H2 _]|(_ & H2 & ->)]; apply Hj in H2; auto; congruence.
      * assert (Hm' : map_typed t (map_emplace k v m)) by (apply emplace_typed; [exact Gt|exact Hm]). rewrite (IH _ m' e Hm'). split.
        -- intros H. right. split; [exact En|]. right. split; [exact Hk|]. exists v. left. split; [now apply Hj|].
           exists (map_emplace k v m). split; [|exact H]. now apply bound_emplace.
        -- intros [[H _]|[_ [(w' & v' & H1 & H2)|(_ & v' & H2)]]]; [contradiction|apply (in_map fst) in H1; contradiction|].
           destruct H2 as [[H2 (m1 & H3 & H4)]|(He & H2 & _)]; apply Hj in H2; auto; [|congruence]. injection H2 as <-.
           apply (bound_emplace k v _ _ Hs Hk) in H3. now subst.
Qed.

Lemma patch_members_iff (f : ty -> json -> val -> dres) (P : ty -> json -> val -> val -> option exn -> Prop) names names' ms fs :
  same_names fs names names' -> all1 (fun g => wf (snd g)) fs -> all1 field_ok fs ->
  Forall (fun g : attrs * ty => computes (f (snd g)) (P (snd g)) (snd g) /\
            forall te, snd g = TMap te -> computes (f te) (P te) te /\ good (f te) te) fs ->
  forall ws r e, all2 (fun g => typed (snd g)) fs ws ->
  (patch_members f names ms fs ws = (r, e) <-> fields_turn (field_patched P names' ms) fs ws r e).
Proof.
  induction fs as [|[a t] fs IH]; intros Hn Hw Ho HC [|w ws] r e Hv; cbn in Hv; try contradiction; cbn [patch_members].
  - cbn. destruct r; [split; [now intros [= <-]|now intros ->]|split; [discriminate|intros []]].
  - destruct Hw as [Hwt Hw]. destruct Ho as [Hot Ho]. destruct Hv as [Hvt Hv]. inversion HC as [|? ? [HC1 HC2] HCr]; subst. cbn [fst snd] in *.
    pose proof (IH (same_names_cons _ _ _ _ Hn) Hw Ho HCr ws) as IH'. cbn [fields_turn].
    set (one := if a_skip_deser a then (w, None)
          else if a_extra a then
            match t, w with
            | TMap te, VMap m => let '(m', e) := patch_extra_loop (f te) (default_of te) names ms m in (VMap m', e)
            | _, _ => (w, Some EStuck)
            end
          else if a_flatten a then f t (JObj ms) w else patch_field a (f t) ms w).
    assert (Hone : forall v e, one = (v, e) <-> field_patched P names' ms (a, t) w v e).
    { intros v e'. unfold one, field_patched. destruct (a_skip_deser a); [split; [intros [= <- <-]; auto|now intros [-> ->]]|].
      destruct (a_extra a) eqn:Ex.
      - destruct Hot as (_ & _ & _ & Hm). specialize (Hm Ex). cbn [snd] in Hm.
        destruct t as [ |it| | | |t|t|n t|te|ts|en|en|gs]; try (now destruct Hm).
        destruct w as [b|z|b|b|s| |w|vs|m|vs]; cbn in Hvt; try contradiction.
        assert (names = names') by (apply Hn; cbn; rewrite Ex; reflexivity). subst names'.
        destruct (HC2 te eq_refl) as [X1 X2].
        apply pair_wrap. intros x y. apply (extras_patch_iff (f te) (P te) te); auto. apply default_typed; exact Hwt.
      - destruct (a_flatten a); [now apply HC1|]. now apply (patch_field_iff a (f t) (P t) t). }
    clearbody one. destruct one as [v [x|]].
    + destruct r as [|v' r]; [split; [discriminate|intros []]|]. split.
      * intros [= <- <- <-]. right. split; [discriminate|]. split; [now apply Hone|reflexivity].
      * intros [[H _]|(_ & H & ->)]; apply Hone in H; congruence.
    + destruct (patch_members f names ms fs ws) as [r' e'] eqn:E'.
      destruct r as [|v' r]; [split; [discriminate|intros []]|]. split.
      * intros [= <- <- <-]. left. split; [now apply Hone|]. now apply IH'.
      * intros [[H H']|(He & H & _)]; apply Hone in H; [|congruence]. apply IH' in H'; [|exact Hv]. congruence.
Qed.

Lemma patched_computes t : wf t -> computes (patch be t) (patched be t) t.
Proof.
  induction t as [ |it| | | |t IH|t IH|n t IH|t IH|ts IH|en|en|fs IH] using ty_ind1; intros Hw j w v e Hv;
    try (exact (reads_computes _ Hw j w v e Hv)).
  - cbn [patch patched]. pose proof (default_typed t Hw) as Hd.
    assert (Hn : is_null j = true <-> j = JNull) by (destruct j; split; (reflexivity || discriminate)).
    destruct (is_null j).
    + assert (j = JNull) by now apply Hn. rewrite read_eq. split; [intros [-> ->]; left; auto|].
      intros [(_ & -> & ->)|[H' _]]; [auto|contradiction].
    + assert (Hj : j <> JNull) by (intros E; apply Hn in E; discriminate).
      destruct w as [b|z|b|b|s| |w|ws|m|ws]; cbn in Hv; try contradiction.
      * pose proof (IH Hw j (default_of t)) as H.
        destruct (patch be t j (default_of t)) as [x [x'|]].
        -- split.
           ++ intros [= <- <-]. right. split; [exact Hj|]. right. split; [discriminate|]. split; [reflexivity|]. exists x. now apply H.
           ++ intros [(H' & _)|[_ [(_ & v' & _ & H')|(_ & -> & v' & H')]]]; [contradiction| |]; apply H in H'; auto; congruence.
        -- split.
           ++ intros [= <- <-]. right. split; [exact Hj|]. left. split; [reflexivity|]. exists x. split; [reflexivity|]. now apply H.
           ++ intros [(H' & _)|[_ [(-> & v' & -> & H')|(He & -> & v' & H')]]]; [contradiction| |]; apply H in H'; auto; congruence.
      * pose proof (IH Hw j w) as H. destruct (patch be t j w) as [x y]. split.
        -- intros [= <- <-]. right. split; [exact Hj|]. exists x. split; [reflexivity|now apply H].
        -- intros [(H' & _)|(_ & v' & -> & H')]; [contradiction|]. apply H in H'; auto. congruence.
  - pose proof (reads_computes (TRec fs) Hw j w v e Hv) as Hr.
    destruct j as [|b|z|b|s|js|ms]; try exact Hr. clear Hr.
    destruct w as [b|z|b|b|s| |w|ws|m|ws]; cbn in Hv; try contradiction. destruct Hw as (Hw & Ho & _).
    assert (IH' : Forall (fun g : attrs * ty => computes (patch be (snd g)) (patched be (snd g)) (snd g) /\
              forall te, snd g = TMap te -> computes (patch be te) (patched be te) te /\ good (patch be te) te) fs).
    { apply all1_Forall in Hw. rewrite Forall_forall in IH, Hw |- *. intros g Hg. destruct (IH g Hg) as [I1 I2]. specialize (Hw g Hg).
      split; [auto|]. intros te E. rewrite E in Hw. split; [now apply (I2 te E)|]. now apply patch_typed. }
    cbn [patch patched]. destruct (sound_dec fs) as [Hs|Hs].
    + destruct (reserved_sound fs Hs) as [[Ha Er]|[Ha Er]]; rewrite Er;
        (rewrite (pair_wrap VRec _ v e (fun r e => fields_turn (field_patched (patched be) (declared (TRec fs)) ms) fs ws r e));
         [split; [intros H; right; auto|intros [[H _]|[_ H]]; [contradiction|exact H]]|]).
      * intros x y. apply patch_members_iff; auto. now intros _.
      * intros x y. apply patch_members_iff; auto. intros H. congruence.
    + rewrite (reserved_unsound fs Hs). split; [intros [= <- <-]; left; auto|].
      intros [(_ & -> & ->)|[H _]]; [reflexivity|contradiction].
Qed.

Lemma reading_exact_lemma t w j v e : wf t -> typed t w ->
  (deser be t j w = (v, e) <-> reads be t j w v e) /\ (patch be t j w = (v, e) <-> patched be t j w v e).
Proof. intros Hw Hv. split; [now apply reads_computes|now apply patched_computes]. Qed.

End WithBackend.
