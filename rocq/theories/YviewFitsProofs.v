(** When deserialization and patching end without an exception. *)
From Coq Require Import List Arith Bool String Lia.
From Verif Require Import Base YviewModel YviewSpec YviewProofs YviewFreshProofs.
Import ListNotations.

Section Document.
(** A document in a memory, and everything that is no part of it. *)
Variables (h0 : heap) (D : nat -> Prop).
Hypothesis closed0 : closed h0.
Hypothesis parts : forall m, D m -> m < List.length (h_ref h0) /\ forall k, In k (inside (content_of h0 m)) -> D k.

Definition beside (ns : list nat) : Prop := forall m, In m ns -> ~ D m.
Definition from (y : handle) : Prop := forall m, y = Some m -> D m.

Lemma beside_nil : beside [].
Proof. intros m []. Qed.
Lemma beside_app a b : beside (a ++ b) <-> beside a /\ beside b.
Proof.
  unfold beside. split.
  - intros H. split; intros m Hm; apply H, in_app_iff; tauto.
  - intros [A B] m Hm. apply in_app_iff in Hm as [Hm|Hm]; [now apply A | now apply B].
Qed.

Lemma same h ns m : frame h0 h ns -> beside ns -> D m -> content_of h m = content_of h0 m.
Proof.
  intros (E & L & R) B Dm. destruct (parts m Dm) as [Lm _]. apply content_same; [exact closed0 | exact Lm | exact E|].
  apply R; [exact Lm|]. intros Hm. exact (B m Hm Dm).
Qed.
Lemma same_shows h ns y : frame h0 h ns -> beside ns -> from y -> shows h y = shows h0 y.
Proof. intros F B Y. destruct y as [m|]; [|reflexivity]. apply (same h ns m F B), Y, eq_refl. Qed.
Lemma from_inside y m : from y -> In m (inside (shows h0 y)) -> D m.
Proof. intros Y H. destruct y as [n|]; [|destruct H]. exact (proj2 (parts n (Y n eq_refl)) m H). Qed.
Lemma from_nth y l i : from y -> shows h0 y = Seq l -> from (nth_error l i).
Proof. intros Y E m Hm. apply (from_inside y m Y). rewrite E. exact (nth_error_In _ _ Hm). Qed.

Lemma named_find h ns name l : frame h0 h ns -> beside ns -> (forall k n, In (k, n) l -> D k) ->
  named h0 name l (option_map snd (find (key_is h name) l)).
Proof.
  intros F B. induction l as [|[k n] l IH]; intros Hl; cbn [find]; [constructor|].
  assert (Dk : D k) by (apply (Hl k n); now left).
  assert (Hl' : forall k n, In (k, n) l -> D k) by (intros k' n' H; apply (Hl k' n'); now right).
  unfold key_is at 1. cbn [fst]. rewrite (same h ns k F B Dk).
  destruct (content_of h0 k) as [|s|s|s] eqn:E.
  - apply named_later; [congruence | exact (IH Hl')].
  - destruct (String.eqb_spec s name) as [->|Hs]; [now apply named_this|]. apply named_later; [congruence | exact (IH Hl')].
  - apply named_later; [congruence | exact (IH Hl')].
  - apply named_later; [congruence | exact (IH Hl')].
Qed.
Lemma named_one h name l x y : named h name l x -> named h name l y -> x = y.
Proof.
  intros A. revert y. induction A as [|k n l E|k n l x E A IH]; intros y B; inversion B; subst; try reflexivity; try contradiction.
  now apply IH.
Qed.
Lemma named_in h name l n : named h name l (Some n) -> exists k, In (k, n) l /\ content_of h k = Scalar name.
Proof.
  remember (Some n) as x. intros A. induction A as [|k m l E|k m l x E A IH]; [discriminate| |].
  - injection Heqx as ->. exists k. split; [now left | exact E].
  - destruct (IH Heqx) as (k' & I & E'). exists k'. split; [now right | exact E'].
Qed.
Lemma entries_from y l : from y -> shows h0 y = Map l -> forall k n, In (k, n) l -> D k /\ D n.
Proof.
  intros Y E k n H. split; apply (from_inside y _ Y); rewrite E; cbn; apply in_flat_map; exists (k, n); cbn; tauto.
Qed.
Lemma field_named h ns y l name : frame h0 h ns -> beside ns -> from y -> shows h0 y = Map l -> named h0 name l (field h y name).
Proof.
  intros F B Y E. unfold field. rewrite (same_shows h ns y F B Y), E. apply (named_find h ns); [exact F | exact B|].
  intros k n H. exact (proj1 (entries_from y l Y E k n H)).
Qed.
Lemma named_from y l name z : from y -> shows h0 y = Map l -> named h0 name l z -> from z.
Proof. intros Y E N m ->. destruct (named_in h0 name l m N) as (k & I & _). exact (proj2 (entries_from y l Y E k m I)). Qed.

Definition ends (f : ty -> heap -> value -> handle -> result) (P : ty -> handle -> Prop) (t : ty) : Prop :=
  forall h ns out y, frame h0 h ns -> beside ns -> from y -> beside (held out) -> object t out -> (snd (f t h out y) = true <-> P t y).

Lemma in_place_ends f P src (Q : nat -> option handle) l : Forall (ends f P) l ->
  (forall t h out x, frame h (fst (fst (f t h out x))) (held out)) ->
  (forall h ns i, frame h0 h ns -> beside ns -> src i h = Q i) -> (forall i y, Q i = Some y -> from y) ->
  forall i h ns xs, frame h0 h ns -> beside ns -> beside (flat_map held xs) ->
  List.length xs = List.length l -> (forall j t v, nth_error l j = Some t -> nth_error xs j = Some v -> object t v) ->
  (snd (in_place f src l i h xs) = true <-> forall j t y, nth_error l j = Some t -> Q (i + j) = Some y -> P t y).
Proof.
  intros H Fr Sr Qf. induction H as [|t ts Ht _ IH]; intros i h ns xs F B Bx L O.
  { destruct xs; [|discriminate]. cbn. split; [intros _ [|j] t y; discriminate | reflexivity]. }
  destruct xs as [|x xs]; [discriminate|]. cbn [in_place]. injection L as L. cbn [flat_map] in Bx. apply beside_app in Bx as [Bx Bxs].
  assert (O' : forall j t v, nth_error ts j = Some t -> nth_error xs j = Some v -> object t v) by (intros j; exact (O (S j))).
  rewrite (Sr h ns i F B). destruct (Q i) as [y|] eqn:Eq.
  - specialize (Ht h ns x y F B (Qf i y Eq) Bx (O 0 t x eq_refl eq_refl)). specialize (Fr t h x y).
    destruct (f t h x y) as [[h1 v] ok]. cbn [fst snd] in *. destruct ok.
    + assert (F1 := frame_trans _ _ _ _ _ F Fr). assert (B1 : beside (ns ++ held x)) by (apply beside_app; tauto).
      specialize (IH (S i) h1 _ xs F1 B1 Bxs L O').
      destruct (in_place f src ts (S i) h1 xs) as [[h2 vs] ok]. cbn [snd] in *. rewrite IH. split.
      * intros A [|j] t' y' Et Ey; cbn in Et.
        -- injection Et as <-. rewrite Nat.add_0_r in Ey. rewrite Eq in Ey. injection Ey as <-. now apply Ht.
        -- apply (A j t' y' Et). rewrite <- Ey. f_equal. lia.
      * intros A j t' y' Et Ey. apply (A (S j) t' y' Et). rewrite <- Ey. f_equal. lia.
    + cbn. split; [discriminate|]. intros A. apply Ht, (A 0 t y eq_refl). now rewrite Nat.add_0_r.
  - specialize (IH (S i) h _ xs F B Bxs L O').
    destruct (in_place f src ts (S i) h xs) as [[h2 vs] ok]. cbn [snd] in *. rewrite IH. split.
    + intros A [|j] t' y' Et Ey; cbn in Et.
      * rewrite Nat.add_0_r in Ey. congruence.
      * apply (A j t' y' Et). rewrite <- Ey. f_equal. lia.
    + intros A j t' y' Et Ey. apply (A (S j) t' y' Et). rewrite <- Ey. f_equal. lia.
Qed.

Lemma object_default t : object t (default t).
Proof.
  induction t as [| |t IH|t IH|t IH|l IH|names l IH] using ty_ind'; cbn; constructor; try (intros; contradiction); try apply map_length.
  - intros i t v Et Ev. rewrite nth_error_map, Et in Ev. injection Ev as <-. rewrite Forall_forall in IH. apply IH, (nth_error_In _ _ Et).
  - intros i t v Et Ev. rewrite nth_error_map, Et in Ev. injection Ev as <-. rewrite Forall_forall in IH. apply IH, (nth_error_In _ _ Et).
Qed.

Lemma push_all_ends t : ends deserialize (fits h0) t -> forall l h ns acc, frame h0 h ns -> beside ns -> (forall n, In n l -> D n) ->
  (snd (push_all (fun h y => deserialize t h (default t) y) l h acc) = true <-> forall n, In n l -> fits h0 t (Some n)).
Proof.
  intros T. induction l as [|n l IH]; intros h ns acc F B Hl; cbn [push_all]; [cbn; split; [intros _ n [] | reflexivity]|].
  assert (Fr := deserialize_frame t h (default t) (Some n)). rewrite held_default in Fr.
  assert (X := T h ns (default t) (Some n) F B ltac:(intros m [= <-]; apply Hl; now left)
                 ltac:(rewrite held_default; exact beside_nil) (object_default t)).
  destruct (deserialize t h (default t) (Some n)) as [[h1 v] ok]. cbn [fst snd] in *. destruct ok.
  - rewrite (IH h1 (ns ++ []) (acc ++ [v]) (frame_trans _ _ _ _ _ F Fr) ltac:(now rewrite app_nil_r) ltac:(intros m Hm; apply Hl; now right)).
    split; [intros A m [<-|Hm]; [now apply X | now apply A] | intros A m Hm; apply A; now right].
  - cbn. split; [discriminate|]. intros A. apply X, A. now left.
Qed.
Lemma emplace_all_ends t : ends deserialize (fits h0) t -> forall l h ns acc, frame h0 h ns -> beside ns ->
  (forall k n, In (k, n) l -> D k /\ D n) ->
  (snd (emplace_all (fun h y => deserialize t h (default t) y) l h acc) = true <->
   forall k n, In (k, n) l -> (exists s, content_of h0 k = Scalar s) /\ fits h0 t (Some n)).
Proof.
  intros T. induction l as [|[k n] l IH]; intros h ns acc F B Hl; cbn [emplace_all]; [cbn; split; [intros _ k n [] | reflexivity]|].
  destruct (Hl k n (or_introl eq_refl)) as [Dk Dn]. rewrite (same h ns k F B Dk).
  assert (N : forall R : Prop, (forall s, content_of h0 k <> Scalar s) ->
    (false = true <-> forall k' n', In (k', n') ((k, n) :: l) -> (exists s, content_of h0 k' = Scalar s) /\ fits h0 t (Some n'))).
  { intros _ Z. split; [discriminate|]. intros A. destruct (A k n (or_introl eq_refl)) as [[s E] _]. now destruct (Z s). }
  destruct (content_of h0 k) as [|s|s|s] eqn:Ek; try (apply (N True); intros; discriminate). clear N.
  assert (Fr := deserialize_frame t h (default t) (Some n)). rewrite held_default in Fr.
  assert (X := T h ns (default t) (Some n) F B ltac:(intros m [= <-]; exact Dn)
                 ltac:(rewrite held_default; exact beside_nil) (object_default t)).
  destruct (deserialize t h (default t) (Some n)) as [[h1 v] ok]. cbn [fst snd] in *. destruct ok.
  - rewrite (IH h1 (ns ++ []) _ (frame_trans _ _ _ _ _ F Fr) ltac:(now rewrite app_nil_r) ltac:(intros a b Hm; apply Hl; now right)).
    split.
    + intros A a b [[= <- <-]|Hm]; [split; [now exists s | now apply X] | now apply A].
    + intros A a b Hm; apply A; now right.
  - cbn. split; [discriminate|]. intros A. apply X. exact (proj2 (A k n (or_introl eq_refl))).
Qed.

Theorem deserialize_ends t : ends deserialize (fits h0) t.
Proof.
  induction t as [| |t IH|t IH|t IH|l IH|names l IH] using ty_ind'; intros h ns out y F B Y Bo O; cbn [deserialize].
  - rewrite (same_shows h ns y F B Y). destruct (shows h0 y) as [|s| |] eqn:E; cbn; split; try discriminate;
      try (intros H; inversion H; congruence); try reflexivity. intros _. now apply fits_string with s.
  - inversion O; subst. destruct (assign_node h x y) as [h' c]. cbn. split; [constructor | reflexivity].
  - rewrite (same_shows h ns y F B Y). destruct (shows h0 y) as [| |l|] eqn:E.
    1, 2, 4: cbn; split; [discriminate | intros H; inversion H; congruence].
    rewrite (push_all_ends t IH l h ns [] F B). 2: { intros n Hn. apply (from_inside y n Y). now rewrite E. }
    split; [intros A; now apply fits_seq with l|]. intros A. inversion A as [| |a b l' E'| | | | | |]; subst. rewrite E in E'. now injection E' as <-.
  - rewrite (same_shows h ns y F B Y). destruct (shows h0 y) as [| | |l] eqn:E.
    1, 2, 3: cbn; split; [discriminate | intros H; inversion H; congruence].
    rewrite (emplace_all_ends t IH l h ns [] F B (entries_from y l Y E)).
    split; [intros A; now apply fits_map with l|]. intros A. inversion A as [| | |a b l' E'| | | | |]; subst. rewrite E in E'. now injection E' as <-.
  - rewrite (same_shows h ns y F B Y).
    assert (X := IH h ns (default t) y F B Y ltac:(rewrite held_default; exact beside_nil) (object_default t)).
    assert (Z : snd (let '(h1, v, ok) := deserialize t h (default t) y in
          if ok then match out with
            | VOpt (Some a) => let (h2, c) := assign t h1 a v in (h2, VOpt (Some c), true)
            | _ => (h1, VOpt (Some v), true) end
          else (h1, out, false)) = true <-> fits h0 t y).
    { rewrite <- X. destruct (deserialize t h (default t) y) as [[h1 v] ok]. destruct ok; cbn; [|tauto].
      destruct out as [| | | |[a|]|]; cbn; try tauto. destruct (assign t h1 a v); cbn; tauto. }
    destruct (shows h0 y) eqn:E; [cbn; split; [intros _; now apply fits_null | reflexivity]|..]; rewrite Z;
      (split; [intros A; apply fits_some; [congruence | exact A] | intros A; inversion A; [congruence | assumption]]).
  - rewrite (same_shows h ns y F B Y). inversion O as [| | | | | |ts vs L Ot|]; subst.
    destruct (shows h0 y) as [| |s|] eqn:E.
    1, 2, 4: cbn; split; [discriminate | intros H; inversion H; congruence].
    destruct (Nat.ltb_spec (List.length l) (List.length s)) as [Hl|Hl].
    { cbn. split; [discriminate|]. intros H. inversion H as [| | | | | |a b s' E' L'| |]; subst. rewrite E in E'. injection E' as <-. lia. }
    pose proof (in_place_ends deserialize (fits h0) (fun i h => Some (at_index h y i)) (fun i => Some (nth_error s i)) l IH deserialize_frame
      ltac:(intros h' ns' i F' B'; unfold at_index; now rewrite (same_shows h' ns' y F' B' Y), E)
      ltac:(intros i z [= <-]; exact (from_nth y s i Y E)) 0 h ns vs F B Bo L Ot) as X.
    destruct (in_place _ _ _ _ _ _) as [[h' ws] ok]. cbn [snd] in *. rewrite X. split.
    + intros A. apply fits_tuple with s; [exact E | exact Hl|]. intros i t Et. exact (A i t _ Et eq_refl).
    + intros A j t z Et [= <-]. inversion A as [| | | | | |a b s' E' L' A'| |]; subst. rewrite E in E'. injection E' as <-. exact (A' j t Et).
  - rewrite (same_shows h ns y F B Y). inversion O as [| | | | | | |nms ts vs L Ot]; subst.
    destruct (shows h0 y) as [| |s|s] eqn:E.
    1, 2: cbn; split; [discriminate | intros H; inversion H; congruence].
    + destruct (Nat.ltb_spec (List.length l) (List.length s)) as [Hl|Hl].
      { cbn. split; [discriminate|]. intros H. inversion H as [| | | | | | | |a b c s' E' L']; subst; [congruence|]. rewrite E in E'. injection E' as <-. lia. }
      pose proof (in_place_ends deserialize (fits h0) (fun i h => Some (at_index h y i)) (fun i => Some (nth_error s i)) l IH deserialize_frame
        ltac:(intros h' ns' i F' B'; unfold at_index; now rewrite (same_shows h' ns' y F' B' Y), E)
        ltac:(intros i z [= <-]; exact (from_nth y s i Y E)) 0 h ns vs F B Bo L Ot) as X.
      destruct (in_place _ _ _ _ _ _) as [[h' ws] ok]. cbn [snd] in *. rewrite X. split.
      * intros A. apply fits_positions with s; [exact E | exact Hl|]. intros i t Et. exact (A i t _ Et eq_refl).
      * intros A j t z Et [= <-]. inversion A as [| | | | | | | |a b c s' E' L' A']; subst; [congruence|]. rewrite E in E'. injection E' as <-. exact (A' j t Et).
    + pose proof (in_place_ends deserialize (fits h0) (fun i h => Some (field h y (nth i names EmptyString)))
        (fun i => Some (field h0 y (nth i names EmptyString))) l IH deserialize_frame
        ltac:(intros h' ns' i F' B'; apply (f_equal (@Some handle)); exact (named_one h0 _ s _ _ (field_named h' ns' y s _ F' B' Y E) (field_named h0 [] y s _ (frame_refl h0 []) beside_nil Y E)))
        ltac:(intros i z [= <-]; exact (named_from y s _ _ Y E (field_named h0 [] y s _ (frame_refl h0 []) beside_nil Y E)))
        0 h ns vs F B Bo L Ot) as X.
      destruct (in_place _ _ _ _ _ _) as [[h' ws] ok]. cbn [snd] in *. rewrite X. split.
      * intros A. apply fits_fields with s; [exact E|]. intros i t z Et N.
        rewrite (named_one h0 _ s _ _ N (field_named h0 [] y s _ (frame_refl h0 []) beside_nil Y E)). exact (A i t _ Et eq_refl).
      * intros A j t z Et [= <-]. inversion A as [| | | | | | |a b c s' E' A'|]; subst; [|congruence]. rewrite E in E'. injection E' as <-.
        exact (A' j t _ Et (field_named h0 [] y s _ (frame_refl h0 []) beside_nil Y E)).
Qed.

Theorem patch_ends t : ends patch (fits_patch h0) t.
Proof.
  assert (K : forall t, (forall t', t <> TOpt t') -> (forall names ts, t <> TStruct names ts) ->
    patch t = deserialize t -> ends patch (fits_patch h0) t).
  { intros u H1 H2 E h ns out y F B Y Bo O. rewrite E, (deserialize_ends u h ns out y F B Y Bo O). split.
    - now apply patch_other.
    - intros A. inversion A; subst; try (now destruct (H1 t0)); try (now destruct (H2 names ts)); assumption. }
  induction t as [| |t IH|t IH|t IH|l IH|names l IH] using ty_ind'; try (apply K; [discriminate | discriminate | reflexivity]); clear K;
    intros h ns out y F B Y Bo O; cbn [patch].
  - rewrite (same_shows h ns y F B Y).
    assert (Z : snd match out with
          | VOpt (Some a) => let '(h1, v, ok) := patch t h a y in (h1, VOpt (Some v), ok)
          | _ => let '(h1, v, ok) := patch t h (default t) y in
                 if ok then (h1, VOpt (Some v), true) else (h1, out, false)
          end = true <-> fits_patch h0 t y).
    { inversion O as [| | | | |u v Ov| |]; subst.
      - rewrite <- (IH h ns (default t) y F B Y ltac:(rewrite held_default; exact beside_nil) (object_default t)).
        destruct (patch t h (default t) y) as [[h1 v] ok]. destruct ok; cbn; tauto.
      - rewrite <- (IH h ns v y F B Y Bo Ov). destruct (patch t h v y) as [[h1 w] ok]. cbn. tauto. }
    destruct (shows h0 y) eqn:E; [cbn; split; [intros _; now apply patch_null | reflexivity]|..]; rewrite Z;
      (split; [intros A; apply patch_some; [congruence | exact A] | intros A; inversion A as [| | | |u x H1]; [congruence | assumption | now destruct (H1 t)]]).
  - pose proof (deserialize_ends (TStruct names l) h ns out y F B Y Bo O) as Dd.
    rewrite (same_shows h ns y F B Y).
    destruct (shows h0 y) as [| |s|s] eqn:E.
    + rewrite Dd. split; intros A; [inversion A; congruence | inversion A as [| | | |u x H1 H2]; try congruence; now destruct (H2 names l)].
    + rewrite Dd. split; intros A; [inversion A; congruence | inversion A as [| | | |u x H1 H2]; try congruence; now destruct (H2 names l)].
    + rewrite Dd. split; [intros A; now apply patch_positions with s|]. intros A. inversion A as [| | |a b c d E' G|u x H1 H2]; subst; [congruence | exact G | now destruct (H2 names l)].
    + inversion O as [| | | | | | |nms ts vs L Ot]; subst.
      assert (N : forall nm, named h0 nm s (field h0 y nm)) by (intros nm; exact (field_named h0 [] y s _ (frame_refl h0 []) beside_nil Y E)).
      pose proof (in_place_ends patch (fits_patch h0)
        (fun i h => match field h y (nth i names EmptyString) with Some n => Some (Some n) | None => None end)
        (fun i => match field h0 y (nth i names EmptyString) with Some n => Some (Some n) | None => None end) l IH patch_frame) as X.
      specialize (X ltac:(intros h' ns' i F' B'; cbv beta; rewrite (named_one h0 _ s _ _ (field_named h' ns' y s (nth i names EmptyString) F' B' Y E) (N (nth i names EmptyString))); reflexivity)).
      specialize (X ltac:(intros i z Ez; cbv beta in Ez; apply (named_from y s (nth i names EmptyString) z Y E); pose proof (N (nth i names EmptyString)) as Ni;
        destruct (field h0 y (nth i names EmptyString)); [injection Ez as <-; exact Ni | discriminate Ez])).
      specialize (X 0 h ns vs F B Bo L Ot).
      destruct (in_place _ _ _ _ _ _) as [[h' ws] ok]. cbn [snd] in *. rewrite X. split.
      * intros A. apply patch_fields with s; [exact E|]. intros i t n Et Hn.
        apply (A i t (Some n) Et). cbn. now rewrite <- (named_one h0 _ s _ _ Hn (N _)).
      * intros A j t z Et Ez. cbn in Ez. pose proof (N (nth j names EmptyString)) as Nj.
        destruct (field h0 y (nth j names EmptyString)) as [n|]; [|discriminate]. injection Ez as <-.
        inversion A as [| |a b c s' E' A'|a b c d E'|u x H1 H2]; subst; [|congruence | now destruct (H2 names l)].
        rewrite E in E'. injection E' as <-. exact (A' j t n Et Nj).
Qed.
End Document.

Lemma document_parts h x : closed h -> there h x -> forall m, of_document h x m ->
  m < List.length (h_ref h) /\ forall k, In k (inside (content_of h m)) -> of_document h x k.
Proof.
  intros C T m Dm. destruct x as [n|]; [|destruct Dm]. split; [exact (reach_in h n m C T Dm)|]. intros k Hk. exact (reach_part h n m k Dm Hk).
Qed.
Theorem deserialize_succeeds t h out x : closed h -> there h x -> object t out ->
  (forall n, x = Some n -> apart h n (held out)) -> (snd (deserialize t h out x) = true <-> fits h t x).
Proof.
  intros C T O A. apply (deserialize_ends h (of_document h x) C (document_parts h x C T) t h [] out x); [apply frame_refl | intros m [] | | | exact O].
  - intros m ->. constructor.
  - intros m Hm Dm. destruct x as [n|]; [|destruct Dm]. exact (A n eq_refl m Hm Dm).
Qed.
Theorem patch_succeeds t h out x : closed h -> there h x -> object t out ->
  (forall n, x = Some n -> apart h n (held out)) -> (snd (patch t h out x) = true <-> fits_patch h t x).
Proof.
  intros C T O A. apply (patch_ends h (of_document h x) C (document_parts h x C T) t h [] out x); [apply frame_refl | intros m [] | | | exact O].
  - intros m ->. constructor.
  - intros m Hm Dm. destruct x as [n|]; [|destruct Dm]. exact (A n eq_refl m Hm Dm).
Qed.
