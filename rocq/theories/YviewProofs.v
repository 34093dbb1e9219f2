From Coq Require Import List Arith Bool String Lia.
From Verif Require Import Base YviewModel YviewSpec.
Import ListNotations.

Lemma ty_ind' (P : ty -> Prop) :
  P TString -> P TView -> (forall t, P t -> P (TSeq t)) -> (forall t, P t -> P (TMap t)) -> (forall t, P t -> P (TOpt t)) ->
  (forall l, Forall P l -> P (TTuple l)) -> (forall ns l, Forall P l -> P (TStruct ns l)) -> forall t, P t.
Proof.
  intros A B C D E F G. fix self 1. intros [| |t|t|t|l|ns l].
  - exact A. - exact B. - apply C, self. - apply D, self. - apply E, self.
  - apply F. induction l as [|t l IH]; constructor; [apply self | exact IH].
  - apply G. induction l as [|t l IH]; constructor; [apply self | exact IH].
Qed.

(** * What changes *)

Definition frame (h h' : heap) (ns : list nat) : Prop :=
  (exists extra, h_data h' = h_data h ++ extra) /\ List.length (h_ref h) <= List.length (h_ref h') /\
  (forall n, n < List.length (h_ref h) -> ~ In n ns -> ref_of h' n = ref_of h n).

Lemma frame_refl h ns : frame h h ns.
Proof. split; [exists []; now rewrite app_nil_r|]. split; [lia | reflexivity]. Qed.
Lemma frame_trans h h1 h2 a b : frame h h1 a -> frame h1 h2 b -> frame h h2 (a ++ b).
Proof.
  intros ([e1 E1] & L1 & R1) ([e2 E2] & L2 & R2). split; [exists (e1 ++ e2); now rewrite E2, E1, app_assoc|].
  split; [lia|]. intros n Hn Hi. rewrite in_app_iff in Hi. rewrite R2, R1; [reflexivity | lia | tauto | lia | tauto].
Qed.
Lemma frame_weaken h h' a b : frame h h' a -> incl a b -> frame h h' b.
Proof. intros (E & L & R) I. split; [exact E|]. split; [exact L|]. intros n Hn Hi. apply R; [exact Hn|]. intros X. apply Hi, I, X. Qed.

Lemma nth_upd_ne (l : list nat) i j v d : i <> j -> nth j (upd l i v) d = nth j l d.
Proof.
  revert i j. induction l as [|x l IH]; intros i j H; [reflexivity|].
  destruct i as [|i], j as [|j]; cbn; try reflexivity; [contradiction|]. apply IH. lia.
Qed.
Lemma nth_upd_eq (l : list nat) i v d : i < List.length l -> nth i (upd l i v) d = v.
Proof. revert i. induction l as [|x l IH]; intros [|i] H; cbn in *; try lia; apply IH; lia. Qed.

Lemma set_ref_frame h m n : frame h (set_ref h m n) [m].
Proof.
  split; [exists []; cbn; now rewrite app_nil_r|]. split; [cbn; rewrite length_upd; lia|].
  intros k _ Hk. unfold ref_of, set_ref. cbn. apply nth_upd_ne. intros ->. apply Hk. now left.
Qed.
Lemma new_null_frame h : frame h (fst (new_null h)) [].
Proof.
  split; [exists [Null]; reflexivity|]. split; [cbn; rewrite app_length; lia|].
  intros n Hn _. unfold ref_of. cbn. now rewrite app_nth1.
Qed.

Definition handle_nodes (x : handle) : list nat := match x with Some n => [n] | None => [] end.

Lemma assign_node_frame h x y : frame h (fst (assign_node h x y)) (handle_nodes x).
Proof.
  unfold assign_node. destruct y as [n|].
  - destruct x as [m|]; [|apply frame_refl]. destruct (Nat.eqb _ _); [apply frame_refl|]. apply set_ref_frame.
  - pose proof (new_null_frame h) as F. destruct (new_null h) as [h1 n]. cbn [fst] in F.
    destruct x as [m|]; cbn [assign_to fst]; [|exact F].
    exact (frame_trans _ _ _ _ _ F (set_ref_frame h1 m n)).
Qed.

Lemma assign_frame t : forall h x y, frame h (fst (assign t h x y)) (held x).
Proof.
  induction t as [| |t IH|t IH|t IH|l IH|ns l IH] using ty_ind'; intros h x y; cbn [assign]; try apply frame_refl.
  - destruct x as [|a| | | |], y as [|b| | | |]; try apply frame_refl.
    pose proof (assign_node_frame h a b) as F. destruct (assign_node h a b) as [h' c]. exact F.
  - destruct x as [| | | |[a|]|], y as [| | | |[b|]|]; try apply frame_refl.
    specialize (IH h a b). destruct (assign t h a b) as [h' c]. exact IH.
  - destruct x as [| | | | |xs], y as [| | | | |ys]; try apply frame_refl. cbn [held].
    enough (X : frame h (fst (assign_all assign l h xs ys)) (flat_map held xs)) by now destruct (assign_all assign l h xs ys).
    revert h xs ys. induction IH as [|t ts Ht _ IHts]; intros h xs ys; cbn; [apply frame_refl|].
    destruct xs as [|x xs], ys as [|y ys]; try apply frame_refl.
    specialize (Ht h x y). destruct (assign t h x y) as [h1 v]. specialize (IHts h1 xs ys).
    destruct (assign_all assign ts h1 xs ys) as [h2 vs]. exact (frame_trans _ _ _ _ _ Ht IHts).
  - destruct x as [| | | | |xs], y as [| | | | |ys]; try apply frame_refl. cbn [held].
    enough (X : frame h (fst (assign_all assign l h xs ys)) (flat_map held xs)) by now destruct (assign_all assign l h xs ys).
    revert h xs ys. induction IH as [|t ts Ht _ IHts]; intros h xs ys; cbn; [apply frame_refl|].
    destruct xs as [|x xs], ys as [|y ys]; try apply frame_refl.
    specialize (Ht h x y). destruct (assign t h x y) as [h1 v]. specialize (IHts h1 xs ys).
    destruct (assign_all assign ts h1 xs ys) as [h2 vs]. exact (frame_trans _ _ _ _ _ Ht IHts).
Qed.

Lemma held_default t : held (default t) = [].
Proof.
  induction t as [| |t IH|t IH|t IH|l IH|ns l IH] using ty_ind'; try reflexivity; cbn;
    (induction IH as [|t ts Ht _ IHts]; [reflexivity | cbn; now rewrite Ht, IHts]).
Qed.
Lemma views_default t : views (default t) = [].
Proof.
  induction t as [| |t IH|t IH|t IH|l IH|ns l IH] using ty_ind'; try reflexivity; cbn;
    (induction IH as [|t ts Ht _ IHts]; [reflexivity | cbn; now rewrite Ht, IHts]).
Qed.

Lemma in_place_frame f src l : Forall (fun t => forall h out x, frame h (fst (fst (f t h out x))) (held out)) l ->
  forall i h xs, frame h (fst (fst (in_place f src l i h xs))) (flat_map held xs).
Proof.
  induction 1 as [|t ts Ht _ IH]; intros i h xs; cbn; [apply frame_refl|].
  destruct xs as [|x xs]; [apply frame_refl|]. destruct (src i h) as [y|].
  - specialize (Ht h x y). destruct (f t h x y) as [[h1 v] ok]. cbn [fst] in Ht. destruct ok; cbn [flat_map].
    + specialize (IH (S i) h1 xs). destruct (in_place f src ts (S i) h1 xs) as [[h2 vs] ok]. exact (frame_trans _ _ _ _ _ Ht IH).
    + apply (frame_weaken _ _ _ _ Ht). apply incl_appl, incl_refl.
  - specialize (IH (S i) h xs). destruct (in_place f src ts (S i) h xs) as [[h2 vs] ok].
    apply (frame_weaken _ _ _ _ IH). cbn. apply incl_appr, incl_refl.
Qed.

Lemma push_all_frame f : (forall h x, frame h (fst (fst (f h x))) []) ->
  forall l h acc, frame h (fst (fst (push_all f l h acc))) [].
Proof.
  intros F. induction l as [|n l IH]; intros h acc; cbn; [apply frame_refl|].
  specialize (F h (Some n)). destruct (f h (Some n)) as [[h1 v] ok]. destruct ok; [|exact F].
  exact (frame_trans _ _ _ _ _ F (IH h1 _)).
Qed.
Lemma emplace_all_frame f : (forall h x, frame h (fst (fst (f h x))) []) ->
  forall l h acc, frame h (fst (fst (emplace_all f l h acc))) [].
Proof.
  intros F. induction l as [|[k n] l IH]; intros h acc; cbn; [apply frame_refl|].
  destruct (content_of h k); try apply frame_refl.
  specialize (F h (Some n)). destruct (f h (Some n)) as [[h1 v] ok]. destruct ok; [|exact F].
  exact (frame_trans _ _ _ _ _ F (IH h1 _)).
Qed.

Theorem deserialize_frame t : forall h out x, frame h (fst (fst (deserialize t h out x))) (held out).
Proof.
  induction t as [| |t IH|t IH|t IH|l IH|ns l IH] using ty_ind'; intros h out x; cbn [deserialize].
  - destruct (shows h x); apply frame_refl.
  - destruct out as [|a| | | |]; try apply frame_refl. pose proof (assign_node_frame h a x) as F.
    destruct (assign_node h a x) as [h' c]. exact F.
  - destruct (shows h x); try apply frame_refl. eapply frame_weaken; [apply push_all_frame|intros ? []].
    intros h' y. specialize (IH h' (default t) y). now rewrite held_default in IH.
  - destruct (shows h x); try apply frame_refl. eapply frame_weaken; [apply emplace_all_frame|intros ? []].
    intros h' y. specialize (IH h' (default t) y). now rewrite held_default in IH.
  - assert (X : frame h (fst (fst (let '(h1, v, ok) := deserialize t h (default t) x in
          if ok then
            match out with
            | VOpt (Some a) => let (h2, c) := assign t h1 a v in (h2, VOpt (Some c), true)
            | _ => (h1, VOpt (Some v), true)
            end
          else (h1, out, false)))) (held out)).
    { specialize (IH h (default t) x). rewrite held_default in IH.
      destruct (deserialize t h (default t) x) as [[h1 v] ok]. cbn [fst] in IH.
      destruct ok; [|apply (frame_weaken _ _ _ _ IH); intros ? []].
      assert (Y := frame_weaken _ _ _ (held out) IH (fun a F => match F with end)).
      destruct out as [| | | |[a|]|]; try exact Y.
      pose proof (assign_frame t h1 a v) as G. destruct (assign t h1 a v) as [h2 c].
      exact (frame_trans _ _ _ _ _ IH G). }
    destruct (shows h x); [apply frame_refl | exact X | exact X | exact X].
  - destruct (shows h x); try apply frame_refl. destruct out as [| | | | |xs]; try apply frame_refl.
    destruct (Nat.ltb _ _); [apply frame_refl|].
    pose proof (in_place_frame deserialize (fun i h => Some (at_index h x i)) l IH 0 h xs) as F.
    destruct (in_place _ _ _ _ _ _) as [[h' vs] ok]. exact F.
  - destruct (shows h x); try apply frame_refl; destruct out as [| | | | |xs]; try apply frame_refl.
    + destruct (Nat.ltb _ _); [apply frame_refl|].
      pose proof (in_place_frame deserialize (fun i h => Some (at_index h x i)) l IH 0 h xs) as F.
      destruct (in_place _ _ _ _ _ _) as [[h' vs] ok]. exact F.
    + pose proof (in_place_frame deserialize (fun i h => Some (field h x (nth i ns EmptyString))) l IH 0 h xs) as F.
      destruct (in_place _ _ _ _ _ _) as [[h' vs] ok]. exact F.
Qed.

Theorem patch_frame t : forall h out x, frame h (fst (fst (patch t h out x))) (held out).
Proof.
  induction t as [| |t IH|t IH|t IH|l IH|ns l IH] using ty_ind'; intros h out x; try apply deserialize_frame.
  - cbn [patch]. assert (X : frame h (fst (fst (match out with
          | VOpt (Some a) => let '(h1, v, ok) := patch t h a x in (h1, VOpt (Some v), ok)
          | _ => let '(h1, v, ok) := patch t h (default t) x in
                 if ok then (h1, VOpt (Some v), true) else (h1, out, false)
          end))) (held out)).
    { assert (Y : frame h (fst (fst (let '(h1, v, ok) := patch t h (default t) x in
                 if ok then (h1, VOpt (Some v), true) else (h1, out, false)))) []).
      { specialize (IH h (default t) x). rewrite held_default in IH.
        destruct (patch t h (default t) x) as [[h1 v] ok]. destruct ok; exact IH. }
      assert (Z := frame_weaken _ _ _ (held out) Y (fun a F => match F with end)).
      destruct out as [| | | |[a|]|]; try exact Z.
      specialize (IH h a x). destruct (patch t h a x) as [[h1 v] ok]. exact IH. }
    destruct (shows h x); [apply frame_refl | exact X | exact X | exact X].
  - assert (D := deserialize_frame (TStruct ns l) h out x).
    cbn [patch]. destruct (shows h x) eqn:E; try exact D. destruct out as [| | | | |xs]; try exact D.
    pose proof (in_place_frame patch (fun i h => match field h x (nth i ns EmptyString) with Some n => Some (Some n) | None => None end) l IH 0 h xs) as F.
    destruct (in_place _ _ _ _ _ _) as [[h' vs] ok]. exact F.
Qed.

(** * Documents *)

Lemma content_same h h' n : closed h -> n < List.length (h_ref h) -> (exists e, h_data h' = h_data h ++ e) ->
  ref_of h' n = ref_of h n -> content_of h' n = content_of h n.
Proof.
  intros C Hn [e E] R. unfold content_of. rewrite R, E. apply app_nth1. now apply C.
Qed.

Lemma reach_in h n m : closed h -> n < List.length (h_ref h) -> reach h n m -> m < List.length (h_ref h).
Proof. intros C Hn. induction 1 as [|m k _ IH K]; [exact Hn|]. exact (proj2 (C m IH) k K). Qed.

Lemma reach_trans h n m k : reach h n m -> reach h m k -> reach h n k.
Proof. intros A. induction 1 as [|j k _ IH K]; [exact A|]. exact (reach_part h n j k IH K). Qed.

Lemma frame_untouched h h' ns n : closed h -> n < List.length (h_ref h) -> frame h h' ns -> apart h n ns -> untouched h h' n.
Proof.
  intros C Hn (E & L & R) A.
  assert (X : forall m, reach h n m -> content_of h' m = content_of h m).
  { intros m K. apply content_same; [exact C | exact (reach_in h n m C Hn K) | exact E|]. apply R; [exact (reach_in h n m C Hn K)|].
    intros I. exact (A m I K). }
  split.
  - intros fuel. assert (Y : forall m, reach h n m -> read fuel h' m = read fuel h m); [|apply Y; constructor].
    induction fuel as [|f IH]; intros m K; [reflexivity|]. cbn [read]. rewrite (X m K).
    destruct (content_of h m) as [| |l|l] eqn:Ec; try reflexivity; f_equal; f_equal; apply map_ext_in.
    + intros k Hk. apply IH. apply (reach_part h n m k K). now rewrite Ec.
    + intros [k v] Hk. f_equal; apply IH; apply (reach_part h n m _ K); rewrite Ec; cbn; apply in_flat_map; exists (k, v); cbn; tauto.
  - intros m. split; intros K.
    + induction K as [|m k _ IH K]; [constructor|]. apply (reach_part h n m k IH). now rewrite <- (X m IH).
    + induction K as [|m k K' IH K]; [constructor|]. apply (reach_part h' n m k IH). now rewrite (X m K').
Qed.

Theorem deserialize_untouched t h out x n : closed h -> n < List.length (h_ref h) -> apart h n (held out) ->
  untouched h (fst (fst (deserialize t h out x))) n.
Proof. intros C Hn A. exact (frame_untouched _ _ _ _ C Hn (deserialize_frame t h out x) A). Qed.
Theorem patch_untouched t h out x n : closed h -> n < List.length (h_ref h) -> apart h n (held out) ->
  untouched h (fst (fst (patch t h out x))) n.
Proof. intros C Hn A. exact (frame_untouched _ _ _ _ C Hn (patch_frame t h out x) A). Qed.
Theorem assign_untouched t h a b n : closed h -> n < List.length (h_ref h) -> apart h n (held a) ->
  untouched h (fst (assign t h a b)) n.
Proof. intros C Hn A. exact (frame_untouched _ _ _ _ C Hn (assign_frame t h a b) A). Qed.

(** Documents stay closed. *)
Lemma set_ref_closed h m n : closed h -> n < List.length (h_ref h) -> closed (set_ref h m n).
Proof.
  intros C Hn k Hk. cbn [set_ref h_ref h_data] in *. rewrite length_upd in *.
  destruct (Nat.eq_dec m k) as [->|Hne].
  - assert (R : ref_of (set_ref h k n) k = ref_of h n) by (unfold ref_of at 1; cbn; now apply nth_upd_eq).
    unfold content_of. rewrite R. cbn [set_ref h_data]. exact (C n Hn).
  - assert (R : ref_of (set_ref h m n) k = ref_of h k) by (unfold ref_of at 1; cbn; now apply nth_upd_ne).
    unfold content_of. rewrite R. cbn [set_ref h_data]. exact (C k Hk).
Qed.
Lemma new_null_closed h : closed h -> closed (fst (new_null h)) /\ snd (new_null h) < List.length (h_ref (fst (new_null h))).
Proof.
  intros C. split; [|cbn; rewrite app_length; cbn; lia]. intros k Hk. cbn [new_null fst h_ref h_data] in *. rewrite !app_length in *. cbn [List.length] in *.
  destruct (Nat.eq_dec k (List.length (h_ref h))) as [->|Hne].
  - assert (R : ref_of (fst (new_null h)) (List.length (h_ref h)) = List.length (h_data h)).
    { unfold ref_of. cbn. rewrite app_nth2, Nat.sub_diag; [reflexivity | lia]. }
    unfold content_of. cbn [new_null fst] in *. rewrite R. cbn [h_data]. rewrite app_nth2, Nat.sub_diag; [|lia]. split; [lia | intros m []].
  - assert (Hk' : k < List.length (h_ref h)) by lia.
    assert (R : ref_of (fst (new_null h)) k = ref_of h k) by (unfold ref_of; cbn; now apply app_nth1).
    unfold content_of. cbn [new_null fst] in *. rewrite R. cbn [h_data]. destruct (C k Hk') as [C1 C2].
    split; [lia|]. intros m. rewrite app_nth1 by exact C1. intros Hm. specialize (C2 m Hm). lia.
Qed.

Lemma assign_node_closed h x y : closed h -> there h x -> there h y ->
  closed (fst (assign_node h x y)) /\ there (fst (assign_node h x y)) (snd (assign_node h x y)).
Proof.
  intros C X Y. unfold assign_node. destruct y as [n|]; cbn [there] in Y.
  - destruct x as [m|]; [|now split]. destruct (Nat.eqb _ _); [now split|]. cbn. split; [now apply set_ref_closed|].
    rewrite length_upd. exact Y.
  - destruct (new_null_closed h C) as [C1 L1]. destruct (new_null h) as [h1 n] eqn:E. cbn [fst snd] in C1, L1.
    destruct x as [m|]; cbn [assign_to fst snd there]; [|now split]. split; [now apply set_ref_closed|]. cbn. now rewrite length_upd.
Qed.

(** What a view shows afterwards: what the node shows. *)
Theorem view_shows h a x : closed h -> there h a -> there h x ->
  exists h' c, deserialize TView h (VView a) x = (h', VView (Some c), true) /\ c < List.length (h_ref h') /\
    (forall n, x = Some n -> content_of h' c = content_of h' n) /\ (x = None -> content_of h' c = Null).
Proof.
  intros C A X. cbn [deserialize]. unfold assign_node. destruct x as [n|]; cbn [there] in X.
  - destruct a as [m|]; cbn [there] in A.
    + destruct (Nat.eqb _ _) eqn:E.
      * exists h, m. apply Nat.eqb_eq in E. split; [reflexivity|]. split; [exact A|]. split; [|discriminate].
        intros k [= <-]. unfold content_of. now rewrite E.
      * exists (set_ref h m n), n. split; [reflexivity|]. split; [cbn; now rewrite length_upd|]. split; [now intros k [= <-] | discriminate].
    + exists h, n. split; [reflexivity|]. split; [exact X|]. split; [now intros k [= <-] | discriminate].
  - destruct (new_null_closed h C) as [C1 L1]. destruct (new_null h) as [h1 n] eqn:E. cbn [fst snd] in C1, L1.
    assert (N : ref_of h1 n = List.length (h_data h) /\ h_data h1 = h_data h ++ [Null] /\ n = List.length (h_ref h) /\ h_ref h1 = h_ref h ++ [List.length (h_data h)]).
    { unfold new_null in E. injection E as <- <-. unfold ref_of. cbn. rewrite app_nth2, Nat.sub_diag by lia. repeat split; reflexivity. }
    destruct N as (N1 & N2 & N3 & N4).
    assert (Z : content_of h1 n = Null). { unfold content_of. now rewrite N1, N2, app_nth2, Nat.sub_diag by lia. }
    destruct a as [m|]; cbn [assign_to].
    + exists (set_ref h1 m n), n. split; [reflexivity|]. split; [cbn; now rewrite length_upd|]. split; [discriminate|]. intros _.
      cbn [there] in A. unfold content_of. cbn [set_ref h_data].
      assert (R : ref_of (set_ref h1 m n) n = ref_of h1 n) by (unfold ref_of at 1; cbn; apply nth_upd_ne; lia).
      rewrite R. exact Z.
    + exists h1, n. split; [reflexivity|]. split; [exact L1|]. split; [discriminate | now intros _].
Qed.
