From Coq Require Import List Arith Bool String Lia.
From Verif Require Import Base YviewModel YviewSpec YviewProofs.
Import ListNotations.

(** A node of the document at [x]. *)
Definition of_document (h : heap) (x : handle) (n : nat) : Prop := match x with Some m => reach h m n | None => False end.

(** What views made from nothing show: nodes of the document, or new ones that are null. *)
Definition good (h : heap) (x : handle) (h' : heap) (ns : list nat) : Prop :=
  closed h' /\ frame h h' [] /\
  forall n, In n ns -> n < List.length (h_ref h') /\
    (of_document h x n \/ (List.length (h_ref h) <= n /\ content_of h' n = Null)).

Lemma frame_content h h' n : closed h -> frame h h' [] -> n < List.length (h_ref h) -> content_of h' n = content_of h n.
Proof. intros C (E & L & R) Hn. apply content_same; [exact C | exact Hn | exact E|]. apply R; [exact Hn | intros []]. Qed.
Lemma frame_reach h h' n m : closed h -> frame h h' [] -> n < List.length (h_ref h) -> reach h' n m <-> reach h n m.
Proof. intros C F Hn. apply (frame_untouched h h' [] n C Hn F). intros k []. Qed.
Lemma frame_length h h' ns : frame h h' ns -> List.length (h_ref h) <= List.length (h_ref h').
Proof. now intros (_ & L & _). Qed.

Lemma good_nil h x : closed h -> good h x h [].
Proof. intros C. split; [exact C|]. split; [apply frame_refl | intros n []]. Qed.

(** Steps one after the other: the second one reads a part of the same document. *)
Lemma good_seq h x h1 ns y h2 ms : closed h -> there h x -> good h x h1 ns ->
  (forall m, y = Some m -> of_document h x m) -> good h1 y h2 ms -> good h x h2 (ns ++ ms).
Proof.
  intros C T (C1 & F1 & N1) Y (C2 & F2 & N2). split; [exact C2|].
  split; [exact (frame_trans _ _ _ _ _ F1 F2)|]. pose proof (frame_length _ _ _ F1). pose proof (frame_length _ _ _ F2).
  intros n Hn. apply in_app_iff in Hn as [Hn|Hn].
  - destruct (N1 n Hn) as [L1 D]. split; [lia|]. destruct D as [D|[D1 D2]]; [now left|right]. split; [exact D1|].
    now rewrite (frame_content h1 h2 n C1 F2 L1).
  - destruct (N2 n Hn) as [L2 D]. split; [lia|]. destruct D as [D|[D1 D2]]; [|right; split; [lia | exact D2]].
    left. destruct y as [m|]; [|destruct D]. specialize (Y m eq_refl). destruct x as [k|]; [|destruct Y]. cbn in *.
    assert (Lm : m < List.length (h_ref h)) by exact (reach_in h k m C T Y).
    apply (frame_reach h h1 m n C F1 Lm) in D. exact (reach_trans h k m n Y D).
Qed.

Lemma part_of_document h x m : In m (inside (shows h x)) -> of_document h x m.
Proof. destruct x as [n|]; [|intros []]. intros H. exact (reach_part h n n m (reach_self h n) H). Qed.
Lemma part_there h x m : closed h -> there h x -> In m (inside (shows h x)) -> m < List.length (h_ref h).
Proof. destruct x as [n|]; [|intros _ _ []]. intros C T H. exact (proj2 (C n T) m H). Qed.

Lemma there_frame h h' x ns : frame h h' ns -> there h x -> there h' x.
Proof. intros F. pose proof (frame_length _ _ _ F). destruct x as [n|]; cbn; lia. Qed.
Lemma shows_frame h h' x : closed h -> frame h h' [] -> there h x -> shows h' x = shows h x.
Proof. intros C F T. destruct x as [n|]; [|reflexivity]. exact (frame_content h h' n C F T). Qed.

Definition fine (t : ty) : Prop :=
  forall h x, closed h -> there h x ->
    let '(h', v, _) := deserialize t h (default t) x in good h x h' (views v).

Lemma push_all_good t : fine t -> forall l h0 x h acc,
  closed h0 -> there h0 x -> incl l (inside (shows h0 x)) -> good h0 x h (flat_map views acc) ->
  let '(h', v, _) := push_all (fun h y => deserialize t h (default t) y) l h acc in good h0 x h' (views v).
Proof.
  intros F. induction l as [|n l IH]; intros h0 x h acc C0 T0 I G; cbn [push_all]; [exact G|].
  destruct G as (C & Fr & N).
  assert (In0 : In n (inside (shows h0 x))) by (apply I; now left).
  assert (Tn : there h (Some n)).
  { cbn. pose proof (part_there h0 x n C0 T0 In0). pose proof (frame_length _ _ _ Fr). lia. }
  specialize (F h (Some n) C Tn). destruct (deserialize t h (default t) (Some n)) as [[h1 v] ok].
  assert (G1 : good h0 x h1 (flat_map views acc ++ views v)).
  { apply (good_seq h0 x h _ (Some n)); [exact C0 | exact T0 | split; [exact C|split; [exact Fr | exact N]] | | exact F].
    intros m [= <-]. now apply part_of_document. }
  destruct ok.
  - apply (IH h0 x); [exact C0 | exact T0 | intros m Hm; apply I; now right|].
    rewrite flat_map_app. cbn [flat_map]. rewrite app_nil_r. exact G1.
  - destruct G1 as (Ca & Fa & Na). split; [exact Ca|]. split; [exact Fa|]. intros m Hm. apply Na, in_app_iff. now left.
Qed.

Lemma views_emplace k v acc : incl (views (VMap (emplace k v acc))) (views (VMap acc) ++ views v).
Proof.
  unfold emplace. cbn [views]. destruct (existsb _ acc); [apply incl_appl, incl_refl|].
  rewrite flat_map_app. cbn [flat_map]. rewrite app_nil_r. apply incl_refl.
Qed.
Lemma good_incl h x h' a b : good h x h' b -> incl a b -> good h x h' a.
Proof. intros (C & F & N) I. split; [exact C|]. split; [exact F|]. intros n Hn. apply N, I, Hn. Qed.

Lemma emplace_all_good t : fine t -> forall l h0 x h acc,
  closed h0 -> there h0 x -> incl (map snd l) (inside (shows h0 x)) -> good h0 x h (views (VMap acc)) ->
  let '(h', v, _) := emplace_all (fun h y => deserialize t h (default t) y) l h acc in good h0 x h' (views v).
Proof.
  intros F. induction l as [|[k n] l IH]; intros h0 x h acc C0 T0 I G; cbn [emplace_all]; [exact G|].
  destruct (content_of h k); try exact G.
  pose proof G as (C & Fr & N).
  assert (In0 : In n (inside (shows h0 x))) by (apply I; now left).
  assert (Tn : there h (Some n)).
  { cbn. pose proof (part_there h0 x n C0 T0 In0). pose proof (frame_length _ _ _ Fr). lia. }
  specialize (F h (Some n) C Tn). destruct (deserialize t h (default t) (Some n)) as [[h1 v] ok].
  assert (G1 : good h0 x h1 (views (VMap acc) ++ views v)).
  { apply (good_seq h0 x h _ (Some n)); [exact C0 | exact T0 | exact G | | exact F]. intros m [= <-]. now apply part_of_document. }
  destruct ok.
  - apply (IH h0 x); [exact C0 | exact T0 | intros m Hm; apply I; now right|].
    apply (good_incl _ _ _ _ _ G1), views_emplace.
  - apply (good_incl _ _ _ _ _ G1), incl_appl, incl_refl.
Qed.

(** The sources of members are parts of the document. *)
Lemma in_place_good src l : Forall fine l -> forall h0 x i h ns,
  closed h0 -> there h0 x ->
  (forall j h', frame h0 h' [] -> closed h' -> exists y, src j h' = Some y /\ forall m, y = Some m -> In m (inside (shows h0 x))) ->
  good h0 x h ns ->
  let '(h', vs, _) := in_place deserialize src l i h (map default l) in good h0 x h' (ns ++ flat_map views vs).
Proof.
  induction 1 as [|t ts Ht _ IH]; intros h0 x i h ns C0 T0 Hs G; cbn [in_place map].
  { cbn. rewrite app_nil_r. exact G. }
  pose proof G as (C & Fr & N). destruct (Hs i h Fr C) as (y & Ey & Iy). rewrite Ey.
  assert (Ty : there h y).
  { destruct y as [m|]; [|exact I]. cbn. pose proof (part_there h0 x m C0 T0 (Iy m eq_refl)). pose proof (frame_length _ _ _ Fr). lia. }
  specialize (Ht h y C Ty). destruct (deserialize t h (default t) y) as [[h1 v] ok].
  assert (G1 : good h0 x h1 (ns ++ views v)).
  { apply (good_seq h0 x h _ y); [exact C0 | exact T0 | exact G | | exact Ht]. intros m Hm. apply part_of_document, (Iy m Hm). }
  destruct ok.
  - specialize (IH h0 x (S i) h1 (ns ++ views v) C0 T0 Hs G1).
    destruct (in_place deserialize src ts (S i) h1 (map default ts)) as [[h2 vs] ok]. cbn [flat_map]. now rewrite app_assoc.
  - cbn [flat_map]. assert (Z : flat_map views (map default ts) = []).
    { clear. induction ts as [|t ts IH]; [reflexivity|]. cbn. now rewrite views_default, IH. }
    rewrite Z, app_nil_r. exact G1.
Qed.

Lemma at_index_inside h x i m : at_index h x i = Some m -> In m (inside (shows h x)).
Proof. unfold at_index. destruct (shows h x); try discriminate. cbn. apply nth_error_In. Qed.
Lemma field_inside h x k m : field h x k = Some m -> In m (inside (shows h x)).
Proof.
  unfold field. destruct (shows h x) as [| | |l]; try discriminate. destruct (find _ l) as [[a b]|] eqn:E; [|discriminate].
  intros [= <-]. apply find_some in E as [E _]. cbn. apply in_flat_map. exists (a, b). cbn. tauto.
Qed.

Theorem all_fine t : fine t.
Proof.
  induction t as [| |t IH|t IH|t IH|l IH|ns l IH] using ty_ind'; intros h x C T; cbn [deserialize default].
  - destruct (shows h x); now apply good_nil.
  - destruct (assign_node_closed h None x C I T) as [C1 T1]. pose proof (assign_node_frame h None x) as F. cbn [handle_nodes] in F.
    unfold assign_node, assign_to in *. destruct x as [n|].
    + cbn [fst snd] in *. split; [exact C1|]. split; [exact F|]. intros m [<-|[]]. split; [exact T1|]. left. constructor.
    + destruct (new_null h) as [h1 n] eqn:E. cbn [fst snd] in *. split; [exact C1|]. split; [exact F|]. intros m [<-|[]].
      split; [exact T1|]. right. unfold new_null in E. injection E as <- <-. split; [lia|]. unfold content_of, ref_of. cbn.
      rewrite (app_nth2 (h_ref h)), Nat.sub_diag by lia. cbn. now rewrite app_nth2, Nat.sub_diag by lia.
  - destruct (shows h x) eqn:E; try now apply good_nil.
    apply (push_all_good t IH l h x h []); [exact C | exact T | rewrite E; apply incl_refl | now apply good_nil].
  - destruct (shows h x) eqn:E; try now apply good_nil.
    apply (emplace_all_good t IH l h x h []); [exact C | exact T | | now apply good_nil].
    rewrite E. intros m Hm. apply in_map_iff in Hm as ([a b] & <- & Hm). cbn. apply in_flat_map. exists (a, b). cbn. tauto.
  - assert (X : let '(h', v, _) := let '(h1, v, ok) := deserialize t h (default t) x in
          if ok then (h1, VOpt (Some v), true) else (h1, VOpt None, false) in good h x h' (views v)).
    { specialize (IH h x C T). destruct (deserialize t h (default t) x) as [[h1 v] ok]. destruct ok; [exact IH|].
      apply (good_incl _ _ _ _ _ IH). intros m []. }
    destruct (shows h x); [now apply good_nil | exact X | exact X | exact X].
  - destruct (shows h x) as [| |s|] eqn:E; try (apply good_incl with (b := []); [now apply good_nil |
      change (views (VFixed (map default l))) with (views (default (TTuple l))); rewrite views_default; apply incl_refl]).
    destruct (Nat.ltb _ _).
    { apply good_incl with (b := []); [now apply good_nil |
      change (views (VFixed (map default l))) with (views (default (TTuple l))); rewrite views_default; apply incl_refl]. }
    pose proof (in_place_good (fun i h => Some (at_index h x i)) l IH h x 0 h [] C T) as G.
    destruct (in_place _ _ _ _ _ _) as [[h' vs] ok]. apply G; [|now apply good_nil].
    intros j h'' F _. eexists. split; [reflexivity|]. intros m Hm. apply at_index_inside in Hm. now rewrite (shows_frame h h'' x C F T) in Hm.
  - assert (D : good h x h (views (VFixed (map default l)))).
    { apply good_incl with (b := []); [now apply good_nil |
      change (views (VFixed (map default l))) with (views (default (TTuple l))); rewrite views_default; apply incl_refl]. }
    destruct (shows h x) as [| |s|s] eqn:E; try exact D.
    + destruct (Nat.ltb _ _); [exact D|].
      pose proof (in_place_good (fun i h => Some (at_index h x i)) l IH h x 0 h [] C T) as G.
      destruct (in_place _ _ _ _ _ _) as [[h' vs] ok]. apply G; [|now apply good_nil].
      intros j h'' F _. eexists. split; [reflexivity|]. intros m Hm. apply at_index_inside in Hm. now rewrite (shows_frame h h'' x C F T) in Hm.
    + pose proof (in_place_good (fun i h => Some (field h x (nth i ns EmptyString))) l IH h x 0 h [] C T) as G.
      destruct (in_place _ _ _ _ _ _) as [[h' vs] ok]. apply G; [|now apply good_nil].
      intros j h'' F _. eexists. split; [reflexivity|]. intros m Hm. apply field_inside in Hm. now rewrite (shows_frame h h'' x C F T) in Hm.
Qed.

Theorem deserialize_new t h x h' v ok : closed h -> there h x -> deserialize t h (default t) x = (h', v, ok) ->
  closed h' /\ (forall n, n < List.length (h_ref h) -> untouched h h' n) /\
  forall n, In n (views v) -> n < List.length (h_ref h') /\
    ((exists m, x = Some m /\ reach h m n) \/ (List.length (h_ref h) <= n /\ content_of h' n = Null)).
Proof.
  intros C T E. pose proof (all_fine t h x C T) as G. rewrite E in G. destruct G as (C' & F & N).
  split; [exact C'|]. split.
  - intros n Hn. apply (frame_untouched h h' [] n C Hn F). intros m [].
  - intros n Hn. destruct (N n Hn) as [L D]. split; [exact L|]. destruct D as [D|D]; [left | now right].
    destruct x as [m|]; [|destruct D]. now exists m.
Qed.

(** * The documents that do change *)

Theorem overwritten h m n : closed h -> m < List.length (h_ref h) -> n < List.length (h_ref h) ->
  let h' := fst (fst (deserialize TView h (VView (Some m)) (Some n))) in
  content_of h' m = content_of h n /\ forall k, k <> m -> content_of h' k = content_of h k.
Proof.
  intros C Hm Hn. cbn [deserialize]. unfold assign_node.
  destruct (Nat.eqb _ _) eqn:E; cbn [fst assign_to].
  - apply Nat.eqb_eq in E. split; [|reflexivity]. unfold content_of. now rewrite E.
  - assert (X : forall k, ref_of (set_ref h m n) k = if Nat.eqb m k then ref_of h n else ref_of h k).
    { intros k. destruct (Nat.eqb_spec m k) as [<-|Hk]; unfold ref_of at 1, set_ref; cbn.
      - now rewrite nth_upd_eq.
      - now rewrite nth_upd_ne. }
    unfold content_of. split.
    + rewrite X, Nat.eqb_refl. reflexivity.
    + intros k Hk. rewrite X. destruct (Nat.eqb_spec m k) as [<-|_]; [now destruct Hk | reflexivity].
Qed.
Theorem overwritten_missing h m : closed h -> m < List.length (h_ref h) ->
  content_of (fst (fst (deserialize TView h (VView (Some m)) None))) m = Null.
Proof.
  intros C Hm. cbn -[set_ref]. unfold content_of, ref_of. cbn. rewrite nth_upd_eq by (rewrite app_length; cbn; lia).
  rewrite (app_nth2 (h_ref h) [_]), Nat.sub_diag by lia. cbn. now rewrite app_nth2, Nat.sub_diag by lia.
Qed.

Lemma option_all_none {A} (l : list (option A)) : In None l -> option_all l = None.
Proof.
  induction l as [|o l IH]; intros H; [destruct H|]. cbn. destruct o as [a|]; [|reflexivity].
  destruct H as [H|H]; [discriminate|]. now rewrite (IH H).
Qed.
(** A node that is a part of itself is never read to the end. *)
Theorem own_part h n k : In k (inside (content_of h n)) -> content_of h k = content_of h n -> forall fuel, read fuel h n = None.
Proof.
  intros K E. assert (X : forall fuel m, content_of h m = content_of h n -> read fuel h m = None); [|intros fuel; now apply X].
  induction fuel as [|f IH]; intros m Em; [reflexivity|]. cbn. rewrite Em. destruct (content_of h n) as [|s|l|l] eqn:D; cbn in K; try tauto.
  - rewrite option_all_none; [reflexivity|]. apply in_map_iff. exists k. split; [now apply IH | exact K].
  - rewrite option_all_none; [reflexivity|]. apply in_flat_map in K as ([a b] & Ha & Hk). apply in_map_iff. exists (a, b). split; [|exact Ha].
    cbn in *. destruct Hk as [->|[->|[]]]; rewrite (IH k E); [reflexivity | now destruct (read f h a)].
Qed.
(** Assigning the whole to a view of a part of it. *)
Theorem part_becomes_the_whole h n k : closed h -> n < List.length (h_ref h) -> In k (inside (content_of h n)) -> n <> k ->
  forall fuel, read fuel (fst (fst (deserialize TView h (VView (Some k)) (Some n)))) n = None.
Proof.
  intros C Hn K N. assert (Hk : k < List.length (h_ref h)) by exact (proj2 (C n Hn) k K).
  destruct (overwritten h k n C Hk Hn) as [A B]. apply (own_part _ n k).
  - now rewrite (B n N).
  - now rewrite (B n N), A.
Qed.
