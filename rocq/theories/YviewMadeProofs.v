(** What deserialization makes of a document. *)
From Coq Require Import List Arith Bool String Lia.
From Verif Require Import Base YviewModel YviewSpec YviewProofs YviewFreshProofs YviewFitsProofs.
Import ListNotations.

Lemma made_later h h1 h2 t : closed h1 -> frame h1 h2 [] -> forall x v, made h h1 t x v -> made h h2 t x v.
Proof.
  intros C F. induction t as [| |t IH|t IH|t IH|l IH|names l IH] using ty_ind'; intros x v M; inversion M; subst; clear M.
  - now constructor.
  - constructor.
  - apply made_new_view; [pose proof (frame_length _ _ _ F); lia|]. rewrite (frame_content h1 h2 n C F); [assumption | lia].
  - eapply made_seq; [eassumption | assumption | eauto].
  - eapply made_map; [eassumption | assumption | assumption | eauto].
  - now constructor.
  - apply made_some; [assumption | now apply IH].
  - rewrite Forall_forall in IH. eapply made_tuple; [eassumption | assumption|]. intros i t v Et Ev.
    apply (IH t (nth_error_In _ _ Et)). eauto.
  - rewrite Forall_forall in IH. eapply made_fields; [eassumption | assumption|]. intros i t v y Et Ev N.
    apply (IH t (nth_error_In _ _ Et)). eauto.
  - rewrite Forall_forall in IH. eapply made_positions; [eassumption | assumption|]. intros i t v Et Ev.
    apply (IH t (nth_error_In _ _ Et)). eauto.
Qed.

Section Document.
Variables (h0 : heap).
Hypothesis closed0 : closed h0.

Definition makes (t : ty) : Prop :=
  forall h x h' v, closed h -> frame h0 h [] -> there h0 x -> deserialize t h (default t) x = (h', v, true) -> made h0 h' t x v.

Lemma goes_on t h x h' v ok : closed h -> frame h0 h [] -> there h0 x -> deserialize t h (default t) x = (h', v, ok) ->
  closed h' /\ frame h h' [] /\ frame h0 h' [].
Proof.
  intros C F T E. pose proof (all_fine t h x C (there_frame _ _ _ _ F T)) as G. rewrite E in G. destruct G as (C' & F' & _).
  split; [exact C'|]. split; [exact F' | exact (frame_trans _ _ _ _ _ F F')].
Qed.

Lemma push_all_makes t : makes t -> forall l h acc h' v,
  closed h -> frame h0 h [] -> (forall n, In n l -> n < List.length (h_ref h0)) ->
  push_all (fun h y => deserialize t h (default t) y) l h acc = (h', v, true) ->
  closed h' /\ frame h h' [] /\ exists vs, v = VSeq (acc ++ vs) /\ List.length vs = List.length l /\
    forall i n v, nth_error l i = Some n -> nth_error vs i = Some v -> made h0 h' t (Some n) v.
Proof.
  intros M. induction l as [|n l IH]; intros h acc h' v C F L E; cbn [push_all] in E.
  { injection E as <- <-. split; [exact C|]. split; [apply frame_refl|]. exists []. rewrite app_nil_r. split; [reflexivity|]. split; [reflexivity|].
    intros [|i] n v; discriminate. }
  destruct (deserialize t h (default t) (Some n)) as [[h1 w] ok] eqn:Ed. destruct ok; [|discriminate].
  assert (Tn : there h0 (Some n)) by (apply L; now left).
  destruct (goes_on t h (Some n) h1 w true C F Tn Ed) as (C1 & F1 & F01).
  destruct (IH h1 (acc ++ [w]) h' v C1 F01 ltac:(intros m Hm; apply L; now right) E) as (C' & F' & vs & -> & Lv & A).
  split; [exact C'|]. split; [exact (frame_trans _ _ _ _ _ F1 F')|]. exists (w :: vs).
  rewrite <- app_assoc. split; [reflexivity|]. split; [cbn; now rewrite Lv|].
  intros [|i] m u Em Eu; cbn in Em, Eu; [|exact (A i m u Em Eu)]. injection Em as <-. injection Eu as <-.
  exact (made_later h0 h1 h' t C1 F' _ _ (M h (Some n) h1 w C F Tn Ed)).
Qed.

Lemma in_place_makes src (Q : nat -> handle) l : Forall makes l ->
  (forall h i, closed h -> frame h0 h [] -> src i h = Some (Q i)) -> (forall i, there h0 (Q i)) ->
  forall i h h' vs, closed h -> frame h0 h [] -> in_place deserialize src l i h (map default l) = (h', vs, true) ->
  closed h' /\ frame h h' [] /\ List.length vs = List.length l /\
    forall j t v, nth_error l j = Some t -> nth_error vs j = Some v -> made h0 h' t (Q (i + j)) v.
Proof.
  intros M Sr Qt. induction M as [|t ts Mt _ IH]; intros i h h' vs C F E; cbn [in_place map] in E.
  { injection E as <- <-. split; [exact C|]. split; [apply frame_refl|]. split; [reflexivity|]. intros [|j] t v; discriminate. }
  rewrite (Sr h i C F) in E. destruct (deserialize t h (default t) (Q i)) as [[h1 w] ok] eqn:Ed. destruct ok; [|discriminate].
  destruct (goes_on t h (Q i) h1 w true C F (Qt i) Ed) as (C1 & F1 & F01).
  destruct (in_place deserialize src ts (S i) h1 (map default ts)) as [[h2 ws] ok] eqn:Ei. injection E as -> <- ->.
  destruct (IH (S i) h1 h' ws C1 F01 Ei) as (C' & F' & Lw & A).
  split; [exact C'|]. split; [exact (frame_trans _ _ _ _ _ F1 F')|]. split; [cbn; now rewrite Lw|].
  intros [|j] u v Eu Ev; cbn in Eu, Ev.
  - injection Eu as <-. injection Ev as <-. rewrite Nat.add_0_r. exact (made_later h0 h1 h' t C1 F' _ _ (Mt h (Q i) h1 w C F (Qt i) Ed)).
  - replace (i + S j) with (S i + j) by lia. exact (A j u v Eu Ev).
Qed.

(** Keys that are there already stay: what has been made of the entries [p] before the others. *)
Definition entries (h' : heap) (t : ty) (p : list (nat * nat)) (es : list (string * value)) : Prop :=
  NoDup (map fst es) /\ (forall s, In s (map fst es) <-> exists n, named h0 s p (Some n)) /\
  (forall s v n, In (s, v) es -> named h0 s p (Some n) -> made h0 h' t (Some n) v).
Lemma named_app s p q n : named h0 s (p ++ q) (Some n) <-> named h0 s p (Some n) \/ (named h0 s p None /\ named h0 s q (Some n)).
Proof.
  induction p as [|[k m] p IH]; cbn [app].
  - split; [intros A; right; split; [constructor | exact A] | intros [A|[_ A]]; [inversion A | exact A]].
  - split.
    + intros A. inversion A as [|k' n' l E|k' n' l x E A']; subst; [left; now apply named_this|].
      apply IH in A' as [A'|[A1 A2]]; [left; now apply named_later | right; split; [now apply named_later | exact A2]].
    + intros [A|[A1 A2]].
      * inversion A as [|k' n' l E|k' n' l x E A']; subst; [now apply named_this|]. apply named_later; [exact E|]. apply IH. now left.
      * inversion A1 as [| |k' n' l x E A']; subst. apply named_later; [exact E|]. apply IH. now right.
Qed.
Lemma named_total s p : (exists n, named h0 s p (Some n)) \/ named h0 s p None.
Proof.
  induction p as [|[k m] p IH]; [right; constructor|].
  assert (X : content_of h0 k = Scalar s \/ content_of h0 k <> Scalar s).
  { destruct (content_of h0 k) as [|s'| |]; try (right; discriminate). destruct (string_dec s' s) as [->|N]; [now left | right; congruence]. }
  destruct X as [X|X]; [left; exists m; now apply named_this|].
  destruct IH as [[n A]|A]; [left; exists n; now apply named_later | right; now apply named_later].
Qed.
Lemma existsb_in s (es : list (string * value)) : existsb (fun e => String.eqb (fst e) s) es = true <-> In s (map fst es).
Proof.
  rewrite existsb_exists, in_map_iff. split; intros (e & A & B); exists e; [apply String.eqb_eq in B; tauto | split; [tauto | now apply String.eqb_eq]].
Qed.
Lemma entries_emplace h' t p es k n s v : entries h' t p es -> content_of h0 k = Scalar s -> made h0 h' t (Some n) v ->
  entries h' t (p ++ [(k, n)]) (emplace s v es).
Proof.
  intros (ND & Ks & Ms) E M. unfold emplace. destruct (existsb _ es) eqn:X.
  - apply existsb_in in X. split; [exact ND|]. split.
    + intros s'. rewrite Ks. split; intros [m A].
      * exists m. apply named_app. now left.
      * apply named_app in A as [A|[A1 A2]]; [now exists m|]. inversion A2 as [|k' n' l E'|k' n' l x E' A']; subst; [|inversion A'].
        rewrite E in E'. injection E' as <-. apply Ks in X as [n' A']. now pose proof (named_one _ _ _ _ _ A1 A').
    + intros s' w m I A. apply named_app in A as [A|[A1 A2]]; [exact (Ms s' w m I A)|].
      assert (I' : In s' (map fst es)) by (apply in_map_iff; now exists (s', w)). apply Ks in I' as [n' A']. now pose proof (named_one _ _ _ _ _ A1 A').
  - assert (N : ~ In s (map fst es)) by (rewrite <- existsb_in; congruence).
    assert (Np : named h0 s p None). { destruct (named_total s p) as [A|A]; [now apply Ks in A | exact A]. }
    split.
    + rewrite map_app. cbn. apply (NoDup_Add (Add_app s (map fst es) [])). rewrite app_nil_r. now split.
    + split.
      * intros s'. rewrite map_app, in_app_iff, Ks. cbn. split.
        -- intros [[m A]|[<-|[]]]; [exists m; apply named_app; now left|]. exists n. apply named_app. right. split; [exact Np | now apply named_this].
        -- intros [m A]. apply named_app in A as [A|[A1 A2]]; [left; now exists m|]. right. left.
           inversion A2 as [|k' n' l E'|k' n' l x E' A']; subst; [congruence | inversion A'].
      * intros s' w m I A. apply in_app_iff in I as [I|[[= <- <-]|[]]].
        -- apply named_app in A as [A|[A1 A2]]; [exact (Ms s' w m I A)|].
           assert (I' : In s' (map fst es)) by (apply in_map_iff; now exists (s', w)). apply Ks in I' as [n' A']. now pose proof (named_one _ _ _ _ _ A1 A').
        -- apply named_app in A as [A|[A1 A2]]; [now pose proof (named_one _ _ _ _ _ Np A)|].
           inversion A2 as [|k' n' l E'|k' n' l x E' A']; subst; [exact M | inversion A'].
Qed.
Lemma emplace_all_makes t : makes t -> forall l p h acc h' v,
  closed h -> frame h0 h [] -> (forall k n, In (k, n) l -> k < List.length (h_ref h0) /\ n < List.length (h_ref h0)) -> entries h t p acc ->
  emplace_all (fun h y => deserialize t h (default t) y) l h acc = (h', v, true) ->
  closed h' /\ frame h h' [] /\ exists es, v = VMap es /\ entries h' t (p ++ l) es.
Proof.
  intros M. induction l as [|[k n] l IH]; intros p h acc h' v C F L En E; cbn [emplace_all] in E.
  { injection E as <- <-. split; [exact C|]. split; [apply frame_refl|]. exists acc. rewrite app_nil_r. split; [reflexivity | exact En]. }
  destruct (L k n (or_introl eq_refl)) as [Lk Ln]. rewrite (frame_content h0 h k closed0 F Lk) in E.
  destruct (content_of h0 k) as [|s| |] eqn:Ek; try discriminate.
  destruct (deserialize t h (default t) (Some n)) as [[h1 w] ok] eqn:Ed. destruct ok; [|discriminate].
  destruct (goes_on t h (Some n) h1 w true C F Ln Ed) as (C1 & F1 & F01).
  assert (En1 : entries h1 t p acc).
  { destruct En as (A & B & D). split; [exact A|]. split; [exact B|]. intros s' u m I N. exact (made_later h0 h h1 t C F1 _ _ (D s' u m I N)). }
  destruct (IH (p ++ [(k, n)]) h1 (emplace s w acc) h' v C1 F01 ltac:(intros a b Hab; apply L; now right)
    (entries_emplace h1 t p acc k n s w En1 Ek (M h (Some n) h1 w C F Ln Ed)) E) as (C' & F' & es & -> & Ee).
  split; [exact C'|]. split; [exact (frame_trans _ _ _ _ _ F1 F')|]. exists es. split; [reflexivity|]. now rewrite <- app_assoc in Ee.
Qed.

Lemma there_nth x l i : there h0 x -> shows h0 x = Seq l -> there h0 (nth_error l i).
Proof.
  intros T E. destruct (nth_error l i) as [m|] eqn:N; [|exact I]. cbn. apply (part_there h0 x m closed0 T). rewrite E. exact (nth_error_In _ _ N).
Qed.
Lemma there_entries x l : there h0 x -> shows h0 x = Map l -> forall k n, In (k, n) l -> k < List.length (h_ref h0) /\ n < List.length (h_ref h0).
Proof.
  intros T E k n H. split; apply (part_there h0 x _ closed0 T); rewrite E; cbn; apply in_flat_map; exists (k, n); cbn; tauto.
Qed.
Lemma field_frame h x name : frame h0 h [] -> there h0 x -> field h x name = field h0 x name.
Proof.
  intros F T. unfold field. rewrite (shows_frame h0 h x closed0 F T). destruct (shows h0 x) as [| | |l] eqn:E; try reflexivity.
  f_equal. assert (X : forall kv, In kv l -> key_is h name kv = key_is h0 name kv).
  { intros [k n] H. unfold key_is. cbn [fst]. now rewrite (frame_content h0 h k closed0 F (proj1 (there_entries x l T E k n H))). }
  clear E. induction l as [|kv l IH]; [reflexivity|]. cbn. rewrite (X kv (or_introl eq_refl)).
  destruct (key_is h0 name kv); [reflexivity|]. apply IH. intros e He. apply X. now right.
Qed.
Lemma field_is_named x l name : there h0 x -> shows h0 x = Map l -> named h0 name l (field h0 x name).
Proof.
  intros T E. unfold field. rewrite E.
  apply (named_find h0 (fun m => m < List.length (h_ref h0)) closed0 ltac:(intros m Hm; split; [exact Hm | exact (proj2 (closed0 m Hm))]) h0 []);
    [apply frame_refl | intros m [] |].
  intros k n H. exact (proj1 (there_entries x l T E k n H)).
Qed.

Theorem deserialize_makes t : makes t.
Proof.
  induction t as [| |t IH|t IH|t IH|l IH|names l IH] using ty_ind'; intros h x h' v C F T E; cbn [deserialize default] in E;
    try rewrite (shows_frame h0 h x closed0 F T) in E.
  - destruct (shows h0 x) as [|s| |] eqn:Es; try discriminate. injection E as <- <-. now constructor.
  - pose proof (goes_on TView h x h' v true C F T E) as (C' & F' & F0'). unfold assign_node, assign_to in E. destruct x as [n|].
    + injection E as <- <-. constructor.
    + destruct (new_null h) as [h1 n] eqn:En. injection E as <- <-. unfold new_null in En. injection En as <- <-.
      pose proof (frame_length _ _ _ F). apply made_new_view; [cbn; rewrite app_length; cbn; lia|].
      unfold content_of, ref_of. cbn. rewrite (app_nth2 (h_ref h)), Nat.sub_diag by lia. cbn. now rewrite app_nth2, Nat.sub_diag by lia.
  - destruct (shows h0 x) as [| |l|] eqn:Es; try discriminate.
    destruct (push_all_makes t IH l h [] h' v C F ltac:(intros n Hn; apply (part_there h0 x n closed0 T); now rewrite Es) E) as (C' & F' & vs & -> & Lv & A).
    now apply made_seq with l.
  - destruct (shows h0 x) as [| | |l] eqn:Es; try discriminate.
    destruct (emplace_all_makes t IH l [] h [] h' v C F (there_entries x l T Es)
      ltac:(split; [constructor|]; split; [intros s; split; [intros [] | intros [n A]; inversion A] | intros s w n []]) E) as (C' & F' & es & -> & A & B & D).
    now apply made_map with l.
  - assert (X : forall h1 w ok, deserialize t h (default t) x = (h1, w, ok) -> shows h0 x <> Null ->
       (if ok then (h1, VOpt (Some w), true) else (h1, VOpt None, false)) = (h', v, true) -> made h0 h' (TOpt t) x v).
    { intros h1 w ok Ed N X. destruct ok; [|discriminate]. injection X as <- <-. apply made_some; [exact N|]. exact (IH h x h1 w C F T Ed). }
    destruct (deserialize t h (default t) x) as [[h1 w] ok].
    destruct (shows h0 x) eqn:Es; [injection E as <- <-; now constructor|..]; (apply (X h1 w ok eq_refl); [congruence | exact E]).
  - destruct (shows h0 x) as [| |s|] eqn:Es; try discriminate. destruct (Nat.ltb _ _); [discriminate|].
    destruct (in_place _ _ _ _ _ _) as [[h1 vs] ok] eqn:Ei. injection E as -> <- ->.
    destruct (in_place_makes (fun i h => Some (at_index h x i)) (nth_error s) l IH
      ltac:(intros g i Cg Fg; unfold at_index; now rewrite (shows_frame h0 g x closed0 Fg T), Es)
      ltac:(intros i; exact (there_nth x s i T Es)) 0 h h' vs C F Ei) as (_ & _ & Lv & A).
    now apply made_tuple with s.
  - destruct (shows h0 x) as [| |s|s] eqn:Es; try discriminate.
    + destruct (Nat.ltb _ _); [discriminate|].
      destruct (in_place _ _ _ _ _ _) as [[h1 vs] ok] eqn:Ei. injection E as -> <- ->.
      destruct (in_place_makes (fun i h => Some (at_index h x i)) (nth_error s) l IH
        ltac:(intros g i Cg Fg; unfold at_index; now rewrite (shows_frame h0 g x closed0 Fg T), Es)
        ltac:(intros i; exact (there_nth x s i T Es)) 0 h h' vs C F Ei) as (_ & _ & Lv & A).
      now apply made_positions with s.
    + destruct (in_place _ _ _ _ _ _) as [[h1 vs] ok] eqn:Ei. injection E as -> <- ->.
      destruct (in_place_makes (fun i h => Some (field h x (nth i names EmptyString))) (fun i => field h0 x (nth i names EmptyString)) l IH
        ltac:(intros g i Cg Fg; apply (f_equal (@Some handle)); exact (field_frame g x _ Fg T))
        ltac:(intros i; destruct (field h0 x (nth i names EmptyString)) as [m|] eqn:Em; [exact (part_there h0 x m closed0 T (field_inside h0 x _ m Em)) | exact I])
        0 h h' vs C F Ei) as (_ & _ & Lv & A).
      apply made_fields with s; [exact Es | exact Lv|]. intros i t v y Et Ev N.
      rewrite (named_one _ _ _ _ _ N (field_is_named x s _ T Es)). exact (A i t v Et Ev).
Qed.
End Document.

Theorem new_object t h x h' v : closed h -> there h x -> deserialize t h (default t) x = (h', v, true) -> made h h' t x v.
Proof. intros C T E. exact (deserialize_makes h C t h x h' v C (frame_refl h []) T E). Qed.

(** * Patches leave out what the document leaves out *)
Lemma in_place_kept h0 D f src l : (forall t h out x, frame h (fst (fst (f t h out x))) (held out)) ->
  forall i h ns xs j v, nth_error xs j = Some v -> frame h0 h ns -> beside D ns -> beside D (flat_map held xs) ->
  (forall h' ns', frame h0 h' ns' -> beside D ns' -> src (i + j) h' = None) ->
  nth_error (snd (fst (in_place f src l i h xs))) j = Some v.
Proof.
  intros Fr. induction l as [|t l IH]; intros i h ns xs j v Ej F B Bx N; cbn [in_place]; [exact Ej|].
  destruct xs as [|x xs]; [exact Ej|]. cbn [flat_map] in Bx. apply beside_app in Bx as [Bx Bxs]. destruct j as [|j]; cbn in Ej.
  - rewrite Nat.add_0_r in N. rewrite (N h ns F B). destruct (in_place f src l (S i) h xs) as [[h2 vs] ok]. exact Ej.
  - assert (N' : forall h' ns', frame h0 h' ns' -> beside D ns' -> src (S i + j) h' = None)
      by (intros h'; replace (S i + j) with (i + S j) by lia; apply N).
    destruct (src i h) as [y|].
    + specialize (Fr t h x y). destruct (f t h x y) as [[h1 w] ok1]. destruct ok1; [|exact Ej].
      specialize (IH (S i) h1 (ns ++ held x) xs j v Ej (frame_trans _ _ _ _ _ F Fr) ltac:(now apply beside_app) Bxs N').
      destruct (in_place f src l (S i) h1 xs) as [[h2 vs] ok]. exact IH.
    + specialize (IH (S i) h ns xs j v Ej F B Bxs N'). destruct (in_place f src l (S i) h xs) as [[h2 vs] ok]. exact IH.
Qed.
Theorem patch_keeps names ts h xs x l i v : closed h -> there h x -> (forall n, x = Some n -> apart h n (held (VFixed xs))) ->
  shows h x = Map l -> nth_error xs i = Some v -> named h (nth i names EmptyString) l None ->
  exists vs, snd (fst (patch (TStruct names ts) h (VFixed xs) x)) = VFixed vs /\ nth_error vs i = Some v.
Proof.
  intros C T A E Ei N. cbn [patch]. rewrite E.
  assert (Y : from (of_document h x) x) by (intros m ->; constructor).
  assert (Bx : beside (of_document h x) (flat_map held xs)).
  { intros m Hm Dm. destruct x as [n|]; [|destruct Dm]. exact (A n eq_refl m Hm Dm). }
  pose proof (in_place_kept h (of_document h x) patch
    (fun i h => match field h x (nth i names EmptyString) with Some n => Some (Some n) | None => None end) ts patch_frame
    0 h [] xs i v Ei (frame_refl h []) (beside_nil _) Bx) as K.
  destruct (in_place _ _ _ _ _ _) as [[h' vs] ok]. exists vs. split; [reflexivity|]. apply K.
  intros h1 ns F B. pose proof (field_named h (of_document h x) C (document_parts h x C T) h1 ns x l (nth i names EmptyString) F B Y E) as Nf.
  cbn [Nat.add]. now rewrite <- (named_one _ _ _ _ _ N Nf).
Qed.
