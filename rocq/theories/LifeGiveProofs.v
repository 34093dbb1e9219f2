(** What is deserialized. *)
From Coq Require Import List Arith Bool Lia.
From Verif Require Import Base LifeModel LifeSpec LifeProofs LifeBackProofs.
Import ListNotations.

Lemma str_eqb_eq a : forall b, str_eqb a b = true <-> a = b.
Proof.
  induction a as [|x a IH]; intros [|y b]; cbn; split; try discriminate; try reflexivity.
  - intros H. apply andb_true_iff in H as [H1 H2]. apply Nat.eqb_eq in H1. apply IH in H2. now subst.
  - intros [= -> ->]. apply andb_true_iff. split; [apply Nat.eqb_refl | now apply IH].
Qed.
Lemma read_text_chars live t s : read_text live t = Ok s -> s = chars t.
Proof. destruct t; cbn; [congruence|..]; unfold at_region; destruct (live r); congruence. Qed.
Lemma first_one n l t u : first_named n l t -> first_named n l u -> t = u.
Proof. intros A. revert u. induction A as [|t l|m t l v N A IH]; intros u B; inversion B; subst; try reflexivity; try contradiction. now apply IH. Qed.
Definition member (e : text * value) : str * tree := (chars (fst e), contents (snd e)).
Lemma find_field_first live c n l p : find_field live c n l = Ok p -> first_named n (map member l) (contents (snd p)).
Proof.
  induction l as [|[t v] l IH]; cbn [find_field map]; [intros [= <-]; constructor|]. intros E. apply obind_inv in E as (s & Es & E).
  apply read_text_chars in Es. subst s. unfold member at 1. cbn [fst snd]. destruct (str_eqb (chars t) n) eqn:En.
  - injection E as <-. apply str_eqb_eq in En. subst n. constructor.
  - apply first_later; [|now apply IH]. intros X. apply str_eqb_eq in X. congruence.
Qed.
Lemma forall2_nth {A B} (P : A -> B -> Prop) l r : Forall2 P l r -> length r = length l /\ forall i x y, nth_error l i = Some x -> nth_error r i = Some y -> P x y.
Proof.
  induction 1 as [|x y l r H _ [L IH]]; [split; [reflexivity|]; intros [|i]; discriminate|]. split; [cbn; now rewrite L|].
  intros [|i] a b; cbn; [now intros [= <-] [= <-] | apply IH].
Qed.

Theorem deserialize_gives live ty : forall c v res, deserialize live ty c v = Ok res -> gives ty (contents v) res.
Proof.
  induction ty as [| | | |t IH|t IH|t IH|fs IH] using type_ind'; intros c v res E; cbn [deserialize] in E.
  1-3,5-8: apply obind_inv in E as (u & _ & E).
  - destruct v; try discriminate. injection E as <-. constructor.
  - destruct v as [|n|t|b l|b l]; try discriminate. apply obind_inv in E as (s & Es & [= <-]). apply read_text_chars in Es. subst s. constructor.
  - destruct v as [|n|t|b l|b l]; try discriminate. injection E as <-. constructor.
  - destruct v as [|n|x|b l|b l]; try discriminate. apply obind_inv in E as (rs & E & [= <-]). apply mapo_ok in E. apply forall2_nth in E as [L E].
    cbn [contents]. apply gives_seq; [now rewrite map_length|]. intros i x r Ex Er. rewrite nth_error_map in Ex.
    destruct (nth_error l i) as [w|] eqn:Ew; [|discriminate]. injection Ex as <-. exact (IH _ _ _ (E i w r Ew Er)).
  - destruct v as [|n|x|b l|b l]; try discriminate. apply obind_inv in E as (w & _ & E). apply obind_inv in E as (rs & E & [= <-]). apply mapo_ok in E.
    cbn [contents]. apply gives_map.
    + induction E as [|[nm x] y l rs H _ IHE]; [reflexivity|]. cbn [map fst snd]. rewrite IHE. f_equal.
      apply obind_inv in H as (s & Es & H). apply obind_inv in H as (r & _ & [= <-]). cbn [fst] in *. now apply read_text_chars in Es.
    + apply forall2_nth in E as [_ E]. intros i s x r Ex Er. rewrite nth_error_map in Ex. destruct (nth_error l i) as [[nm y]|] eqn:Ew; [|discriminate].
      injection Ex as <- <-. specialize (E i _ _ Ew Er). apply obind_inv in E as (s & _ & E). apply obind_inv in E as (r' & E & [= _ <-]). exact (IH _ _ _ E).
  - destruct v; [injection E as <-; constructor|..]; (apply gives_some; [discriminate | exact (IH _ _ _ E)]).
  - destruct v as [|n|x|b l|b l]; try discriminate. apply obind_inv in E as (w & _ & E). apply obind_inv in E as (rs & E & [= <-]). apply mapo_ok in E.
    apply forall2_nth in E as [L E]. cbn [contents]. apply gives_struct; [exact L|]. intros i n ty t r Ef Er F. specialize (E i _ _ Ef Er). cbn [fst snd] in E.
    apply obind_inv in E as (p & Ep & E). rewrite (first_one _ _ _ _ F (find_field_first live _ _ _ _ Ep)).
    rewrite Forall_forall in IH. exact (IH (n, ty) (nth_error_In _ _ Ef) _ _ _ E).
  - injection E as <-. constructor.
Qed.

(** ** Exceptions *)
Lemma mapo_throws {A B} (f : A -> outcome B) l : mapo f l = Throws -> exists i x, nth_error l i = Some x /\ f x = Throws.
Proof.
  induction l as [|x l IH]; cbn [mapo]; [discriminate|]. destruct (f x) as [y| |] eqn:F; cbn [obind]; [|intros _; now exists 0, x | discriminate].
  destruct (mapo f l) as [ys| |]; cbn [obind]; try discriminate. intros _. destruct (IH eq_refl) as (i & z & H). now exists (S i), z.
Qed.
Lemma obind_throws {A B} (x : outcome A) (f : A -> outcome B) : obind x f = Throws -> x = Throws \/ exists y, x = Ok y /\ f y = Throws.
Proof. destruct x; cbn; [right; eauto | now left | discriminate]. Qed.
Lemma region_throws {A} live r (x : A) : at_region live r x <> Throws.
Proof. unfold at_region. destruct (live r); discriminate. Qed.
Lemma buffer_throws {A} live b (x : A) : at_buffer live b x <> Throws.
Proof. destruct b; [apply region_throws | discriminate]. Qed.
Lemma text_throws live t : read_text live t <> Throws.
Proof. destruct t; [discriminate | apply region_throws..]. Qed.
Lemma find_throws live c n l : find_field live c n l <> Throws.
Proof.
  induction l as [|[t v] l IH]; cbn [find_field]; [discriminate|]. intros E. apply obind_throws in E as [E|(s & _ & E)]; [now apply text_throws in E|].
  destruct (str_eqb s n); [discriminate | now apply IH].
Qed.
Lemma nth_length {A B} (l : list A) (r : list B) i x : length r = length l -> nth_error l i = Some x -> exists y, nth_error r i = Some y.
Proof.
  intros L H. destruct (nth_error r i) as [y|] eqn:E; [now exists y|]. apply nth_error_None in E.
  assert (i < length l) by (apply nth_error_Some; congruence). lia.
Qed.

Theorem deserialize_refuses live ty : forall c v, deserialize live ty c v = Throws -> forall res, ~ gives ty (contents v) res.
Proof.
  induction ty as [| | | |t IH|t IH|t IH|fs IH] using type_ind'; intros c v E res G; cbn [deserialize] in E.
  1-3,5-8: apply obind_throws in E as [E|(u & _ & E)]; [now apply region_throws in E|].
  - inversion G; subst. destruct v; discriminate.
  - inversion G; subst. destruct v; try discriminate. apply obind_throws in E as [E|(s' & _ & E)]; [now apply text_throws in E | discriminate].
  - inversion G; subst. destruct v; discriminate.
  - inversion G as [| | | |ty l rs L F E1 E2| | | |]; subst. destruct v as [|n|x|b vs|b vs]; try discriminate. injection E2 as ->.
    apply obind_throws in E as [E|(s' & _ & E)]; [|discriminate]. apply mapo_throws in E as (i & w & Ew & E).
    assert (Et : nth_error (map contents vs) i = Some (contents w)) by now rewrite nth_error_map, Ew.
    destruct (nth_length _ rs i _ L Et) as (r & Er). exact (IH _ _ E r (F i _ r Et Er)).
  - inversion G as [| | | | |ty l rs L F E1 E2| | |]; subst. destruct v as [|n|x|b vs|b vs]; try discriminate. injection E2 as ->.
    apply obind_throws in E as [E|(s' & _ & E)]; [now apply buffer_throws in E|].
    apply obind_throws in E as [E|(s'' & _ & E)]; [|discriminate]. apply mapo_throws in E as (i & [nm w] & Ew & E). cbn [fst snd] in E.
    apply obind_throws in E as [E|(s1 & _ & E)]; [now apply text_throws in E|]. apply obind_throws in E as [E|(s2 & _ & E)]; [|discriminate].
    fold member in L, F. assert (Et : nth_error (map member vs) i = Some (chars nm, contents w)) by now rewrite nth_error_map, Ew.
    assert (L' : length rs = length (map member vs)) by (rewrite <- (map_length fst rs), L; apply map_length).
    destruct (nth_length _ rs i _ L' Et) as ([k r] & Er).
    assert (K : k = chars nm).
    { assert (X : nth_error (map fst rs) i = Some k) by now rewrite nth_error_map, Er. rewrite L, map_map, nth_error_map, Ew in X. now injection X. }
    subst k. exact (IH _ _ E r (F i _ _ r Et Er)).
  - inversion G as [| | | | | |ty E1 E2|ty t' r N H|]; subst; [destruct v; try discriminate; congruence|].
    destruct v; [now destruct N|..]; exact (IH _ _ E res H).
  - inversion G as [| | | | | | | |fs' l rs L F E1 E2]; subst. destruct v as [|n|x|b vs|b vs]; try discriminate. injection E2 as ->.
    apply obind_throws in E as [E|(s' & _ & E)]; [now apply buffer_throws in E|].
    apply obind_throws in E as [E|(s'' & _ & E)]; [|discriminate]. apply mapo_throws in E as (i & [nm ty] & Ew & E). cbn [fst snd] in E.
    apply obind_throws in E as [E|(p & Ep & E)]; [now apply find_throws in E|].
    destruct (nth_length _ rs i _ L Ew) as (r & Er). rewrite Forall_forall in IH.
    exact (IH (nm, ty) (nth_error_In _ _ Ew) _ _ E r (F i nm ty _ r Ew Er (find_field_first live _ _ _ _ Ep))).
  - discriminate.
Qed.
Theorem deserialize_exactly live ty c v : lives live (c :: statics :: refs v) ->
  (exists res, deserialize live ty c v = Ok res /\ gives ty (contents v) res) \/
  (deserialize live ty c v = Throws /\ forall res, ~ gives ty (contents v) res).
Proof.
  intros H. destruct (deserialize live ty c v) as [res| |] eqn:E.
  - left. exists res. split; [reflexivity | exact (deserialize_gives live ty c v res E)].
  - right. split; [reflexivity | exact (deserialize_refuses live ty c v E)].
  - now destruct (deserialize_defined live ty c v H).
Qed.
