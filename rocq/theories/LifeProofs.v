From Coq Require Import List Arith Bool Lia.
From Verif Require Import Base LifeModel LifeSpec.
Import ListNotations.

(** * Induction *)

Lemma value_ind' (P : value -> Prop) : P Null -> (forall n, P (Scalar n)) -> (forall t, P (Str t)) ->
  (forall b l, Forall P l -> P (Arr b l)) -> (forall b l, Forall (fun e => P (snd e)) l -> P (Obj b l)) -> forall v, P v.
Proof.
  intros H0 H1 H2 H3 H4. fix F 1. intros [|n|t|b l|b l]; [exact H0 | apply H1 | apply H2 | apply H3 | apply H4].
  - induction l as [|x l IH]; constructor; [apply F | exact IH].
  - induction l as [|[t x] l IH]; constructor; [apply F | exact IH].
Qed.
Lemma object_ind' (P : object -> Prop) : P O_null -> (forall n, P (O_scalar n)) -> (forall r s, P (O_text r s)) -> (forall r s, P (O_ref r s)) ->
  (forall l, Forall P l -> P (O_seq l)) -> (forall l, Forall (fun e => P (snd e)) l -> P (O_object l)) -> (forall v, P (O_view v)) -> (forall v, P (O_made v)) ->
  forall o, P o.
Proof.
  intros H0 H1 H2 H3 H4 H5 H6 H7. fix F 1. intros [|n|r s|r s|l|l|v|v]; [exact H0 | apply H1 | apply H2 | apply H3 | apply H4 | apply H5 | apply H6 | apply H7].
  - induction l as [|x l IH]; constructor; [apply F | exact IH].
  - induction l as [|[h x] l IH]; constructor; [apply F | exact IH].
Qed.
Lemma type_ind' (P : type -> Prop) : P D_scalar -> P D_string -> P D_string_view -> P D_view -> (forall t, P t -> P (D_seq t)) -> (forall t, P t -> P (D_map t)) ->
  (forall t, P t -> P (D_optional t)) -> (forall l, Forall (fun f => P (snd f)) l -> P (D_struct l)) -> forall t, P t.
Proof.
  intros H0 H1 H2 H3 H4 H5 H6 H7. fix F 1. intros [| | | |t|t|t|l]; [exact H0 | exact H1 | exact H2 | exact H3 | apply H4, F | apply H5, F | apply H6, F | apply H7].
  induction l as [|[n x] l IH]; constructor; [apply F | exact IH].
Qed.
Lemma result_ind' (P : result -> Prop) : (forall n, P (R_scalar n)) -> P R_none -> (forall s, P (R_string s)) -> (forall r s, P (R_string_view r s)) ->
  (forall r v, P (R_view r v)) -> (forall l, Forall P l -> P (R_seq l)) -> (forall l, Forall (fun e => P (snd e)) l -> P (R_map l)) ->
  (forall l, Forall P l -> P (R_struct l)) -> forall r, P r.
Proof.
  intros H0 H1 H2 H3 H4 H5 H6 H7. fix F 1. intros [n| |s|r s|r v|l|l|l]; [apply H0 | exact H1 | apply H2 | apply H3 | apply H4 | apply H5 | apply H6 | apply H7].
  - induction l as [|x l IH]; constructor; [apply F | exact IH].
  - induction l as [|[n x] l IH]; constructor; [apply F | exact IH].
  - induction l as [|x l IH]; constructor; [apply F | exact IH].
Qed.

(** * Lists *)

Lemma lives_nil live : lives live [].
Proof. intros r []. Qed.
Lemma lives_app live a b : lives live (a ++ b) <-> lives live a /\ lives live b.
Proof. unfold lives. setoid_rewrite in_app_iff. firstorder. Qed.
Lemma lives_cons live r l : lives live (r :: l) <-> live r = true /\ lives live l.
Proof. unfold lives. cbn. split; [intros H; split; [apply H; now left | intros x Hx; apply H; now right] | intros [A B] x [<-|Hx]; auto]. Qed.
Lemma lives_one live r : lives live [r] <-> live r = true.
Proof. rewrite lives_cons. split; [tauto | intros H; split; [exact H | apply lives_nil]]. Qed.
(** Fine if all regions live, undefined if not. *)
Definition needs {A} (live : region -> bool) (l : list region) (y : A) (x : outcome A) : Prop := (lives live l -> x = Ok y) /\ (~ lives live l -> x = UB).
Lemma lives_dec live l : {lives live l} + {~ lives live l}.
Proof.
  induction l as [|r l IH]; [left; apply lives_nil|]. destruct (live r) eqn:E.
  - destruct IH as [H|H]; [left | right]; rewrite lives_cons; tauto.
  - right. rewrite lives_cons. intros [H _]. congruence.
Qed.
Lemma needs_ok {A} live l (y : A) x : lives live l -> needs live l y x -> x = Ok y.
Proof. intros H [N _]. auto. Qed.
Lemma needs_nil {A} live (y : A) : needs live [] y (Ok y).
Proof. split; [reflexivity | intros H; destruct H; apply lives_nil]. Qed.
Lemma needs_bind {A B} live a b (y : A) (x : outcome A) (f : A -> outcome B) z : needs live a y x -> needs live b z (f y) -> needs live (a ++ b) z (obind x f).
Proof.
  intros [H1 H2] [H3 H4]. split.
  - intros L. apply lives_app in L as [La Lb]. rewrite H1 by exact La. cbn. auto.
  - intros L. destruct (lives_dec live a) as [La|La].
    + rewrite H1 by exact La. cbn. apply H4. intros Lb. apply L, lives_app. tauto.
    + now rewrite H2.
Qed.
Lemma needs_map {A B} live a (y : A) (x : outcome A) (f : A -> B) : needs live a y x -> needs live a (f y) (obind x (fun y => Ok (f y))).
Proof. intros H. rewrite <- (app_nil_r a). eapply needs_bind; [exact H | apply needs_nil]. Qed.
Lemma needs_same {A} live a b (y : A) x : (forall r, In r a <-> In r b) -> needs live a y x -> needs live b y x.
Proof. intros H [N M]. assert (lives live a <-> lives live b) by (unfold lives; now setoid_rewrite H). split; intros L; [apply N | apply M]; tauto. Qed.
Lemma needs_mapo {A B} live (g : A -> list region) (h : A -> B) f l : Forall (fun x => needs live (g x) (h x) (f x)) l -> needs live (flat_map g l) (map h l) (mapo f l).
Proof.
  induction 1 as [|x l H _ IH]; [apply needs_nil|]. cbn [flat_map map mapo]. eapply needs_bind; [exact H|]. now apply (needs_map live _ _ _ (cons (h x))).
Qed.
Lemma needs_region {A} live r (x : A) : needs live [r] x (at_region live r x).
Proof. unfold needs, at_region. rewrite lives_one. destruct (live r); split; intros H; auto; [now destruct H | discriminate]. Qed.
Lemma needs_buffer {A} live b (x : A) : needs live (buffer_refs b) x (at_buffer live b x).
Proof. destruct b as [r|]; [apply needs_region | apply needs_nil]. Qed.

(** * Reading *)

Lemma needs_text live t : needs live (text_refs t) (chars t) (read_text live t).
Proof. destruct t as [s|r s|r s]; cbn; [apply needs_nil | apply needs_region..]. Qed.
Theorem read_needs live v : needs live (refs v) (contents v) (read live v).
Proof.
  induction v as [|n|t|b l H|b l H] using value_ind'; cbn [refs contents read]; try apply needs_nil.
  - apply (needs_map live _ _ _ T_str), needs_text.
  - eapply needs_bind; [apply needs_buffer|]. cbv beta. apply (needs_map live _ _ _ T_arr). now apply needs_mapo.
  - eapply needs_bind; [apply needs_buffer|]. cbv beta. apply (needs_map live _ _ _ T_obj). apply needs_mapo with (g := fun e => text_refs (fst e) ++ refs (snd e)).
    eapply Forall_impl; [|exact H]. intros [t v] E. cbn [fst snd] in *. eapply needs_bind; [apply needs_text|]. cbv beta. now apply (needs_map live _ _ _ (pair (chars t))).
Qed.

(** * Copying *)

(** The value that a copy is. *)
Definition copy_of_text (limit : nat) (a : region) (t : text) : text := match t with Copied _ s => copy_text limit a s | t => t end.
Fixpoint copy_of (limit : nat) (a : region) (v : value) : value :=
  match v with
  | Null => Null
  | Scalar n => Scalar n
  | Str t => Str (copy_of_text limit a t)
  | Arr _ l => Arr (buffer_for a l) (map (copy_of limit a) l)
  | Obj _ l => Obj (buffer_for a l) (map (fun e => (copy_of_text limit a (fst e), copy_of limit a (snd e))) l)
  end.
Lemma buffer_map {A B} a (f : A -> B) l : buffer_for a (map f l) = buffer_for a l.
Proof. now destruct l. Qed.
Lemma deep_text_needs live limit a t : needs live (text_copied t) (copy_of_text limit a t) (deep_text live limit a t).
Proof. destruct t as [s|r s|r s]; cbn; [apply needs_nil | apply (needs_map live _ _ _ (copy_text limit a)), needs_region | apply needs_nil]. Qed.
Lemma deep_needs live limit a v : needs live (copied v) (copy_of limit a v) (deep live limit a v).
Proof.
  induction v as [|n|t|b l H|b l H] using value_ind'; cbn [copied copy_of deep]; try apply needs_nil.
  - apply (needs_map live _ _ _ Str), deep_text_needs.
  - eapply needs_bind; [apply needs_buffer|]. cbv beta. rewrite <- (buffer_map a (copy_of limit a) l).
    apply (needs_map live _ _ _ (fun l => Arr (buffer_for a l) l)). now apply needs_mapo.
  - eapply needs_bind; [apply needs_buffer|]. cbv beta. rewrite <- (buffer_map a (fun e => (copy_of_text limit a (fst e), copy_of limit a (snd e))) l).
    apply (needs_map live _ _ _ (fun l => Obj (buffer_for a l) l)). apply needs_mapo with (g := fun e => text_copied (fst e) ++ copied (snd e)).
    eapply Forall_impl; [|exact H]. intros [t v] E. cbn [fst snd] in *. eapply needs_bind; [apply deep_text_needs|]. cbv beta.
    now apply (needs_map live _ _ _ (pair (copy_of_text limit a t))).
Qed.
Lemma chars_copy limit a s : chars (copy_text limit a s) = s.
Proof. unfold copy_text. now destruct (Nat.leb _ _). Qed.
Lemma chars_copy_of limit a t : chars (copy_of_text limit a t) = chars t.
Proof. destruct t; [reflexivity | apply chars_copy | reflexivity]. Qed.
Lemma map_forall {A B} (f g : A -> B) l : Forall (fun x => f x = g x) l -> map f l = map g l.
Proof. induction 1; cbn; [reflexivity | now f_equal]. Qed.
Lemma contents_copy limit a v : contents (copy_of limit a v) = contents v.
Proof.
  induction v as [|n|t|b l H|b l H] using value_ind'; cbn [copy_of contents]; try reflexivity.
  - now rewrite chars_copy_of.
  - rewrite map_map. f_equal. now apply map_forall.
  - rewrite map_map. f_equal. apply map_forall. eapply Forall_impl; [|exact H]. intros [t v] E. cbn [fst snd] in *. now rewrite chars_copy_of, E.
Qed.
Lemma refs_copy_text limit a s r : In r (text_refs (copy_text limit a s)) <-> r = a /\ Nat.ltb limit (length s) = true.
Proof.
  unfold copy_text. rewrite Nat.ltb_lt. destruct (Nat.leb_spec (length s) limit); cbn; [|split; [intros [->|[]]; auto | intros [-> _]; auto]].
  split; [intros [] | intros [_ H0]; lia].
Qed.
Lemma refs_copy_of_text limit a t r : In r (text_refs (copy_of_text limit a t)) <-> In r (text_consts t) \/ (r = a /\ text_big limit t = true).
Proof.
  destruct t as [s|q s|q s]; cbn [copy_of_text text_consts text_big].
  - cbn. intuition discriminate.
  - rewrite refs_copy_text. cbn. tauto.
  - cbn. intuition discriminate.
Qed.
Lemma buffer_for_refs {A} a (l : list A) r : In r (buffer_refs (buffer_for a l)) <-> r = a /\ negb (Nat.eqb (length l) 0) = true.
Proof. destruct l; cbn; [intuition discriminate|]. split; [intros [->|[]]; auto | intros [-> _]; auto]. Qed.
Lemma big_child limit b l v : In v l -> big limit (Arr b l) = true.
Proof. destruct l; [intros [] | reflexivity]. Qed.
Lemma refs_copy limit a v r : In r (refs (copy_of limit a v)) <-> In r (consts v) \/ (r = a /\ big limit v = true).
Proof.
  revert r. induction v as [|n|t|b l H|b l H] using value_ind'; intros r; cbn [copy_of refs consts big]; try (cbn; intuition discriminate).
  - apply refs_copy_of_text.
  - rewrite in_app_iff, buffer_for_refs, flat_map_concat_map, map_map, <- flat_map_concat_map, !in_flat_map. rewrite Forall_forall in H. split.
    + intros [X|(v & Hv & Hr)]; [now right|]. apply H in Hr; [|exact Hv]. destruct Hr as [Hr|[-> _]]; [left; now exists v | right]. split; [reflexivity|]. now destruct l.
    + intros [(v & Hv & Hr)|X]; [right | now left]. exists v. split; [exact Hv|]. apply H; auto.
  - rewrite in_app_iff, buffer_for_refs, flat_map_concat_map, map_map, <- flat_map_concat_map, !in_flat_map. rewrite Forall_forall in H. split.
    + intros [X|([t v] & Hv & Hr)]; [now right|]. cbn [fst snd] in Hr. rewrite in_app_iff in Hr.
      assert (L : negb (Nat.eqb (length l) 0) = true) by now destruct l.
      destruct Hr as [Hr|Hr]; [apply refs_copy_of_text in Hr | apply (H (t, v) Hv) in Hr]; (destruct Hr as [Hr|[-> _]]; [|now right]);
        left; exists (t, v); cbn [fst snd]; rewrite in_app_iff; auto.
    + intros [([t v] & Hv & Hr)|X]; [right | now left]. exists (t, v). split; [exact Hv|]. cbn [fst snd] in *. rewrite in_app_iff in *.
      destruct Hr as [Hr|Hr]; [left; apply refs_copy_of_text; auto | right; apply (H (t, v) Hv); auto].
Qed.

(** * Serializing *)

Section Serialize.
Variables (limit : nat) (skip : bool) (a : region).

Lemma skipped_left : forall h o, skipped skip h o = left_out skip h o.
Proof. intros h o. unfold skipped. destruct skip, h, o; reflexivity. Qed.

Definition name_of (h : how) (n : region * str) : text := if own_name h then copy_text limit a (snd n) else Const (fst n) (snd n).
Fixpoint tree_of (o : object) : value :=
  match o with
  | O_null => Null
  | O_scalar n => Scalar n
  | O_text _ s => Str (copy_text limit a s)
  | O_ref r s => Str (Const r s)
  | O_seq l => Arr (buffer_for a l) (map tree_of l)
  | O_object l =>
      let m := flat_map (fun e => if left_out skip (fst (fst e)) (snd e) then [] else [(name_of (fst (fst e)) (snd (fst e)), tree_of (snd e))]) l in
      Obj (buffer_for a m) m
  | O_view None => Null
  | O_view (Some v) => copy_of limit a v
  | O_made v => v
  end.
Definition name_sources (h : how) (n : region * str) : list region := if own_name h then [fst n] else [].
Lemma name_needs live h n : needs live (name_sources h n) (name_of h n) (name_text live limit a h n).
Proof. unfold name_sources, name_of, name_text. replace (copies h) with (own_name h) by (destruct h; reflexivity). destruct (own_name h); [apply (needs_map live _ _ _ (copy_text limit a)), needs_region | apply needs_nil]. Qed.

Theorem serialize_needs live o : engaged skip o = true -> needs live (sources skip o) (tree_of o) (serialize live limit skip a o).
Proof.
  induction o as [|n|r s|r s|l H|l H|v|v] using object_ind'; intros G; cbn [sources tree_of serialize]; try apply needs_nil.
  - apply (needs_map live _ _ _ (fun s => Str (copy_text limit a s))), needs_region.
  - rewrite <- (buffer_map a tree_of l). apply (needs_map live _ _ _ (fun l => Arr (buffer_for a l) l)). apply needs_mapo.
    cbn [engaged] in G. rewrite forallb_forall in G. rewrite Forall_forall in *. intros x Hx. apply H; auto.
  - cbv zeta. apply (needs_map live _ _ _ (fun l => Obj (buffer_for a l) l)). cbn [engaged] in G.
    induction l as [|[[h n] o] l IH]; [apply needs_nil|]. inversion H as [|? ? H1 H2]; subst. cbn [forallb fst snd] in *. apply andb_true_iff in G as [G1 G2].
    cbn [flat_map fst snd]. rewrite skipped_left. destruct (left_out skip h o) eqn:K; [cbn [app]; auto|]. cbn [orb] in G1.
    eapply needs_same; [|eapply needs_bind; [exact (H1 G1) | eapply needs_bind; [apply name_needs | apply (needs_map live _ _ _ (cons (name_of h n, tree_of o))); apply (IH H2 G2)]]].
    intros r. unfold name_sources. rewrite !in_app_iff. tauto.
  - destruct v as [v|]; [apply deep_needs | discriminate].
Qed.
Lemma needs_throws {A} live l (y : A) x : needs live l y x -> x <> Throws.
Proof. intros [H1 H2]. destruct (lives_dec live l) as [L|L]; [rewrite H1 by exact L | rewrite H2 by exact L]; discriminate. Qed.
Theorem serialize_null_view live o : engaged skip o = false -> serialize live limit skip a o = UB.
Proof.
  induction o as [|n|r s|r s|l H|l H|v|v] using object_ind'; intros G; cbn [engaged] in G; cbn [serialize]; try discriminate.
  - enough (X : mapo (serialize live limit skip a) l = UB) by now rewrite X.
    induction l as [|o l IH]; [discriminate|]. inversion H as [|? ? H1 H2]; subst. cbn [mapo forallb] in *. destruct (engaged skip o) eqn:E.
    + pose proof (needs_throws live _ _ _ (serialize_needs live o E)) as N. destruct (serialize live limit skip a o); cbn [obind]; [|now destruct N | reflexivity].
      now rewrite (IH H2 G).
    + now rewrite H1.
  - match goal with |- obind ?x _ = UB => enough (X : x = UB) by now rewrite X end.
    induction l as [|[[h n] o] l IH]; [discriminate|]. inversion H as [|? ? H1 H2]; subst. cbn [forallb fst snd] in *.
    rewrite skipped_left. destruct (left_out skip h o); [exact (IH H2 G)|]. cbn [orb] in G. destruct (engaged skip o) eqn:E.
    + pose proof (needs_throws live _ _ _ (serialize_needs live o E)) as N. destruct (serialize live limit skip a o); cbn [obind]; [|now destruct N | reflexivity].
      pose proof (needs_throws live _ _ _ (name_needs live h n)) as N'. destruct (name_text live limit a h n); cbn [obind]; [|now destruct N' | reflexivity].
      cbn [andb] in G. now rewrite (IH H2 G).
    + now rewrite H1.
  - destruct v; [discriminate | reflexivity].
Qed.

Lemma contents_tree o : engaged skip o = true -> contents (tree_of o) = meaning skip o.
Proof.
  induction o as [|n|r s|r s|l H|l H|v|v] using object_ind'; intros G; cbn [tree_of contents meaning]; try reflexivity.
  - now rewrite chars_copy.
  - rewrite map_map. f_equal. apply map_forall. cbn [engaged] in G. rewrite forallb_forall in G. rewrite Forall_forall in *. auto.
  - f_equal. cbn [engaged] in G. induction l as [|[[h n] o] l IH]; [reflexivity|]. inversion H as [|? ? H1 H2]; subst. cbn [forallb flat_map fst snd] in *.
    apply andb_true_iff in G as [G1 G2]. rewrite map_app, (IH H2 G2). destruct (left_out skip h o); [reflexivity|]. cbn [map app fst snd orb] in *. rewrite (H1 G1). do 3 f_equal.
    unfold name_of. destruct (own_name h); [apply chars_copy | reflexivity].
  - destruct v as [v|]; [apply contents_copy | discriminate].
Qed.
Lemma refs_name h n r : In r (text_refs (name_of h n)) -> In r (if own_name h then [] else [fst n]) \/ r = a.
Proof. unfold name_of. destruct (own_name h); [intros X; apply refs_copy_text in X as [-> _]; now right | now left]. Qed.
Lemma refs_tree o : engaged skip o = true -> forall r, In r (refs (tree_of o)) <-> In r (kept skip o) \/ (r = a /\ spacious limit skip o = true).
Proof.
  induction o as [|n|q s|q s|l H|l H|v|v] using object_ind'; intros G r; cbn [tree_of refs kept spacious]; try (cbn; intuition discriminate).
  - rewrite refs_copy_text. cbn. tauto.
  - rewrite in_app_iff, buffer_for_refs, flat_map_concat_map, map_map, <- flat_map_concat_map, !in_flat_map. cbn [engaged] in G.
    rewrite forallb_forall in G. rewrite Forall_forall in H. split.
    + intros [X|(v & Hv & Hr)]; [now right|]. apply H in Hr; auto. destruct Hr as [Hr|[-> _]]; [left; now exists v | right]. split; [reflexivity|]. now destruct l.
    + intros [(v & Hv & Hr)|X]; [right | now left]. exists v. split; [exact Hv|]. apply H; auto.
  - cbv zeta. rewrite in_app_iff, buffer_for_refs, !in_flat_map. cbn [engaged] in G. rewrite forallb_forall in G. rewrite Forall_forall in H.
    assert (Sm : forall m : list (text * value), m = flat_map (fun e => if left_out skip (fst (fst e)) (snd e) then [] else [(name_of (fst (fst e)) (snd (fst e)), tree_of (snd e))]) l ->
               negb (Nat.eqb (length m) 0) = existsb (fun e => negb (left_out skip (fst (fst e)) (snd e))) l).
    { intros m ->. clear. induction l as [|e l IH]; [reflexivity|]. cbn [flat_map existsb]. destruct (left_out skip (fst (fst e)) (snd e)); [exact IH | reflexivity]. }
    rewrite (Sm _ eq_refl). split.
    + intros [X|([t v] & Hv & Hr)]; [now right|]. apply in_flat_map in Hv as ([[h n] o] & He & Hv). cbn [fst snd] in Hv, Hr.
      destruct (left_out skip h o) eqn:K; [destruct Hv|]. destruct Hv as [[= <- <-]|[]].
      assert (E : existsb (fun e => negb (left_out skip (fst (fst e)) (snd e))) l = true).
      { apply existsb_exists. exists (h, n, o). cbn [fst snd]. now rewrite K. }
      assert (Go : engaged skip o = true) by (specialize (G _ He); cbn [fst snd] in G; now rewrite K in G).
      rewrite in_app_iff in Hr. destruct Hr as [Hr|Hr].
      * apply refs_name in Hr as [Hr| ->]; [|now right]. left. exists (h, n, o). split; [exact He|]. cbn [fst snd]. rewrite K, in_app_iff. now left.
      * apply (H _ He Go) in Hr as [Hr|[-> _]]; [|now right]. left. exists (h, n, o). split; [exact He|]. cbn [fst snd]. rewrite K, in_app_iff. now right.
    + intros [([[h n] o] & He & Hr)|X]; [right | now left]. cbn [fst snd] in Hr. destruct (left_out skip h o) eqn:K; [destruct Hr|].
      exists (name_of h n, tree_of o). split; [apply in_flat_map; exists (h, n, o); split; [exact He|]; cbn [fst snd]; rewrite K; now left|].
      cbn [fst snd]. rewrite in_app_iff in *. destruct Hr as [Hr|Hr].
      * left. unfold name_of. destruct (own_name h); [destruct Hr | exact Hr].
      * right. apply (H _ He); [|now left]. specialize (G _ He). cbn [fst snd] in G. now rewrite K in G.
  - destruct v as [v|]; [|discriminate]. apply refs_copy.
Qed.
End Serialize.

Lemma serialized live limit skip a o v : serialize live limit skip a o = Ok v -> engaged skip o = true /\ v = tree_of limit skip a o.
Proof.
  intros E. destruct (engaged skip o) eqn:G; [|rewrite (serialize_null_view limit skip a live o G) in E; discriminate]. split; [reflexivity|].
  destruct (serialize_needs limit skip a live o G) as [N M]. destruct (lives_dec live (sources skip o)) as [L|L]; [rewrite (N L) in E | rewrite (M L) in E]; congruence.
Qed.
Theorem serialize_total live limit skip a o : 
  (engaged skip o = true -> lives live (sources skip o) -> exists v, serialize live limit skip a o = Ok v) /\
  ((engaged skip o = false \/ ~ lives live (sources skip o)) -> serialize live limit skip a o = UB).
Proof.
  split.
  - intros G L. exists (tree_of limit skip a o). exact (proj1 (serialize_needs limit skip a live o G) L).
  - intros H. destruct (engaged skip o) eqn:G; [|now apply serialize_null_view]. destruct H as [H|H]; [discriminate|]. exact (proj2 (serialize_needs limit skip a live o G) H).
Qed.
Theorem serialize_reads live limit skip a o v live' : serialize live limit skip a o = Ok v ->
  lives live' (kept skip o) -> (spacious limit skip o = true -> live' a = true) -> read live' v = Ok (meaning skip o).
Proof.
  intros E K A. destruct (serialized live limit skip a o v E) as [G ->]. rewrite <- (contents_tree limit skip a o G). apply read_needs.
  intros r Hr. apply (refs_tree limit skip a o G) in Hr as [Hr|[-> S]]; auto.
Qed.
Theorem serialize_dangles live limit skip a o v live' r : serialize live limit skip a o = Ok v ->
  In r (kept skip o) \/ (r = a /\ spacious limit skip o = true) -> live' r = false -> read live' v = UB.
Proof.
  intros E K A. destruct (serialized live limit skip a o v E) as [G ->]. apply read_needs. intros L.
  apply (refs_tree limit skip a o G) in K. apply L in K. congruence.
Qed.
Lemma ordinary_kept skip o : ordinary o = true -> forall r, In r (kept skip o) -> r = statics.
Proof.
  induction o as [|n|q s|q s|l H|l H|v|v] using object_ind'; intros G r; cbn [ordinary kept] in *; try (now intros []); try discriminate.
  - rewrite in_flat_map. intros (o & Ho & Hr). rewrite forallb_forall in G. rewrite Forall_forall in H. exact (H o Ho (G o Ho) r Hr).
  - rewrite in_flat_map. intros ([[h n] o] & Ho & Hr). rewrite forallb_forall in G. rewrite Forall_forall in H. specialize (G _ Ho). cbn [fst snd] in *.
    apply andb_true_iff in G as [G1 G2]. destruct (left_out skip h o); [destruct Hr|]. apply in_app_iff in Hr as [Hr|Hr]; [|exact (H _ Ho G2 r Hr)].
    destruct (own_name h); [destruct Hr|]. destruct Hr as [<-|[]]. cbn [orb] in G1. now apply Nat.eqb_eq.
Qed.
Lemma ordinary_engaged skip o : ordinary o = true -> engaged skip o = true.
Proof.
  induction o as [|n|q s|q s|l H|l H|v|v] using object_ind'; intros G; cbn [ordinary engaged] in *; try reflexivity; try discriminate.
  - rewrite forallb_forall in *. rewrite Forall_forall in H. auto.
  - rewrite forallb_forall in *. rewrite Forall_forall in H. intros e He. specialize (G e He). apply andb_true_iff in G as [_ G]. rewrite (H e He G). apply orb_true_r.
Qed.
Theorem document_outlives live limit skip a o : ordinary o = true -> lives live (sources skip o) ->
  exists v, serialize live limit skip a o = Ok v /\ forall live', live' a = true -> live' statics = true -> read live' v = Ok (meaning skip o).
Proof.
  intros O L. destruct (proj1 (serialize_total live limit skip a o) (ordinary_engaged skip o O) L) as [v E]. exists v. split; [exact E|].
  intros live' A S. apply (serialize_reads live limit skip a o v live' E); [|auto]. intros r Hr. now rewrite (ordinary_kept skip o O r Hr).
Qed.
