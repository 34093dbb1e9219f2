From Coq Require Import List NArith ZArith Arith Bool Lia.
From Verif Require Import Base SerialModel SerialSpec SerialBaseProofs SerialTypeProofs SerialFlatProofs AccModel AccSpec.
Import ListNotations.

(* ------------------------------------------------------------------ *)
(** ** Places *)

Lemma store_some v p x y : load v p = Some y -> exists v', store v p x = Some v'.
Proof.
  revert v. induction p as [|[i|] p IH]; intros v H; cbn [load store] in *.
  - eexists. reflexivity.
  - destruct v as [| | | | | | |vs| |vs]; try discriminate; (destruct (nth_error vs i) as [z|]; [|discriminate];
      destruct (IH z H) as [z' ->]; eexists; reflexivity).
  - destruct v as [| | | | | |z| | |]; try discriminate. destruct (IH z H) as [z' ->]. eexists. reflexivity.
Qed.

Lemma nth_upd_eq {A} (l : list A) i x y : nth_error l i = Some y -> nth_error (upd l i x) i = Some x.
Proof. revert i. induction l as [|z l IH]; intros [|i] H; cbn in *; try discriminate; [reflexivity|exact (IH i H)]. Qed.

Lemma nth_upd_ne {A} (l : list A) i j x : i <> j -> nth_error (upd l i x) j = nth_error l j.
Proof. revert i j. induction l as [|z l IH]; intros [|i] [|j] H; cbn; try reflexivity; [lia|]. apply IH. lia. Qed.

Lemma upd_same {A} (l : list A) i x : nth_error l i = Some x -> upd l i x = l.
Proof. revert i. induction l as [|z l IH]; intros [|i] H; cbn in *; try discriminate; [congruence|]. rewrite (IH i H). reflexivity. Qed.

Lemma load_app v p q : load v (p ++ q) = match load v p with Some x => load x q | None => None end.
Proof.
  revert v. induction p as [|[i|] p IH]; intros v; cbn [load app]; [reflexivity| |].
  - destruct v as [| | | | | | |vs| |vs]; try reflexivity; destruct (nth_error vs i); auto.
  - destruct v; auto.
Qed.

(** the part of the place inside what was stored *)
Lemma load_store_inside v p x v' q : store v p x = Some v' -> load v' (p ++ q) = load x q.
Proof.
  revert v v'. induction p as [|[i|] p IH]; intros v v' H; cbn [load store app] in *.
  - injection H as <-. reflexivity.
  - destruct v as [| | | | | | |vs| |vs]; try discriminate;
      (destruct (nth_error vs i) as [z|] eqn:E; [|discriminate]; destruct (store z p x) as [z'|] eqn:Es; [|discriminate];
       injection H as <-; rewrite (nth_upd_eq _ _ _ _ E); exact (IH z z' Es)).
  - destruct v as [| | | | | |z| | |]; try discriminate. destruct (store z p x) as [z'|] eqn:Es; [|discriminate].
    injection H as <-. exact (IH z z' Es).
Qed.

Lemma load_store_same v p x v' : store v p x = Some v' -> load v' p = Some x.
Proof. intros H. rewrite <- (app_nil_r p) at 1. exact (load_store_inside _ _ _ _ [] H). Qed.

(** an enclosing place *)
Lemma load_store_around v p q x v' : store v (p ++ q) x = Some v' ->
  exists y y', load v p = Some y /\ store y q x = Some y' /\ load v' p = Some y'.
Proof.
  revert v v'. induction p as [|[i|] p IH]; intros v v' H; cbn [load store app] in *.
  - exists v, v'. auto.
  - destruct v as [| | | | | | |vs| |vs]; try discriminate;
      (destruct (nth_error vs i) as [z|] eqn:E; [|discriminate]; destruct (store z (p ++ q) x) as [z'|] eqn:Es; [|discriminate];
       injection H as <-; destruct (IH z z' Es) as [y [y' [H1 [H2 H3]]]]; exists y, y'; rewrite (nth_upd_eq _ _ _ _ E); auto).
  - destruct v as [| | | | | |z| | |]; try discriminate. destruct (store z (p ++ q) x) as [z'|] eqn:Es; [|discriminate].
    injection H as <-. exact (IH z z' Es).
Qed.

Lemma overlap_cons s p q : overlap p q -> overlap (s :: p) (s :: q).
Proof. intros [[r ->]|[r ->]]; [left|right]; exists r; reflexivity. Qed.

Lemma load_store_apart v p q x v' : ~ overlap p q -> store v p x = Some v' -> load v' q = load v q.
Proof.
  revert v v' q. induction p as [|s p IH]; intros v v' q Ho H.
  - exfalso. apply Ho. right. exists q. reflexivity.
  - destruct q as [|s' q]; [exfalso; apply Ho; left; exists (s :: p); reflexivity|].
    destruct s as [i|]; cbn [store] in H.
    + destruct v as [| | | | | | |vs| |vs]; try discriminate;
      (destruct (nth_error vs i) as [z|] eqn:E; [|discriminate]; destruct (store z p x) as [z'|] eqn:Es; [|discriminate];
       injection H as <-; destruct s' as [j|]; cbn [load]; [|reflexivity];
       destruct (Nat.eq_dec i j) as [<-|Hn];
       [ rewrite (nth_upd_eq _ _ _ _ E), E; apply (IH z z' q); [intros X; apply Ho, overlap_cons, X|exact Es]
       | rewrite (nth_upd_ne _ _ _ _ Hn); reflexivity ]).
    + destruct v as [| | | | | |z| | |]; try discriminate. destruct (store z p x) as [z'|] eqn:Es; [|discriminate].
      injection H as <-. destruct s' as [j|]; cbn [load]; [reflexivity|].
      apply (IH z z' q); [intros X; apply Ho, overlap_cons, X|exact Es].
Qed.

Lemma store_load v p x : load v p = Some x -> store v p x = Some v.
Proof.
  revert v. induction p as [|[i|] p IH]; intros v H; cbn [load store] in *.
  - injection H as <-. reflexivity.
  - destruct v as [| | | | | | |vs| |vs]; try discriminate;
      (destruct (nth_error vs i) as [z|] eqn:E; [|discriminate]; rewrite (IH z H); cbn; rewrite (upd_same _ _ _ E); reflexivity).
  - destruct v as [| | | | | |z| | |]; try discriminate. rewrite (IH z H). reflexivity.
Qed.

Lemma step_eq (a b : step) : {a = b} + {a <> b}.
Proof. decide equality. apply Nat.eq_dec. Qed.

Lemma inside_dec p q : {inside p q} + {~ inside p q}.
Proof.
  revert p. induction q as [|s q IH]; intros p.
  - left. exists p. reflexivity.
  - destruct p as [|s' p]; [right; intros [r H]; discriminate|].
    destruct (step_eq s' s) as [->|Hn]; [|right; intros [r H]; injection H as H _; contradiction].
    destruct (IH p) as [H|H]; [left; destruct H as [r ->]; exists r; reflexivity|].
    right. intros [r Hr]. injection Hr as ->. apply H. exists r. reflexivity.
Qed.

Lemma overlap_sym p q : overlap p q -> overlap q p.
Proof. intros [H|H]; [right|left]; exact H. Qed.

(* ------------------------------------------------------------------ *)
(** ** One field *)

(** a step of the plain struct at a place *)
Definition at_place (o : val) (p : place) (r : dres) (res : areads) : Prop :=
  exists o', store o p (fst r) = Some o' /\ res = Did o' (snd r).

Lemma on_value_at fd p f o v : refers_to fd p -> load o p = Some v -> at_place o p (f v) (on_value fd f o).
Proof.
  intros [sel [Hw Hs]] Hl. unfold on_value. rewrite Hw, Hs, Hl. destruct (f v) as [v' e].
  destruct (store_some o p v' v Hl) as [o' E]. rewrite E. exists o'. split; [exact E|reflexivity].
Qed.

Lemma validated_at fd p f o v : refers_to fd p -> load o p = Some v ->
  at_place o p (then_validate (af_attrs fd) (f v)) (athen (on_value fd f o) (acc_validate fd)).
Proof.
  intros Hr Hl. destruct (on_value_at fd p f o v Hr Hl) as [o' [E R]]. rewrite R. destruct (f v) as [v' e]. cbn [fst snd] in *.
  destruct e as [e|]; cbn [athen then_validate]; [exists o'; split; [exact E|reflexivity]|].
  exists o'. split; [exact E|]. unfold acc_validate. destruct (a_validators (af_attrs fd)) as [|g l] eqn:Ev; [reflexivity|].
  unfold value. destruct Hr as [sel [Hw Hs]]. rewrite Hw, Hs, (load_store_same _ _ _ _ E). reflexivity.
Qed.

Lemma unchanged_at o p v : load o p = Some v -> at_place o p (v, None) (Did o None).
Proof. intros H. exists o. split; [exact (store_load _ _ _ H)|reflexivity]. Qed.

Lemma read_field_at fd p f ms o v : refers_to fd p -> load o p = Some v ->
  at_place o p (read_field (af_attrs fd) f ms v) (acc_read_field fd f ms o).
Proof.
  intros Hr Hl. unfold acc_read_field, read_field.
  destruct (resolve_field_name ms (af_attrs fd)) as [n|].
  - destruct (is_null (at_field ms n)).
    + destruct (a_default (af_attrs fd)) as [d|]; [apply (on_value_at fd p (fun _ => (d, None)) o v Hr Hl)|apply validated_at; assumption].
    + destruct (a_default (af_attrs fd)); apply validated_at; assumption.
  - destruct (a_default (af_attrs fd)) as [d|]; [apply (on_value_at fd p (fun _ => (d, None)) o v Hr Hl)|].
    destruct (a_allow_missing (af_attrs fd)); [apply unchanged_at, Hl|apply validated_at; assumption].
Qed.

Lemma patch_field_at fd p f ms o v : refers_to fd p -> load o p = Some v ->
  at_place o p (patch_field (af_attrs fd) f ms v) (acc_patch_field fd f ms o).
Proof.
  intros Hr Hl. unfold acc_patch_field, patch_field.
  destruct (resolve_field_name ms (af_attrs fd)) as [n|]; [|apply unchanged_at, Hl].
  destruct (is_null (at_field ms n)).
  - destruct (a_default (af_attrs fd)) as [d|]; [apply (on_value_at fd p (fun _ => (d, None)) o v Hr Hl)|apply validated_at; assumption].
  - destruct (a_default (af_attrs fd)); apply validated_at; assumption.
Qed.

(** reading one field, in the plain struct and here *)
Definition reads1 (f : ty -> json -> val -> dres) names ms (a : attrs) (t : ty) (v : val) : dres :=
  if a_skip_deser a then (v, None)
  else if a_extra a then
    match t with
    | TMap te => let '(m, e) := extra_loop (f te) (default_of te) names ms [] in (VMap m, e)
    | _ => (v, Some EStuck)
    end
  else if a_flatten a then f t (JObj ms) v
  else read_field a (f t) ms v.

Definition acc_reads1 (f : ty -> json -> val -> dres) names ms (fd : afield) (o : val) : areads :=
  if a_skip_deser (af_attrs fd) then Did o None
  else if a_extra (af_attrs fd) then
    match af_type fd with
    | TMap te =>
        on_value fd (fun _ => let '(m, e) := extra_loop (f te) (default_of te) names ms [] in (VMap m, e)) o
    | _ => on_value fd (fun v => (v, Some EStuck)) o
    end
  else if a_flatten (af_attrs fd) then on_value fd (f (af_type fd) (JObj ms)) o
  else acc_read_field fd (f (af_type fd)) ms o.

Lemma acc_members_cons f names ms fd fs o :
  acc_members f names ms (fd :: fs) o = athen (acc_reads1 f names ms fd o) (acc_members f names ms fs).
Proof. reflexivity. Qed.

Lemma members_cons1 f names ms a t fs v vs : deser_members f names ms ((a, t) :: fs) (v :: vs) =
  let '(v', e) := reads1 f names ms a t v in
  match e with
  | None => let '(r, e') := deser_members f names ms fs vs in (v' :: r, e')
  | Some _ => (v' :: vs, e)
  end.
Proof. reflexivity. Qed.

Lemma reads1_at f names ms fd p o v : refers_to fd p -> load o p = Some v ->
  at_place o p (reads1 f names ms (af_attrs fd) (af_type fd) v) (acc_reads1 f names ms fd o).
Proof.
  intros Hr Hl. unfold reads1, acc_reads1.
  destruct (a_skip_deser (af_attrs fd)); [apply unchanged_at, Hl|].
  destruct (a_extra (af_attrs fd)).
  - destruct (af_type fd); try (apply (on_value_at fd p (fun v => (v, Some EStuck)) o v Hr Hl)).
    apply (on_value_at fd p (fun _ => _) o v Hr Hl).
  - destruct (a_flatten (af_attrs fd)); [apply (on_value_at fd p _ o v Hr Hl)|apply read_field_at; assumption].
Qed.

Definition patches1 (f : ty -> json -> val -> dres) names ms (a : attrs) (t : ty) (v : val) : dres :=
  if a_skip_deser a then (v, None)
  else if a_extra a then
    match t, v with
    | TMap te, VMap m =>
        let '(m', e) := patch_extra_loop (f te) (default_of te) names ms m in (VMap m', e)
    | _, _ => (v, Some EStuck)
    end
  else if a_flatten a then f t (JObj ms) v
  else patch_field a (f t) ms v.

Definition acc_patches1 (f : ty -> json -> val -> dres) names ms (fd : afield) (o : val) : areads :=
  if a_skip_deser (af_attrs fd) then Did o None
  else if a_extra (af_attrs fd) then
    on_value fd (fun v =>
      match af_type fd, v with
      | TMap te, VMap m =>
          let '(m', e) := patch_extra_loop (f te) (default_of te) names ms m in (VMap m', e)
      | _, _ => (v, Some EStuck)
      end) o
  else if a_flatten (af_attrs fd) then on_value fd (f (af_type fd) (JObj ms)) o
  else acc_patch_field fd (f (af_type fd)) ms o.

Lemma acc_patch_members_cons f names ms fd fs o :
  acc_patch_members f names ms (fd :: fs) o = athen (acc_patches1 f names ms fd o) (acc_patch_members f names ms fs).
Proof. reflexivity. Qed.

Lemma patch_members_cons1 f names ms a t fs v vs : patch_members f names ms ((a, t) :: fs) (v :: vs) =
  let '(v', e) := patches1 f names ms a t v in
  match e with
  | None => let '(r, e') := patch_members f names ms fs vs in (v' :: r, e')
  | Some _ => (v' :: vs, e)
  end.
Proof. reflexivity. Qed.

Lemma patches1_at f names ms fd p o v : refers_to fd p -> load o p = Some v ->
  at_place o p (patches1 f names ms (af_attrs fd) (af_type fd) v) (acc_patches1 f names ms fd o).
Proof.
  intros Hr Hl. unfold patches1, acc_patches1.
  destruct (a_skip_deser (af_attrs fd)); [apply unchanged_at, Hl|].
  destruct (a_extra (af_attrs fd)).
  - apply (on_value_at fd p (fun v => match af_type fd, v with TMap te, VMap m => _ | _, _ => _ end) o v Hr Hl).
  - destruct (a_flatten (af_attrs fd)); [apply (on_value_at fd p _ o v Hr Hl)|apply patch_field_at; assumption].
Qed.

(* ------------------------------------------------------------------ *)
(** ** Fields at places that do not overlap *)

Lemma holds_kept o o' p x ws : Forall (fun q => ~ overlap p q) (places ws) -> store o p x = Some o' ->
  forall vs, Forall2 (holds o) ws vs -> Forall2 (holds o') ws vs.
Proof.
  intros Ha Hs vs H. induction H as [|w v ws vs H1 H2 IH]; constructor.
  - destruct w as [q|]; [|exact I]. cbn [holds places flat_map] in *. inversion Ha; subst.
    rewrite (load_store_apart _ _ _ _ _ H3 Hs). exact H1.
  - apply IH. destruct w; cbn [places flat_map app] in Ha; [inversion Ha; assumption|exact Ha].
Qed.

Section Loop.
Context (plain : list (attrs * ty) -> list val -> list val * option exn)
        (acc : list afield -> val -> areads)
        (one : attrs -> ty -> val -> dres) (acc_one : afield -> val -> areads).
Context (plain_nil : plain [] [] = ([], None)) (acc_nil : forall o, acc [] o = Did o None)
        (acc_cons : forall fd fs o, acc (fd :: fs) o = athen (acc_one fd o) (acc fs))
        (plain_cons : forall a t fs v vs, plain ((a, t) :: fs) (v :: vs) =
            let '(v', e) := one a t v in
            match e with
            | None => let '(r, e') := plain fs vs in (v' :: r, e')
            | Some _ => (v' :: vs, e)
            end)
        (one_at : forall fd p o v, refers_to fd p -> load o p = Some v ->
            at_place o p (one (af_attrs fd) (af_type fd) v) (acc_one fd o))
        (one_skip : forall fd v, a_skip_deser (af_attrs fd) = true -> one (af_attrs fd) (af_type fd) v = (v, None))
        (acc_skip : forall fd o, a_skip_deser (af_attrs fd) = true -> acc_one fd o = Did o None).

Lemma loop_refines fs : forall ws o vs, Forall2 located fs ws -> apart (places ws) -> Forall2 (holds o) ws vs ->
  exists o' vs' e, acc fs o = Did o' e /\ plain (described fs) vs = (vs', e) /\ Forall2 (holds o') ws vs' /\
    (forall q, Forall (fun p => ~ overlap p q) (places ws) -> load o' q = load o q).
Proof.
  induction fs as [|fd fs IH]; intros ws o vs Hl Ha Hh.
  - inversion Hl; subst. inversion Hh; subst. exists o, [], None. rewrite acc_nil. auto.
  - inversion Hl as [|? w ? ws' Hw Hws]; subst. inversion Hh as [|? v ? vs0 Hv Hvs]; subst.
    cbn [described map]. change (map (fun f => (af_attrs f, af_type f)) fs) with (described fs).
    rewrite acc_cons, plain_cons. destruct w as [p|].
    + cbn [places flat_map app] in Ha. destruct Ha as [Ha1 Ha2]. change (flat_map _ ws') with (places ws') in *.
      destruct (one_at fd p o v Hw Hv) as [o1 [Hs R]]. rewrite R.
      destruct (one (af_attrs fd) (af_type fd) v) as [v' e]. cbn [fst snd] in *. pose proof (holds_kept _ _ _ _ _ Ha1 Hs _ Hvs) as Hk.
      destruct e as [e|]; cbn [athen].
      * exists o1, (v' :: vs0), (Some e). repeat split.
        -- constructor; [exact (load_store_same _ _ _ _ Hs)|exact Hk].
        -- intros q Hq. cbn [places flat_map app] in Hq. inversion Hq; subst. apply (load_store_apart _ _ _ _ _ H1 Hs).
      * destruct (IH ws' o1 vs0 Hws Ha2 Hk) as [o' [vs' [e [H1 [H2 [H3 H4]]]]]]. exists o', (v' :: vs'), e. rewrite H1, H2.
        repeat split.
        -- constructor; [|exact H3]. cbn [holds]. rewrite H4; [exact (load_store_same _ _ _ _ Hs)|].
           eapply Forall_impl; [|exact Ha1]. intros q X Y. apply X, overlap_sym, Y.
        -- intros q Hq. cbn [places flat_map app] in Hq. inversion Hq; subst. change (flat_map _ ws') with (places ws') in *.
           rewrite (H4 q H6). apply (load_store_apart _ _ _ _ _ H5 Hs).
    + cbn [located] in Hw. rewrite (acc_skip fd o Hw), (one_skip fd v Hw). cbn [athen].
      destruct (IH ws' o vs0 Hws Ha Hvs) as [o' [vs' [e [H1 [H2 [H3 H4]]]]]]. exists o', (v :: vs'), e. rewrite H1, H2.
      repeat split; [constructor; [exact I|exact H3]|exact H4].
Qed.
End Loop.

Lemma members_refine f names ms fs ws o vs : Forall2 located fs ws -> apart (places ws) -> Forall2 (holds o) ws vs ->
  exists o' vs' e, acc_members f names ms fs o = Did o' e /\ deser_members f names ms (described fs) vs = (vs', e) /\
    Forall2 (holds o') ws vs' /\ (forall q, Forall (fun p => ~ overlap p q) (places ws) -> load o' q = load o q).
Proof.
  apply (loop_refines (deser_members f names ms) (acc_members f names ms) (reads1 f names ms) (acc_reads1 f names ms));
    try reflexivity.
  - intros fd p o0 v. apply reads1_at.
  - intros fd v H. unfold reads1. rewrite H. reflexivity.
  - intros fd o0 H. unfold acc_reads1. rewrite H. reflexivity.
Qed.

Lemma patch_members_refine f names ms fs ws o vs : Forall2 located fs ws -> apart (places ws) -> Forall2 (holds o) ws vs ->
  exists o' vs' e, acc_patch_members f names ms fs o = Did o' e /\ patch_members f names ms (described fs) vs = (vs', e) /\
    Forall2 (holds o') ws vs' /\ (forall q, Forall (fun p => ~ overlap p q) (places ws) -> load o' q = load o q).
Proof.
  apply (loop_refines (patch_members f names ms) (acc_patch_members f names ms) (patches1 f names ms) (acc_patches1 f names ms));
    try reflexivity.
  - intros fd p o0 v. apply patches1_at.
  - intros fd v H. unfold patches1. rewrite H. reflexivity.
  - intros fd o0 H. unfold acc_patches1. rewrite H. reflexivity.
Qed.

Lemma elements_cons f js a t fs i v vs : deser_elements f js ((a, t) :: fs) i (v :: vs) =
  if a_skip_deser a then let '(r, e') := deser_elements f js fs i vs in (v :: r, e')
  else if a_extra a || a_flatten a then (v :: vs, Some EDeser)
  else
    match then_validate a (f t (at_index js i) v) with
    | (v', None) => let '(r, e') := deser_elements f js fs (S i) vs in (v' :: r, e')
    | (v', Some e) => (v' :: vs, Some e)
    end.
Proof. reflexivity. Qed.

Lemma acc_elements_cons f js fd fs i o : acc_elements f js (fd :: fs) i o =
  if a_skip_deser (af_attrs fd) then acc_elements f js fs i o
  else if a_extra (af_attrs fd) || a_flatten (af_attrs fd) then Did o (Some EDeser)
  else athen (athen (on_value fd (f (af_type fd) (at_index js i)) o) (acc_validate fd)) (acc_elements f js fs (S i)).
Proof. reflexivity. Qed.

Lemma elements_refine f js fs : forall ws i o vs, Forall2 located fs ws -> apart (places ws) -> Forall2 (holds o) ws vs ->
  exists o' vs' e, acc_elements f js fs i o = Did o' e /\ deser_elements f js (described fs) i vs = (vs', e) /\
    Forall2 (holds o') ws vs' /\ (forall q, Forall (fun p => ~ overlap p q) (places ws) -> load o' q = load o q).
Proof.
  induction fs as [|fd fs IH]; intros ws i o vs Hl Ha Hh.
  - inversion Hl; subst. inversion Hh; subst. exists o, [], None. cbn. auto.
  - inversion Hl as [|? w ? ws' Hw Hws]; subst. inversion Hh as [|? v ? vs0 Hv Hvs]; subst.
    cbn [described map]. change (map (fun f => (af_attrs f, af_type f)) fs) with (described fs).
    rewrite elements_cons, acc_elements_cons.
    assert (Ha' : apart (places ws')).
    { destruct w; cbn [places flat_map app] in Ha; [exact (proj2 Ha)|exact Ha]. }
    destruct (a_skip_deser (af_attrs fd)) eqn:Sk.
    { destruct (IH ws' i o vs0 Hws Ha' Hvs) as [o' [vs' [e [H1 [H2 [H3 H4]]]]]].
      exists o', (v :: vs'), e. rewrite H1, H2. repeat split.
      - constructor; [|exact H3]. destruct w as [p|]; [|exact I]. cbn [places flat_map app] in Ha. destruct Ha as [Ha1 _].
        cbn [holds]. rewrite H4; [exact Hv|]. eapply Forall_impl; [|exact Ha1]. intros q X Y. apply X, overlap_sym, Y.
      - intros q Hq. apply H4. destruct w; cbn [places flat_map app] in Hq; [inversion Hq; assumption|exact Hq]. }
    destruct w as [p|]; [|cbn [located] in Hw; congruence].
    cbn [places flat_map app] in Ha. destruct Ha as [Ha1 _]. change (flat_map _ ws') with (places ws') in *.
    destruct (a_extra (af_attrs fd) || a_flatten (af_attrs fd)).
    { exists o, (v :: vs0), (Some EDeser). repeat split. constructor; assumption. }
    destruct (validated_at fd p (f (af_type fd) (at_index js i)) o v Hw Hv) as [o1 [Hs R]]. rewrite R.
    destruct (then_validate (af_attrs fd) (f (af_type fd) (at_index js i) v)) as [v' e]. cbn [fst snd] in *.
    pose proof (holds_kept _ _ _ _ _ Ha1 Hs _ Hvs) as Hk. destruct e as [e|]; cbn [athen].
    + exists o1, (v' :: vs0), (Some e). repeat split.
      * constructor; [exact (load_store_same _ _ _ _ Hs)|exact Hk].
      * intros q Hq. cbn [places flat_map app] in Hq. inversion Hq; subst. apply (load_store_apart _ _ _ _ _ H1 Hs).
    + destruct (IH ws' (S i) o1 vs0 Hws Ha' Hk) as [o' [vs' [e [H1 [H2 [H3 H4]]]]]]. exists o', (v' :: vs'), e. rewrite H1, H2.
      repeat split.
      * constructor; [|exact H3]. cbn [holds]. rewrite H4; [exact (load_store_same _ _ _ _ Hs)|].
        eapply Forall_impl; [|exact Ha1]. intros q X Y. apply X, overlap_sym, Y.
      * intros q Hq. cbn [places flat_map app] in Hq. inversion Hq; subst. change (flat_map _ ws') with (places ws') in *.
        rewrite (H4 q H6). apply (load_store_apart _ _ _ _ _ H5 Hs).
Qed.

Lemma located_compiles fs ws : Forall2 located fs ws -> reading_compiles fs = true.
Proof.
  intros H. induction H as [|f w fs ws H1 H2 IH]; [reflexivity|]. unfold reading_compiles in *. cbn [forallb]. rewrite IH, andb_true_r.
  destruct w as [p|]; cbn [located] in H1; [destruct H1 as [sel [-> _]]; apply orb_true_r|rewrite H1; reflexivity].
Qed.

Theorem deser_refines be fs ws j o vs : Forall2 located fs ws -> apart (places ws) -> Forall2 (holds o) ws vs ->
  exists o' vs' e, acc_deser be fs j o = Did o' e /\ deser be (TRec (described fs)) j (VRec vs) = (VRec vs', e) /\
    Forall2 (holds o') ws vs' /\ (forall q, Forall (fun p => ~ overlap p q) (places ws) -> load o' q = load o q).
Proof.
  intros Hl Ha Hh. unfold acc_deser. rewrite (located_compiles _ _ Hl). cbn [negb].
  assert (Same : forall e, exists o' vs' e', Did o (Some e) = Did o' e' /\ (VRec vs, Some e) = (VRec vs', e') /\
    Forall2 (holds o') ws vs' /\ (forall q, Forall (fun p => ~ overlap p q) (places ws) -> load o' q = load o q)).
  { intros e. exists o, vs, (Some e). repeat split. exact Hh. }
  destruct j as [| | | | |js|ms]; try apply Same; cbn [deser].
  - destruct (_ <? _); [apply Same|].
    destruct (elements_refine (deser be) js fs ws 0 o vs Hl Ha Hh) as [o' [vs' [e [H1 [H2 [H3 H4]]]]]].
    exists o', vs', e. rewrite H1, H2. auto.
  - destruct (reserved_field_names (described fs)) as [names| |]; try apply Same.
    destruct (members_refine (deser be) names ms fs ws o vs Hl Ha Hh) as [o' [vs' [e [H1 [H2 [H3 H4]]]]]].
    exists o', vs', e. rewrite H1, H2. auto.
Qed.

Theorem patch_refines be fs ws j o vs : Forall2 located fs ws -> apart (places ws) -> Forall2 (holds o) ws vs ->
  exists o' vs' e, acc_patch be fs j o = Did o' e /\ patch be (TRec (described fs)) j (VRec vs) = (VRec vs', e) /\
    Forall2 (holds o') ws vs' /\ (forall q, Forall (fun p => ~ overlap p q) (places ws) -> load o' q = load o q).
Proof.
  intros Hl Ha Hh. unfold acc_patch. rewrite (located_compiles _ _ Hl). cbn [negb].
  pose proof (deser_refines be fs ws j o vs Hl Ha Hh) as D.
  destruct j as [| | | | |js|ms]; try exact D. clear D. cbn [patch].
  destruct (reserved_field_names (described fs)) as [names| |];
    try (exists o, vs, (Some ELogic); repeat split; exact Hh).
  destruct (patch_members_refine (patch be) names ms fs ws o vs Hl Ha Hh) as [o' [vs' [e [H1 [H2 [H3 H4]]]]]].
  exists o', vs', e. rewrite H1, H2. auto.
Qed.

(* ------------------------------------------------------------------ *)
(** ** Writing *)

Lemma ser_fields_views skip f names fs : forall o vs, Forall2 (fun fd v => a_skip_ser (af_attrs fd) = true \/ value o fd = Some v) fs vs ->
  acc_ser_fields skip f names o fs = ser_fields skip f names (described fs) vs.
Proof.
  intros o vs H. induction H as [|fd v fs vs H1 H2 IH]; [reflexivity|].
  cbn [acc_ser_fields described map ser_fields]. fold (acc_ser_fields skip f names o) (ser_fields skip f names).
  change (map (fun f => (af_attrs f, af_type f)) fs) with (described fs).
  destruct (a_skip_ser (af_attrs fd)) eqn:Sk; cbn [orb].
  - exact IH.
  - destruct H1 as [X|H1]; [discriminate|]. rewrite H1, IH. reflexivity.
Qed.

Theorem serialize_views be skip fs o vs : Forall2 (fun fd v => a_skip_ser (af_attrs fd) = true \/ value o fd = Some v) fs vs ->
  acc_serialize be skip fs o = serialize be skip (TRec (described fs)) (VRec vs).
Proof.
  intros H. unfold acc_serialize, serialize. cbn [ser]. destruct (reserved_field_names (described fs)) as [names| |]; try reflexivity.
  cbn [obind]. rewrite (ser_fields_views skip (ser be skip) names fs o vs H). reflexivity.
Qed.

(** ** Places that are not there *)
Lemma ser_fields_need skip f names o fs : forall fd ms, In fd fs -> a_skip_ser (af_attrs fd) = false -> value o fd = None ->
  acc_ser_fields skip f names o fs <> Ok ms.
Proof.
  induction fs as [|g fs IH]; intros fd ms I K V; [destruct I|]. cbn [acc_ser_fields]. destruct I as [->|I].
  - rewrite K, V. discriminate.
  - intros E. destruct (a_skip_ser (af_attrs g)); [exact (IH fd ms I K V E)|].
    destruct (value o g) as [v|]; [|discriminate]. destruct (skip_serialized_field skip (af_attrs g) v); [exact (IH fd ms I K V E)|].
    match type of E with obind ?a _ = _ => destruct a as [ms1| |]; cbn [obind] in E; try discriminate end.
    fold (acc_ser_fields skip f names o fs) in E.
    destruct (acc_ser_fields skip f names o fs) as [rest| |] eqn:Er; cbn [obind] in E; try discriminate.
    exact (IH fd rest I K V eq_refl).
Qed.
Lemma serialize_needs be skip fs o fd j : In fd fs -> a_skip_ser (af_attrs fd) = false -> value o fd = None ->
  acc_serialize be skip fs o <> Ok j.
Proof.
  intros I K V E. unfold acc_serialize in E. destruct (reserved_field_names (described fs)) as [names| |]; cbn [obind] in E; try discriminate.
  destruct (acc_ser_fields skip (ser be skip) names o fs) as [ms| |] eqn:Em; try discriminate.
  exact (ser_fields_need skip _ names o fs fd ms I K V Em).
Qed.
