From Coq Require Import List NArith ZArith Arith Bool Lia.
From Verif Require Import Base SerialModel SerialSpec SerialBaseProofs SerialTypeProofs SerialRoundProofs SerialFieldProofs AccModel AccSpec AccProofs.
Import ListNotations.

(* ------------------------------------------------------------------ *)
(** ** Types of places *)

Lemma all1_nth {A} (P : A -> Prop) l i x : all1 P l -> nth_error l i = Some x -> P x.
Proof. revert i. induction l as [|y l IH]; intros [|i] H E; cbn in *; try discriminate; [injection E as <-; tauto|exact (IH i (proj2 H) E)]. Qed.

Lemma all1_upd {A} (P : A -> Prop) l i x : all1 P l -> P x -> all1 P (upd l i x).
Proof. revert i. induction l as [|y l IH]; intros [|i] H E; cbn in *; auto; [tauto|]. split; [tauto|]. apply IH; tauto. Qed.

Lemma all2_nth {A B} (P : A -> B -> Prop) l : forall m i x, all2 P l m -> nth_error m i = Some x -> exists y, nth_error l i = Some y /\ P y x.
Proof.
  induction l as [|y l IH]; intros [|z m] [|i] x H E; cbn in *; try discriminate; try contradiction.
  - injection E as <-. exists y. tauto.
  - apply (IH m i x); tauto.
Qed.

Lemma all2_upd {A B} (P : A -> B -> Prop) l : forall m i x y, all2 P l m -> nth_error l i = Some y -> P y x -> all2 P l (upd m i x).
Proof.
  induction l as [|z l IH]; intros [|w m] [|i] x y H E Hx; cbn in *; try discriminate; try contradiction.
  - injection E as ->. tauto.
  - split; [tauto|]. apply (IH m i x y); tauto.
Qed.

Lemma load_typed p : forall t v u x, typed t v -> place_type t p = Some u -> load v p = Some x -> typed u x.
Proof.
  induction p as [|[i|] p IH]; intros t v u x Ht Hp Hl; cbn [place_type load] in *.
  - injection Hp as <-. injection Hl as <-. exact Ht.
  - destruct t; try discriminate; destruct v; try discriminate; cbn [typed] in Ht; try contradiction;
      (destruct (nth_error vs i) as [y|] eqn:E; [|discriminate]).
    + exact (IH t y u x (all1_nth _ _ _ _ Ht E) Hp Hl).
    + destruct (i <? n); [|discriminate]. exact (IH t y u x (all1_nth _ _ _ _ (proj2 Ht) E) Hp Hl).
    + destruct (all2_nth _ _ _ _ _ Ht E) as [z [Ez Hz]]. rewrite Ez in Hp. exact (IH z y u x Hz Hp Hl).
    + destruct (all2_nth _ _ _ _ _ Ht E) as [z [Ez Hz]]. rewrite Ez in Hp. exact (IH (snd z) y u x Hz Hp Hl).
  - destruct t; try discriminate. destruct v; try discriminate. cbn [typed] in Ht. exact (IH _ _ u x Ht Hp Hl).
Qed.

Lemma store_typed p : forall t v u x v', typed t v -> place_type t p = Some u -> typed u x -> store v p x = Some v' -> typed t v'.
Proof.
  induction p as [|[i|] p IH]; intros t v u x v' Ht Hp Hx Hs; cbn [place_type store] in *.
  - injection Hp as <-. injection Hs as <-. exact Hx.
  - destruct t; try discriminate; destruct v; try discriminate; cbn [typed] in Ht; try contradiction;
      (destruct (nth_error vs i) as [y|] eqn:E; [|discriminate]);
      (destruct (store y p x) as [y'|] eqn:Es; [|discriminate]); cbn in Hs; injection Hs as <-; cbn [typed].
    + apply all1_upd; [exact Ht|]. exact (IH t y u x y' (all1_nth _ _ _ _ Ht E) Hp Hx Es).
    + destruct (i <? n); [|discriminate]. split; [rewrite length_upd; exact (proj1 Ht)|].
      apply all1_upd; [exact (proj2 Ht)|]. exact (IH t y u x y' (all1_nth _ _ _ _ (proj2 Ht) E) Hp Hx Es).
    + destruct (all2_nth _ _ _ _ _ Ht E) as [z [Ez Hz]]. rewrite Ez in Hp.
      apply (all2_upd _ _ _ _ _ z Ht Ez). exact (IH z y u x y' Hz Hp Hx Es).
    + destruct (all2_nth _ _ _ _ _ Ht E) as [z [Ez Hz]]. rewrite Ez in Hp.
      apply (all2_upd _ _ _ _ _ z Ht Ez). exact (IH (snd z) y u x y' Hz Hp Hx Es).
  - destruct t; try discriminate. destruct v; try discriminate. destruct (store v p x) as [y'|] eqn:Es; [|discriminate].
    cbn in Hs. injection Hs as <-. cbn [typed] in *. exact (IH _ _ u x y' Ht Hp Hx Es).
Qed.

(* ------------------------------------------------------------------ *)
(** ** Overlapping places *)

Lemma inside_trans p q r : inside p q -> inside q r -> inside p r.
Proof. intros [a ->] [b ->]. exists (b ++ a). rewrite app_assoc. reflexivity. Qed.

(** what another place shows after a store of what it shows in [o1] too *)
Lemma kept_in_step o o1 o' p x q : load o1 p = Some x -> store o p x = Some o' -> load o q = load o1 q -> load o1 q <> None ->
  load o' q = load o1 q.
Proof.
  intros Hx Hs Hq Hn. destruct (inside_dec q p) as [[r ->]|N1].
  - rewrite (load_store_inside _ _ _ _ r Hs), load_app, Hx. reflexivity.
  - destruct (inside_dec p q) as [[r ->]|N2].
    + destruct (load_store_around _ _ _ _ _ Hs) as [y [y' [H1 [H2 H3]]]]. rewrite H3.
      rewrite <- Hq, H1 in *. rewrite load_app, <- Hq in Hx.
      rewrite (store_load _ _ _ Hx) in H2. congruence.
    + rewrite (load_store_apart _ _ _ _ _ (fun H => match H with or_introl a => N2 a | or_intror b => N1 b end) Hs). exact Hq.
Qed.

Lemma found_in_step o o' p x : store o p x = Some o' -> forall ps before, In p before -> found_in_turn o before ps -> found_in_turn o' before ps.
Proof.
  intros Hs. induction ps as [|q ps IH]; intros before Hp H; [exact I|]. cbn [found_in_turn] in *. destruct H as [H1 H2].
  split; [|apply IH; [right; exact Hp|exact H2]].
  destruct H1 as [H1|H1]; [|right; exact H1].
  destruct (inside_dec q p) as [Hi|N1]; [right; exists p; auto|]. left.
  destruct (inside_dec p q) as [[r ->]|N2].
  - destruct (load_store_around _ _ _ _ _ Hs) as [y [y' [_ [_ H3]]]]. rewrite H3. discriminate.
  - rewrite (load_store_apart _ _ _ _ _ (fun H => match H with or_introl a => N2 a | or_intror b => N1 b end) Hs). exact H1.
Qed.

(** a field gives what [o1] holds, whatever is there before *)
Definition gives (f : ty -> json -> val -> dres) names ms (o1 : val) (fd : afield) (w : option place) : Prop :=
  match w with
  | Some p => exists x, load o1 p = Some x /\ forall u, typed (af_type fd) u -> reads1 f names ms (af_attrs fd) (af_type fd) u = (x, None)
  | None => True
  end.

Lemma round_loop f names ms T o1 fs : forall ws o before, typed T o1 -> typed T o ->
  Forall2 located fs ws -> Forall2 (has_type T) fs ws -> Forall2 (gives f names ms o1) fs ws ->
  (forall q, In q before -> load o q = load o1 q /\ load o1 q <> None) ->
  found_in_turn o before (places ws) ->
  exists o', acc_members f names ms fs o = Did o' None /\ typed T o' /\
    (forall q, In q before \/ In q (places ws) -> load o' q = load o1 q) /\
    (forall q, Forall (fun p => ~ overlap p q) (places ws) -> load o' q = load o q).
Proof.
  induction fs as [|fd fs IH]; intros ws o before T1 T2 Hl Ht Hg Hb Hf.
  - inversion Hl; subst. exists o. repeat split; auto. intros q [H|[]]. apply Hb, H.
  - inversion Hl as [|? w ? ws' Hw Hws]; subst. inversion Ht as [|? ? ? ? Hw2 Hws2]; subst. inversion Hg as [|? ? ? ? Hw3 Hws3]; subst.
    rewrite acc_members_cons. destruct w as [p|].
    + cbn [places flat_map app] in *. change (flat_map _ ws') with (places ws') in *. cbn [has_type gives] in *.
      destruct Hw3 as [x [Hx Hstep]]. destruct Hf as [Hf1 Hf2].
      assert (Lp : exists u, load o p = Some u).
      { destruct Hf1 as [H|[q [Hq [r ->]]]].
        - destruct (load o p) as [u|]; [exists u; reflexivity|contradiction].
        - exists x. rewrite load_app in *. rewrite (proj1 (Hb q Hq)). exact Hx. }
      destruct Lp as [u Hu]. pose proof (load_typed _ _ _ _ _ T2 Hw2 Hu) as Tu.
      destruct (reads1_at f names ms fd p o u Hw Hu) as [o' [Hs R]]. rewrite (Hstep u Tu) in *. cbn [fst snd] in *. rewrite R. cbn [athen].
      pose proof (load_typed _ _ _ _ _ T1 Hw2 Hx) as Tx. pose proof (store_typed _ _ _ _ _ _ T2 Hw2 Tx Hs) as T3.
      destruct (IH ws' o' (p :: before) T1 T3 Hws Hws2 Hws3) as [o2 [H1 [H2 [H3 H4]]]].
      * intros q [<-|Hq].
        -- rewrite (load_store_same _ _ _ _ Hs), Hx. split; [reflexivity|discriminate].
        -- destruct (Hb q Hq) as [B1 B2]. split; [|exact B2]. exact (kept_in_step _ _ _ _ _ _ Hx Hs B1 B2).
      * apply (found_in_step _ _ _ _ Hs); [left; reflexivity|exact Hf2].
      * exists o2. split; [exact H1|]. split; [exact H2|]. split.
        -- intros q [Hq|[<-|Hq]]; apply H3; [left; right; exact Hq|left; left; reflexivity|right; exact Hq].
        -- intros q Hq. inversion Hq; subst. rewrite (H4 q H6). apply (load_store_apart _ _ _ _ _ H5 Hs).
    + cbn [located] in Hw. unfold acc_reads1. rewrite Hw. cbn [athen].
      exact (IH ws' o before T1 T2 Hws Hws2 Hws3 Hb Hf).
Qed.

(* ------------------------------------------------------------------ *)
(** ** What was written *)

Lemma members_steps f names ms fs : forall vs r, deser_members f names ms fs vs = (r, None) ->
  forall i a t v, nth_error fs i = Some (a, t) -> nth_error vs i = Some v ->
  exists x, nth_error r i = Some x /\ reads1 f names ms a t v = (x, None).
Proof.
  induction fs as [|[a0 t0] fs IH]; intros vs r H i a t v Hi Hv; [destruct i; discriminate|].
  destruct vs as [|v0 vs]; [destruct i; discriminate|]. rewrite members_cons1 in H.
  destruct (reads1 f names ms a0 t0 v0) as [v' e] eqn:E. destruct e as [e|]; [discriminate|].
  destruct (deser_members f names ms fs vs) as [r' e'] eqn:E'. injection H as <- ->.
  destruct i as [|i]; cbn [nth_error] in *.
  - injection Hi as <- <-. injection Hv as <-. exists v'. auto.
  - exact (IH vs r' E' i a t v Hi Hv).
Qed.

Lemma ser_object be skip fs vs j : serialize be skip (TRec fs) (VRec vs) = Ok j ->
  exists names ms, j = JObj ms /\ reserved_field_names fs = Ok names.
Proof.
  unfold serialize. cbn [ser]. destruct (reserved_field_names fs) as [names| |]; try discriminate. cbn [obind].
  destruct (ser_fields _ _ _ _ _) as [ms| |]; try discriminate. cbn. intros H. injection H as <-. exists names, ms. auto.
Qed.

Lemma Forall2_nth {A B} (P : A -> B -> Prop) l m : Forall2 P l m -> forall i x y, nth_error l i = Some x -> nth_error m i = Some y -> P x y.
Proof. intros H. induction H; intros [|i] a b Ha Hb; cbn in *; try discriminate; [congruence|]. exact (IHForall2 i a b Ha Hb). Qed.

Lemma Forall2_of_nth {A B} (P : A -> B -> Prop) l : forall m, length l = length m ->
  (forall i x y, nth_error l i = Some x -> nth_error m i = Some y -> P x y) -> Forall2 P l m.
Proof.
  induction l as [|x l IH]; intros [|y m] H Hn; try discriminate; constructor.
  - apply (Hn 0); reflexivity.
  - apply IH; [cbn in H; lia|]. intros i a b Ha Hb. exact (Hn (S i) a b Ha Hb).
Qed.

Lemma nth_described fs i fd : nth_error fs i = Some fd -> nth_error (described fs) i = Some (af_attrs fd, af_type fd).
Proof. intros H. unfold described. rewrite nth_error_map, H. reflexivity. Qed.

Theorem round_trip be skip T fs ws o1 o2 vs j :
  wf (TRec (described fs)) -> typed (TRec (described fs)) (VRec vs) -> typed T o1 -> typed T o2 ->
  Forall2 located fs ws -> Forall2 (has_type T) fs ws -> Forall2 (fun fd v => value o1 fd = Some v) fs vs ->
  (forall fd p, In (fd, Some p) (combine fs ws) -> a_skip_deser (af_attrs fd) = false) ->
  (forall us, typed (TRec (described fs)) (VRec us) ->
     (forall i fd, nth_error fs i = Some fd -> a_skip_deser (af_attrs fd) = true -> nth_error us i = nth_error vs i) ->
     rt be skip (TRec (described fs)) (VRec vs) (VRec us)) ->
  found_in_turn o2 [] (places ws) ->
  acc_serialize be skip fs o1 = Ok j ->
  exists o', acc_deser be fs j o2 = Did o' None /\ typed T o' /\
    (forall p, In p (places ws) -> load o' p = load o1 p) /\
    (forall q, Forall (fun p => ~ overlap p q) (places ws) -> load o' q = load o2 q).
Proof.
  intros Hwf Hty T1 T2 Hl Ht Hv Hsk Hrt Hf Hser.
  assert (Hs : serialize be skip (TRec (described fs)) (VRec vs) = Ok j).
  { rewrite <- Hser. symmetry. apply serialize_views. clear - Hv. induction Hv; constructor; auto. }
  destruct (ser_object _ _ _ _ _ Hs) as [names [ms [-> Hn]]].
  unfold acc_deser. rewrite (located_compiles _ _ Hl), Hn. cbn [negb].
  destruct (round_loop (deser be) names ms T o1 fs ws o2 []) as [o' [H1 [H2 [H3 H4]]]]; try assumption.
  - apply Forall2_of_nth; [exact (Forall2_len _ _ _ Hl)|]. intros i fd w Hi Hw. destruct w as [p|]; [|exact I].
    pose proof (Forall2_nth _ _ _ Hl i fd (Some p) Hi Hw) as [sel [Hsel Hp]].
    assert (Sk : a_skip_deser (af_attrs fd) = false).
    { apply (Hsk fd p). clear - Hi Hw. revert i ws Hi Hw. induction fs as [|g fs IH]; intros [|i] [|w ws] Hi Hw; cbn in *; try discriminate.
      - injection Hi as ->. injection Hw as ->. left. reflexivity.
      - right. exact (IH i ws Hi Hw). }
    assert (Hx : exists x, nth_error vs i = Some x /\ value o1 fd = Some x).
    { pose proof (Forall2_len _ _ _ Hv) as Hlen. assert (i < length fs) by (apply nth_error_Some; rewrite Hi; discriminate).
      destruct (nth_error vs i) as [x|] eqn:Ex; [|apply nth_error_None in Ex; lia].
      exists x. split; [reflexivity|]. exact (Forall2_nth _ _ _ Hv i fd x Hi Ex). }
    destruct Hx as [x [Ex Hx]]. unfold value in Hx. rewrite Hsel, Hp in Hx.
    exists x. split; [exact Hx|]. intros u Hu.
    assert (Tu : typed (TRec (described fs)) (VRec (upd vs i u))).
    { cbn [typed]. apply (all2_upd _ _ _ _ _ (af_attrs fd, af_type fd)); [exact Hty|exact (nth_described _ _ _ Hi)|exact Hu]. }
    pose proof (round_trip_lemma be skip _ _ _ _ Hwf Hty (Hrt (upd vs i u) Tu ltac:(
      intros k g Hk Hg; destruct (Nat.eq_dec i k) as [<-|N]; [rewrite Hi in Hk; injection Hk as <-; congruence|apply nth_upd_ne, N])) Hs) as D.
    cbn [deser] in D. rewrite Hn in D. destruct (deser_members (deser be) names ms (described fs) (upd vs i u)) as [r e] eqn:E.
    injection D as -> ->.
    destruct (members_steps _ _ _ _ _ _ E i _ _ u (nth_described _ _ _ Hi) (nth_upd_eq _ _ _ _ Ex)) as [y [Hy R]].
    rewrite Ex in Hy. injection Hy as <-. exact R.
  - intros q [].
  - exists o'. split; [exact H1|]. split; [exact H2|]. split; [|exact H4]. intros p Hp. apply H3. right. exact Hp.
Qed.

(* ------------------------------------------------------------------ *)
(** ** The last field wins *)

Lemma step_elsewhere f names ms fd o o' e q p : refers_to fd q -> ~ overlap q p -> acc_reads1 f names ms fd o = Did o' e -> load o' p = load o p.
Proof.
  intros Hr Ho H. destruct (load o q) as [v|] eqn:E.
  - destruct (reads1_at f names ms fd q o v Hr E) as [o1 [Hs R]]. rewrite R in H. injection H as <- _.
    exact (load_store_apart _ _ _ _ _ Ho Hs).
  - destruct Hr as [sel [Hw Hs]].
    assert (N : forall g, on_value fd g o = Undef) by (intros g; unfold on_value; rewrite Hw, Hs, E; reflexivity).
    unfold acc_reads1, acc_read_field in H.
    destruct (a_skip_deser (af_attrs fd)); [congruence|]. destruct (a_extra (af_attrs fd)); [destruct (af_type fd); rewrite N in H; discriminate|].
    destruct (a_flatten (af_attrs fd)); [rewrite N in H; discriminate|].
    destruct (resolve_field_name ms (af_attrs fd)) as [n|].
    + destruct (is_null (at_field ms n)), (a_default (af_attrs fd)); rewrite N in H; discriminate.
    + destruct (a_default (af_attrs fd)); [rewrite N in H; discriminate|]. destruct (a_allow_missing (af_attrs fd)); [congruence|rewrite N in H; discriminate].
Qed.

Lemma missing_place f names ms fd o o' e p : refers_to fd p -> load o p = None -> acc_reads1 f names ms fd o = Did o' e -> o' = o.
Proof.
  intros [sel [Hw Hs]] E H.
  assert (N : forall g, on_value fd g o = Undef) by (intros g; unfold on_value; rewrite Hw, Hs, E; reflexivity).
  unfold acc_reads1, acc_read_field in H.
  destruct (a_skip_deser (af_attrs fd)); [congruence|]. destruct (a_extra (af_attrs fd)); [destruct (af_type fd); rewrite N in H; discriminate|].
  destruct (a_flatten (af_attrs fd)); [rewrite N in H; discriminate|].
  destruct (resolve_field_name ms (af_attrs fd)) as [n|].
  + destruct (is_null (at_field ms n)), (a_default (af_attrs fd)); rewrite N in H; discriminate.
  + destruct (a_default (af_attrs fd)); [rewrite N in H; discriminate|]. destruct (a_allow_missing (af_attrs fd)); [congruence|rewrite N in H; discriminate].
Qed.

Lemma later_elsewhere f names ms p fs : forall ws o o' e, Forall2 located fs ws -> Forall (fun q => ~ overlap q p) (places ws) ->
  acc_members f names ms fs o = Did o' e -> load o' p = load o p.
Proof.
  induction fs as [|fd fs IH]; intros ws o o' e Hl Hp H.
  - cbn in H. congruence.
  - inversion Hl as [|? w ? ws' Hw Hws]; subst. rewrite acc_members_cons in H.
    assert (Hp' : Forall (fun q => ~ overlap q p) (places ws')).
    { destruct w; cbn [places flat_map app] in Hp; [inversion Hp; assumption|exact Hp]. }
    assert (S1 : forall o1 e1, acc_reads1 f names ms fd o = Did o1 e1 -> load o1 p = load o p).
    { intros o1 e1 E. destruct w as [q|]; cbn [located] in Hw.
      - cbn [places flat_map app] in Hp. inversion Hp; subst. exact (step_elsewhere _ _ _ _ _ _ _ _ _ Hw H2 E).
      - unfold acc_reads1 in E. rewrite Hw in E. congruence. }
    destruct (acc_reads1 f names ms fd o) as [o1 [e1|]| |] eqn:E; cbn [athen] in H; try discriminate.
    + injection H as <- _. exact (S1 _ _ eq_refl).
    + rewrite (IH ws' o1 o' e Hws Hp' H). exact (S1 _ _ eq_refl).
Qed.

Lemma members_app f names ms fs1 fs2 o : acc_members f names ms (fs1 ++ fs2) o = athen (acc_members f names ms fs1 o) (acc_members f names ms fs2).
Proof.
  revert o. induction fs1 as [|fd fs1 IH]; intros o; [reflexivity|]. cbn [app]. rewrite !acc_members_cons.
  destruct (acc_reads1 f names ms fd o) as [o1 [e|]| |]; cbn [athen]; auto.
Qed.

Theorem last_wins be fs1 fd fs2 ws2 ms o o' p x : wf (TRec (described (fs1 ++ fd :: fs2))) ->
  (any_extra_or_flatten (described (fs1 ++ fd :: fs2)) = true -> distinct_names (TRec (described (fs1 ++ fd :: fs2)))) ->
  acc_deser be (fs1 ++ fd :: fs2) (JObj ms) o = Did o' None ->
  refers_to fd p -> Forall2 located fs2 ws2 -> Forall (fun q => ~ overlap q p) (places ws2) -> load o' p = Some x ->
  exists w, field_reads (deser be) (all_names (TRec (described (fs1 ++ fd :: fs2)))) ms (af_attrs fd, af_type fd) w (x, None).
Proof.
  set (all := described (fs1 ++ fd :: fs2)). intros (_ & Hok & _) Hd H Hr Hl Hp Hx. unfold acc_deser in H.
  destruct (reading_compiles _); [|discriminate]. cbn [negb] in H.
  assert (Hn : exists names, reserved_field_names all = Ok names /\ (any_extra_or_flatten all = true -> names = all_names (TRec all))).
  { destruct (any_extra_or_flatten all) eqn:E.
    - destruct (reserved_distinct all (Hd eq_refl)) as (ns & E1 & E2). exists ns. split; [exact E1|auto].
    - exists []. split; [now apply reserved_none|discriminate]. }
  destruct Hn as (names & En & Hn). fold all in H. rewrite En in H. rewrite members_app in H.
  destruct (acc_members (deser be) names ms fs1 o) as [o1 [e|]| |]; cbn [athen] in H; try discriminate.
  rewrite acc_members_cons in H. destruct (acc_reads1 (deser be) names ms fd o1) as [o2 [e|]| |] eqn:E; cbn [athen] in H; try discriminate.
  rewrite (later_elsewhere _ _ _ _ _ _ _ _ _ Hl Hp H) in Hx.
  destruct (load o1 p) as [w|] eqn:Ew.
  2:{ rewrite (missing_place _ _ _ _ _ _ _ _ Hr Ew E) in Hx. congruence. }
  destruct (reads1_at (deser be) names ms fd p o1 w Hr Ew) as [o3 [Hs R]]. rewrite R in E. injection E as -> Ee.
  rewrite (load_store_same _ _ _ _ Hs) in Hx. injection Hx as Hx.
  assert (In (af_attrs fd, af_type fd) all) as Hin.
  { unfold all, described. apply in_map_iff. exists fd. split; [reflexivity|]. apply in_or_app. right. left. reflexivity. }
  assert (Ho : all1 field_ok [(af_attrs fd, af_type fd)]).
  { split; [|exact I]. rewrite all1_Forall, Forall_forall in Hok. exact (Hok _ Hin). }
  pose proof (members_in_order be names ms [(af_attrs fd, af_type fd)] Ho [w] eq_refl) as M. rewrite members_cons1 in M.
  destruct (reads1 (deser be) names ms (af_attrs fd) (af_type fd) w) as [v' e] eqn:Er. cbn [fst snd] in *. subst v' e.
  cbn [deser_members fst snd in_order] in M. destruct M as [[M _]|(y & Y & _)]; [|discriminate]. exists w.
  unfold field_reads in *. destruct (a_skip_deser (af_attrs fd)); [exact M|]. destruct (a_extra (af_attrs fd)) eqn:Ex; [|exact M].
  rewrite (Hn (any_in all _ _ Hin (or_introl Ex))) in M. exact M.
Qed.
