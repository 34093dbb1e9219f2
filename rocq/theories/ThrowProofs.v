From Coq Require Import List Arith Bool Lia.
From Verif Require Import ThrowModel ThrowSpec.
Import ListNotations.

Lemma cls_ind' (P : cls -> Prop) :
  (forall n t bs, (forall k b, In (k, b) bs -> P b) -> P (Cls n t bs)) -> forall c, P c.
Proof.
  intros H. fix self 1. intros [n t bs]. apply H.
  induction bs as [|[k b] bs IH]; [intros ? ? []|].
  intros k' b' [E|E]; [injection E as <- <-; apply self | exact (IH k' b' E)].
Qed.

Lemma name_eqb_true a : forall b, name_eqb a b = true <-> a = b.
Proof.
  induction a as [m| | | |x IH]; intros [n| | | |y]; cbn; try (split; congruence).
  - rewrite Nat.eqb_eq. split; congruence.
  - rewrite IH. split; congruence.
Qed.
Lemma name_eqb_refl a : name_eqb a a = true.
Proof. now apply name_eqb_true. Qed.
Lemma path_eqb_true a : forall b, path_eqb a b = true <-> a = b.
Proof.
  induction a as [|x a IH]; intros [|y b]; cbn; try (split; congruence).
  rewrite andb_true_iff, name_eqb_true, IH. split; [intros [-> ->]; reflexivity | intros [= -> ->]; now split].
Qed.
Lemma place_eqb_true a b : place_eqb a b = true <-> a = b.
Proof.
  destruct a as [[x|] p], b as [[y|] q]; unfold place_eqb; cbn [p_root p_path];
    rewrite andb_true_iff, path_eqb_true, ?name_eqb_true; split; try (intros [? ?]; congruence); intros [=]; subst; now split.
Qed.

Lemma distinct_In p l : In p (distinct l) <-> In p l.
Proof.
  induction l as [|q l IH]; [reflexivity|]. cbn [distinct]. destruct (existsb (place_eqb q) l) eqn:E; cbn [In]; rewrite IH; [|reflexivity].
  split; [now right|]. intros [<-|H]; [|exact H]. apply existsb_exists in E as (x & H & E). apply place_eqb_true in E. now subst x.
Qed.
Lemma distinct_NoDup l : NoDup (distinct l).
Proof.
  induction l as [|q l IH]; [constructor|]. cbn [distinct]. destruct (existsb (place_eqb q) l) eqn:E; [exact IH|].
  constructor; [|exact IH]. rewrite distinct_In. intros H. assert (X : existsb (place_eqb q) l = true); [|congruence].
  apply existsb_exists. exists q. split; [exact H | now apply place_eqb_true].
Qed.

(** * Parts and lists of subobjects *)

(** Parts seen from anywhere. *)
Inductive part_at (c : cls) (p0 : place) (u0 : bool) : place -> bool -> cls -> Prop :=
| pa_self : part_at c p0 u0 p0 u0 c
| pa_base p pub d k b :
    part_at c p0 u0 p pub d -> In (k, b) (c_bases d) -> part_at c p0 u0 (base_place p k b) (pub && k_public k) b.

Lemma part_at_part c p u d : part_at c whole true p u d <-> part c p u d.
Proof. split; induction 1; try constructor; try (econstructor; eassumption). Qed.

Lemma part_at_trans c p0 u0 d p1 u1 : part_at c p0 u0 p1 u1 d ->
  forall p2 u2 e, part_at d p1 u1 p2 u2 e -> part_at c p0 u0 p2 u2 e.
Proof. intros H p2 u2 e K. induction K; [exact H | econstructor; eassumption]. Qed.

Lemma part_at_first c p0 u0 p u d : part_at c p0 u0 p u d ->
  (p = p0 /\ u = u0 /\ d = c) \/
  exists k b, In (k, b) (c_bases c) /\ part_at b (base_place p0 k b) (u0 && k_public k) p u d.
Proof.
  induction 1 as [|p u d k b H IH B]; [now left|]. right.
  destruct IH as [(-> & -> & ->)|(k' & b' & B' & K)].
  - exists k, b. split; [exact B | constructor].
  - exists k', b'. split; [exact B'|]. econstructor; eassumption.
Qed.

Lemma in_subs c : forall p0 u0 s, In s (subs c p0 u0) <-> part_at c p0 u0 (s_place s) (s_public s) (s_class s).
Proof.
  induction c as [n t bs IH] using cls_ind'. intros p0 u0 s. cbn [subs In]. rewrite in_flat_map. split.
  - intros [<-|([k b] & B & K)]; [constructor|].
    apply (IH k b B) in K. eapply part_at_trans; [|exact K].
    apply (pa_base _ _ _ p0 u0 (Cls n t bs) k b); [constructor | exact B].
  - intros K. apply part_at_first in K as [(E1 & E2 & E3)|(k & b & B & K)].
    + left. destruct s; cbn in *. now subst.
    + right. exists (k, b). split; [exact B|]. now apply (IH k b B).
Qed.

Lemma in_all c s : In s (all c) <-> part c (s_place s) (s_public s) (s_class s).
Proof. unfold all. rewrite in_subs. apply part_at_part. Qed.
Lemma in_all' c p u d : In (mksub p u d) (all c) <-> part c p u d.
Proof. apply (in_all c (mksub p u d)). Qed.

(** The class at a place is called what the place says. *)
Definition says (c : cls) (p : place) : name :=
  match p_path p, p_root p with n :: _, _ => n | [], Some n => n | [], None => c_name c end.
Lemma part_says c p u d : part c p u d -> c_name d = says c p.
Proof.
  induction 1 as [|p u d k b H IH B]; [reflexivity|]. unfold base_place, says. now destruct (k_virtual k).
Qed.

Lemma part_trans c p u d : part c p u d -> forall q v e, part d q v e -> exists q' v', part c q' v' e.
Proof.
  intros H q v e K. induction K as [|q v e k b K IH B]; [eauto|].
  destruct IH as (q' & v' & H'). eexists _, _. econstructor; eassumption.
Qed.

Lemma has_trans t c p u d : part c p u d -> has t d -> has t c.
Proof.
  intros H (q & v & e & K & E). destruct (part_trans _ _ _ _ H _ _ _ K) as (q' & v' & H'). now exists q', v', e.
Qed.

(** * The functions of the model *)

Lemma base_of_has t c : base_of t c = true <-> has t c.
Proof.
  unfold base_of, named. rewrite existsb_exists. split.
  - intros (s & K & E). apply in_all in K. apply name_eqb_true in E. now exists (s_place s), (s_public s), (s_class s).
  - intros (p & u & d & K & E). exists (mksub p u d). split; [now apply in_all' | now apply name_eqb_true].
Qed.

Lemma visible_part c p : visible c p = true <-> exists d, part c p true d.
Proof.
  unfold visible. rewrite existsb_exists. split.
  - intros (s & K & E). apply andb_true_iff in E as [E U]. apply place_eqb_true in E. apply in_all in K.
    rewrite E, U in K. eauto.
  - intros (d & K). exists (mksub p true d). split; [now apply in_all'|]. cbn. rewrite andb_true_r. now apply place_eqb_true.
Qed.

Lemma in_places t c p : In p (places t c) <-> exists u d, part c p u d /\ c_name d = t.
Proof.
  unfold places. rewrite distinct_In, in_map_iff. split.
  - intros (s & <- & K). apply filter_In in K as [K E]. apply in_all in K. apply name_eqb_true in E. eauto.
  - intros (u & d & K & E). exists (mksub p u d). split; [reflexivity|]. apply filter_In. split; [now apply in_all'|].
    now apply name_eqb_true.
Qed.

Lemma NoDup_single {A} (l : list A) x : NoDup l -> (forall y, In y l <-> y = x) -> l = [x].
Proof.
  intros N H. destruct l as [|a l]; [exfalso; exact (proj2 (H x) eq_refl)|].
  assert (a = x) as -> by (apply H; now left). destruct l as [|b l]; [reflexivity|].
  assert (b = x) as -> by (apply H; right; now left). exfalso. inversion N as [|? ? K]. apply K. now left.
Qed.

Lemma places_NoDup t c : NoDup (places t c).
Proof. apply distinct_NoDup. Qed.

Lemma upcast_only t c p : upcast c t = Some p <-> only_public t c p.
Proof.
  unfold upcast, only_public. split.
  - destruct (places t c) as [|q [|q' l]] eqn:E; try discriminate.
    destruct (visible c q) eqn:U; [|discriminate]. intros [= <-]. apply visible_part in U as (d & K).
    assert (X : forall y, In y (places t c) <-> y = q) by (intros y; rewrite E; cbn; intuition congruence).
    split.
    + exists d. split; [exact K|]. destruct (proj1 (in_places t c q)) as (u & d' & K' & E'); [apply X; reflexivity|].
      now rewrite (part_says _ _ _ _ K), <- (part_says _ _ _ _ K').
    + intros y u d' K' E'. apply X, in_places. eauto.
  - intros [(d & K & E) N].
    assert (places t c = [p]) as ->.
    { apply NoDup_single; [apply places_NoDup|]. intros y. rewrite in_places. split.
      - intros (u & d' & K' & E'). exact (N y u d' K' E').
      - intros ->. eauto. }
    now rewrite (proj2 (visible_part c p) (ex_intro _ d K)).
Qed.

Lemma upcast_none t c : upcast c t = None <-> ~ exists p, only_public t c p.
Proof.
  split.
  - intros E (p & H). apply upcast_only in H. congruence.
  - intros H. destruct (upcast c t) as [p|] eqn:E; [|reflexivity]. exfalso. apply H. exists p. now apply upcast_only.
Qed.

Lemma catches_takes t c : catches t c = true <-> takes t c.
Proof.
  unfold catches, takes. rewrite orb_true_iff, name_eqb_true. split; (intros [E|E]; [now left|right]).
  - destruct (upcast c t) as [p|] eqn:U; [|discriminate]. exists p. now apply upcast_only.
  - destruct E as (p & E). apply upcast_only in E. now rewrite E.
Qed.

Lemma polymorphic_part c : polymorphic c = true <-> exists p u d, part c p u d /\ t_virtual_functions (c_traits d) = true.
Proof.
  unfold polymorphic. rewrite existsb_exists. split.
  - intros (s & K & E). apply in_all in K. eauto.
  - intros (p & u & d & K & E). exists (mksub p u d). split; [now apply in_all' | exact E].
Qed.

(** * The class that is thrown *)

Lemma lifted_inj e p q : lifted e p = lifted e q -> p = q.
Proof.
  destruct p as [[m|] p], q as [[n|] q]; unfold lifted; cbn; try congruence.
  intros [= E]. now apply app_inv_tail in E as ->.
Qed.
Lemma lifted_base e p k b : lifted e (base_place p k b) = base_place (lifted e p) k b.
Proof. unfold base_place, lifted. destruct (k_virtual k); [reflexivity|]. now destruct p as [[m|] p]. Qed.

Lemma lifted_part e p u d : part e p u d -> part (with_class e) (lifted e p) u d.
Proof.
  induction 1 as [|p u d k b H IH B].
  - apply (part_base (with_class e) whole true (with_class e) plain_public e); [constructor | now left].
  - rewrite lifted_base. now apply (part_base _ _ _ d).
Qed.
Lemma base_part e : part (with_class e) at_base true info_base_class.
Proof. apply (part_base (with_class e) whole true (with_class e) plain_public info_base_class); [constructor | right; now left]. Qed.
Lemma info_part e : part (with_class e) at_info true info_class.
Proof. apply (part_base (with_class e) at_base true info_base_class plain_public info_class); [apply base_part | now left]. Qed.

Lemma with_parts e p u d : part (with_class e) p u d ->
  (p = whole /\ u = true /\ d = with_class e) \/
  (exists q, p = lifted e q /\ part e q u d) \/
  (p = at_base /\ u = true /\ d = info_base_class) \/
  (p = at_info /\ u = true /\ d = info_class).
Proof.
  induction 1 as [|p u d k b H IH B]; [now left|]. right.
  destruct IH as [(-> & -> & ->)|[(q & -> & K)|[(-> & -> & ->)|(-> & -> & ->)]]].
  - cbn in B. destruct B as [[= <- <-]|[[= <- <-]|[]]].
    + left. exists whole. split; [reflexivity | constructor].
    + right; left. repeat split; reflexivity.
  - left. exists (base_place q k b). split; [now rewrite lifted_base|]. now apply (part_base _ _ _ d).
  - cbn in B. destruct B as [[= <- <-]|[]]. right; right. repeat split; reflexivity.
  - destruct B.
Qed.

(** Nothing in [e] has a name of the library's own. *)
Lemma no_carrier e p u d : library e -> ~ has Info e -> part e p u d -> ~ carrier e (c_name d).
Proof.
  intros L N K C. apply N. destruct C as [E|C].
  - now exists p, u, d.
  - apply (has_trans _ _ _ _ _ K), (L _ _ _ K). destruct C as [E|E]; [now left | right; eauto].
Qed.

Lemma only_public_with e t p : library e -> ~ has Info e ->
  only_public t (with_class e) p <->
  (exists q, p = lifted e q /\ only_public t e q) \/
  (t = Info /\ p = at_info) \/ (t = Info_base /\ p = at_base) \/ (t = With (c_name e) /\ p = whole).
Proof.
  intros L N. split.
  - intros [(d & K & E) U]. apply with_parts in K as [(-> & _ & ->)|[(q & -> & K)|[(-> & _ & ->)|(-> & _ & ->)]]]; cbn in E; subst t.
    + right; right; right. now split.
    + left. exists q. split; [reflexivity|]. split; [now exists d|]. intros q' u d' K' E'.
      apply (lifted_inj e), (U _ u d'); [now apply lifted_part | exact E'].
    + right; right; left. now split.
    + right; left. now split.
  - intros [(q & -> & (d & K & E) & U)|[(-> & ->)|[(-> & ->)|(-> & ->)]]].
    + assert (C := no_carrier e _ _ _ L N K). split; [exists d; split; [now apply lifted_part | exact E]|].
      intros q' u d' K' E'. apply with_parts in K' as [(-> & _ & ->)|[(q2 & -> & K')|[(-> & _ & ->)|(-> & _ & ->)]]].
      * exfalso. apply C. right; right. now rewrite E, <- E'.
      * now rewrite (U _ _ _ K' E').
      * exfalso. apply C. right; left. now rewrite E, <- E'.
      * exfalso. apply C. left. now rewrite E, <- E'.
    + split; [exists info_class; split; [apply info_part | reflexivity]|].
      intros q u d K E. apply with_parts in K as [(-> & _ & ->)|[(q2 & -> & K)|[(-> & _ & ->)|(-> & _ & ->)]]]; try discriminate E; try reflexivity.
      exfalso. apply (no_carrier e _ _ _ L N K). now left.
    + split; [exists info_base_class; split; [apply base_part | reflexivity]|].
      intros q u d K E. apply with_parts in K as [(-> & _ & ->)|[(q2 & -> & K)|[(-> & _ & ->)|(-> & _ & ->)]]]; try discriminate E; try reflexivity.
      exfalso. apply (no_carrier e _ _ _ L N K). right; now left.
    + split; [exists (with_class e); split; [constructor | reflexivity]|].
      intros q u d K E. apply with_parts in K as [(-> & _ & ->)|[(q2 & -> & K)|[(-> & _ & ->)|(-> & _ & ->)]]]; try discriminate E; try reflexivity.
      exfalso. apply (no_carrier e _ _ _ L N K). right; now right.
Qed.

(** * What compiles *)

Lemma in_virtual_bases e d :
  In d (virtual_bases e) <-> exists u n, part e (mkplace (Some n) []) u d.
Proof.
  unfold virtual_bases. rewrite in_map_iff. split.
  - intros (s & <- & K). apply filter_In in K as [K E]. apply in_all in K. destruct s as [[[n|] [|m p]] u c]; try discriminate E. eauto.
  - intros (u & n & K). exists (mksub (mkplace (Some n) []) u d). split; [reflexivity|]. apply filter_In. split; [now apply in_all' | reflexivity].
Qed.

Lemma throwable_iff e :
  throwable e = true <->
  t_final (c_traits e) = false /\ ~ has Info e /\
  (forall u n d, part e (mkplace (Some n) []) u d -> t_default (c_traits d) = true).
Proof.
  unfold throwable. rewrite !andb_true_iff, !negb_true_iff, forallb_forall. split.
  - intros [[F B] D]. split; [exact F|]. split.
    + intros H. apply base_of_has in H. congruence.
    + intros u n d K. apply D, in_virtual_bases. eauto.
  - intros (F & B & D). split; [split; [exact F|]|].
    + destruct (base_of Info e) eqn:E; [|reflexivity]. now apply base_of_has in E.
    + intros d K. apply in_virtual_bases in K as (u & n & K). eauto.
Qed.

(** * Handlers *)

Theorem takes_with e t : library e -> proper e -> throwable e = true ->
  takes t (with_class e) <-> takes t e \/ carrier e t.
Proof.
  intros L P T. apply throwable_iff in T as (_ & N & _). unfold takes, carrier. split.
  - intros [E|(p & H)]; [right; right; right; now rewrite <- E|].
    apply (only_public_with e t p L N) in H as [(q & _ & H)|[(E & _)|[(E & _)|(E & _)]]]; eauto.
  - intros [[E|(q & H)]|[E|[E|E]]].
    + right. exists (lifted e whole). apply (only_public_with e t _ L N). left. exists whole. split; [reflexivity|].
      split; [exists e; split; [constructor | exact E]|]. intros q u d K E'. apply (P _ _ _ K). congruence.
    + right. exists (lifted e q). apply (only_public_with e t _ L N). left. eauto.
    + right. exists at_info. apply (only_public_with e t _ L N). right; left. now split.
    + right. exists at_base. apply (only_public_with e t _ L N). right; right; left. now split.
    + left. now subst t.
Qed.

Lemma handler_for_first hs c : first_taking hs c (handler_for hs c).
Proof.
  unfold handler_for.
  set (go := fix go (hs : list (option name)) (i : nat) := match hs with
     | [] => None | None :: _ => Some i | Some t :: hs' => if catches t c then Some i else go hs' (S i) end).
  assert (X : forall hs i, match go hs i with
     | Some n => exists m, n = i + m /\ first_taking hs c (Some m)
     | None => first_taking hs c None end).
  { clear hs. induction hs as [|[t|] hs IH]; intros i; cbn [go].
    - intros h [].
    - destruct (catches t c) eqn:C.
      + exists 0. split; [lia|]. split; [exists (Some t); split; [reflexivity | now apply catches_takes] | intros j h Hj; lia].
      + assert (C' : ~ takes t c) by (intros X; apply catches_takes in X; congruence).
        specialize (IH (S i)). destruct (go hs (S i)) as [n|].
        * destruct IH as (m & -> & (h & E & O) & U). exists (S m). split; [lia|]. split; [now exists h|].
          intros [|j] h' Hj E'; [injection E' as <-; exact C' | apply (U j h'); [lia | exact E']].
        * intros h [<-|K]; [exact C' | exact (IH h K)].
    - exists 0. split; [lia|]. split; [now exists None | intros j h Hj; lia]. }
  specialize (X hs 0). destruct (go hs 0) as [n|]; [|exact X]. destruct X as (m & -> & X). exact X.
Qed.

Lemma handler_for_ext hs c d : (forall t, In (Some t) hs -> catches t c = catches t d) -> handler_for hs c = handler_for hs d.
Proof.
  unfold handler_for.
  set (go := fun c => fix go (hs : list (option name)) (i : nat) := match hs with
     | [] => None | None :: _ => Some i | Some t :: hs' => if catches t c then Some i else go hs' (S i) end).
  change ((forall t, In (Some t) hs -> catches t c = catches t d) -> go c hs 0 = go d hs 0).
  generalize 0. induction hs as [|[t|] hs IH]; intros i H; cbn; [reflexivity| |reflexivity].
  rewrite (H t (or_introl eq_refl)). destruct (catches t d); [reflexivity|]. apply IH. intros u K. apply H. now right.
Qed.

Theorem same_handler e hs : library e -> proper e -> throwable e = true ->
  (forall t, In (Some t) hs -> ~ carrier e t) ->
  handler_for hs (with_class e) = handler_for hs e.
Proof.
  intros L P T H. apply handler_for_ext. intros t K. specialize (H t K).
  apply eq_true_iff_eq. rewrite !catches_takes, (takes_with e t L P T). tauto.
Qed.

(** * Casts *)

Section Objects.
Context {V I : Type} (fresh : place -> datum V I).
Implicit Types (r : reference V I) (x : I).

(** Nothing of class [t] derives from the subobject. *)
Lemma derived_nil c t p :
  (forall q u d, part c q u d -> c_name d = t -> forall u' d', ~ part_at d q true p u' d') -> derived c t p = [].
Proof.
  intros H. unfold derived. destruct (distinct _) as [|q l] eqn:E; [reflexivity|].
  assert (K : In q (q :: l)) by now left. rewrite <- E, distinct_In, in_map_iff in K. destruct K as (s & <- & K).
  apply filter_In in K as [K F]. apply andb_true_iff in F as [F1 F2]. apply in_all in K. apply name_eqb_true in F1.
  apply existsb_exists in F2 as (w & W & F2). apply andb_true_iff in F2 as [F2 F3]. apply place_eqb_true in F2.
  apply in_subs in W. rewrite F2 in W. exfalso. exact (H _ _ _ K F1 _ _ W).
Qed.

Lemma no_bases_part_at c q u p u' d : c_bases c = [] -> part_at c q u p u' d -> p = q /\ u' = u /\ d = c.
Proof. intros E K. apply part_at_first in K as [K|(k & b & B & _)]; [exact K|]. rewrite E in B. destruct B. Qed.

Lemma part_no_bases c p u d : c_bases c = [] -> part c p u d -> p = whole /\ u = true /\ d = c.
Proof. intros E K. apply part_at_part in K. now apply (no_bases_part_at c). Qed.

Lemma has_info_info : has Info info_class.
Proof. exists whole, true, info_class. split; [constructor | reflexivity]. Qed.
Lemma has_info_base : has Info info_base_class.
Proof.
  exists (mkplace None [Info]), true, info_class. split; [|reflexivity].
  apply (part_base info_base_class whole true info_base_class plain_public info_class); [constructor | now left].
Qed.
Lemma has_info_with e : has Info (with_class e).
Proof. exists at_info, true, info_class. split; [apply info_part | reflexivity]. Qed.

Lemma only_info_with e : library e -> ~ has Info e -> only_public Info (with_class e) at_info.
Proof. intros L N. apply (only_public_with e Info _ L N). right; now left. Qed.

End Objects.
