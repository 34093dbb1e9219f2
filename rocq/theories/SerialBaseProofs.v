(** Induction over type descriptions, maps, names. *)
From Coq Require Import List NArith ZArith Arith Bool Lia.
From Verif Require Import Base PathModel EnumModel EnumSpec EnumProofs SerialModel SerialSpec.
Import ListNotations.
Local Open Scope outcome_scope.

Local Notation str := (list N) (only parsing).

(* ------------------------------------------------------------------ *)
(** ** Induction *)

Lemma ty_ind0 (P : ty -> Prop) :
  P TBool -> (forall it, P (TInt it)) -> P TDouble -> P TFloat -> P TStr ->
  (forall t, P t -> P (TOpt t)) -> (forall t, P t -> P (TSeq t)) ->
  (forall n t, P t -> P (TArr n t)) -> (forall t, P t -> P (TMap t)) ->
  (forall ts, Forall P ts -> P (TTup ts)) ->
  (forall e, P (TEnum e)) -> (forall e, P (TSet e)) ->
  (forall fs, Forall (fun f : attrs * ty => P (snd f)) fs -> P (TRec fs)) ->
  forall t, P t.
Proof.
  intros Hb Hi Hd Hf Hs Ho Hq Ha Hm Ht He Hset Hr. fix IH 1. intros [ |it| | | |t|t|n t|t|ts|e|e|fs].
  - exact Hb.
  - apply Hi.
  - exact Hd.
  - exact Hf.
  - exact Hs.
  - apply Ho, IH.
  - apply Hq, IH.
  - apply Ha, IH.
  - apply Hm, IH.
  - apply Ht. induction ts as [|t ts IHts]; constructor; [apply IH|exact IHts].
  - apply He.
  - apply Hset.
  - apply Hr. induction fs as [|[a t] fs IHfs]; constructor; [apply IH|exact IHfs].
Qed.

Lemma ty_ind1 (P : ty -> Prop) :
  P TBool -> (forall it, P (TInt it)) -> P TDouble -> P TFloat -> P TStr ->
  (forall t, P t -> P (TOpt t)) -> (forall t, P t -> P (TSeq t)) ->
  (forall n t, P t -> P (TArr n t)) -> (forall t, P t -> P (TMap t)) ->
  (forall ts, Forall P ts -> P (TTup ts)) ->
  (forall e, P (TEnum e)) -> (forall e, P (TSet e)) ->
  (forall fs, Forall (fun f : attrs * ty => P (snd f) /\ forall te, snd f = TMap te -> P te) fs -> P (TRec fs)) ->
  forall t, P t.
Proof.
  intros Hb Hi Hd Hf Hs Ho Hq Ha Hm Ht He Hset Hr t.
  assert (H : P t /\ forall te, t = TMap te -> P te); [|tauto].
  induction t as [ |it| | | |t IH|t IH|n t IH|t IH|ts IH|e|e|fs IH] using ty_ind0;
    (split; [|intros te E; try discriminate E]).
  all: try tauto; auto.
  all: try (injection E as ->).
  - exact (Ho _ (proj1 IH)).
  - exact (Hq _ (proj1 IH)).
  - exact (Ha _ _ (proj1 IH)).
  - exact (Hm _ (proj1 IH)).
  - exact (proj1 IH).
  - apply Ht. eapply Forall_impl; [|exact IH]. cbn. tauto.
Qed.

(* ------------------------------------------------------------------ *)
(** ** all1, all2, all3 *)

Lemma all1_Forall {A} (P : A -> Prop) l : all1 P l <-> Forall P l.
Proof.
  induction l as [|x l IH]; cbn; split; intros H; auto.
  - constructor; [apply H|apply IH, H].
  - inversion H; subst. split; [auto|]. now apply IH.
Qed.

Lemma all2_Forall2 {A B} (P : A -> B -> Prop) l : forall m, all2 P l m <-> Forall2 P l m.
Proof.
  induction l as [|x l IH]; intros [|y m]; cbn; split; intros H; try inversion H; subst; auto; try tauto.
  - constructor; [apply H|apply IH, H].
  - split; [auto|]. now apply IH.
Qed.

Lemma all2_length {A B} (P : A -> B -> Prop) l : forall m, all2 P l m -> length l = length m.
Proof. intros m H. apply all2_Forall2 in H. induction H; cbn; auto. Qed.

(* ------------------------------------------------------------------ *)
(** ** Strings *)

Lemma str_eqb_refl s : str_eqb s s = true.
Proof. now apply str_eqb_true. Qed.

Lemma str_eqb_false a b : str_eqb a b = false <-> a <> b.
Proof.
  split; intros H.
  - intros ->. now rewrite str_eqb_refl in H.
  - destruct (str_eqb a b) eqn:E; [|reflexivity]. now apply str_eqb_true in E.
Qed.

Lemma str_eqb_sym a b : str_eqb a b = str_eqb b a.
Proof.
  destruct (str_eqb a b) eqn:E, (str_eqb b a) eqn:E'; auto.
  - apply str_eqb_true in E. apply str_eqb_false in E'. congruence.
  - apply str_eqb_false in E. apply str_eqb_true in E'. congruence.
Qed.

Lemma str_dec (a b : str) : {a = b} + {a <> b}.
Proof. apply list_eq_dec, N.eq_dec. Qed.

Lemma in_set_true s l : in_set s l = true <-> In s l.
Proof.
  unfold in_set. rewrite existsb_exists. split.
  - intros (x & Hx & E). apply str_eqb_true in E. now subst.
  - intros H. exists s. split; [exact H|apply str_eqb_refl].
Qed.

Lemma in_set_false s l : in_set s l = false <-> ~ In s l.
Proof. rewrite <- in_set_true. destruct (in_set s l); split; congruence. Qed.

Lemma str_ltb_irrefl a : str_ltb a a = false.
Proof. induction a as [|x a IH]; cbn; [reflexivity|]. now rewrite N.ltb_irrefl. Qed.

Lemma str_ltb_trans a : forall b c, str_ltb a b = true -> str_ltb b c = true -> str_ltb a c = true.
Proof.
  induction a as [|x a IH]; intros [|y b] [|z c]; cbn; intros H1 H2; try discriminate; auto.
  destruct (N.ltb_spec x y); destruct (N.ltb_spec y z); destruct (N.ltb_spec x z); auto; try lia.
  - destruct (N.ltb_spec z y); [discriminate|]. lia.
  - destruct (N.ltb_spec y x); [discriminate|]. lia.
  - destruct (N.ltb_spec y x); [discriminate|]. destruct (N.ltb_spec z y); [discriminate|].
    destruct (N.ltb_spec z x); [lia|]. eauto.
Qed.

Lemma str_ltb_total a : forall b, str_ltb a b = false -> str_ltb b a = false -> a = b.
Proof.
  induction a as [|x a IH]; intros [|y b]; cbn; intros H1 H2; try discriminate; auto.
  destruct (N.ltb_spec x y); destruct (N.ltb_spec y x); try discriminate; try lia.
  assert (x = y) by lia. subst. f_equal. auto.
Qed.

Lemma str_ltb_neq a b : str_ltb a b = true -> a <> b.
Proof. intros H ->. now rewrite str_ltb_irrefl in H. Qed.

(* ------------------------------------------------------------------ *)
(** ** Maps *)

Lemma map_find_in k m v : map_find k m = Some v -> In (k, v) m.
Proof.
  induction m as [|[k' v'] m IH]; cbn; [discriminate|]. destruct (str_eqb k' k) eqn:E.
  - intros [= ->]. apply str_eqb_true in E. subst. now left.
  - intros H. right. auto.
Qed.

Lemma map_find_none k m : map_find k m = None <-> ~ In k (map fst m).
Proof.
  induction m as [|[k' v'] m IH]; cbn; [tauto|]. destruct (str_eqb k' k) eqn:E.
  - apply str_eqb_true in E. split; [discriminate|]. intros H. exfalso. apply H. now left.
  - apply str_eqb_false in E. rewrite IH. tauto.
Qed.

Lemma map_find_nodup k v m : NoDup (map fst m) -> In (k, v) m -> map_find k m = Some v.
Proof.
  induction m as [|[k' v'] m IH]; cbn; [tauto|]. intros Hn [[= -> ->]|Hin].
  - now rewrite str_eqb_refl.
  - inversion Hn; subst. destruct (str_eqb k' k) eqn:E; [|auto].
    apply str_eqb_true in E. subst. exfalso. apply H1. now apply (in_map fst) in Hin.
Qed.

Lemma sorted_keys_nodup m : sorted_keys m -> NoDup (map fst m).
Proof.
  induction m as [|[k v] m IH]; cbn; intros H; constructor.
  - intros Hin. apply H in Hin. now rewrite str_ltb_irrefl in Hin.
  - apply IH, H.
Qed.

Lemma map_insert_keys k v m x : In x (map fst (map_insert k v m)) <-> x = k \/ In x (map fst m).
Proof.
  induction m as [|[k' v'] m IH]; cbn; [intuition|].
  destruct (str_ltb k k'); cbn; [intuition|]. rewrite IH. intuition.
Qed.

Lemma map_insert_sorted k v m : ~ In k (map fst m) -> sorted_keys m -> sorted_keys (map_insert k v m).
Proof.
  induction m as [|[k' v'] m IH]; cbn; intros Hn Hs; [split; tauto|].
  destruct (str_ltb k k') eqn:E; cbn.
  - split; [|exact Hs]. intros x [->|Hx]; [exact E|]. eapply str_ltb_trans; [exact E|]. apply Hs, Hx.
  - split.
    + intros x Hx. apply map_insert_keys in Hx. destruct Hx as [->|Hx]; [|apply Hs, Hx].
      destruct (str_ltb k' k) eqn:E'; [reflexivity|]. exfalso. apply Hn. left. symmetry.
      now apply str_ltb_total.
    + apply IH; [tauto|apply Hs].
Qed.

Lemma map_insert_find k v m x : ~ In k (map fst m) ->
  map_find x (map_insert k v m) = if str_eqb k x then Some v else map_find x m.
Proof.
  induction m as [|[k' v'] m IH]; cbn; intros Hn; [reflexivity|].
  destruct (str_ltb k k') eqn:E; cbn; [reflexivity|].
  destruct (str_eqb k' x) eqn:E'.
  - apply str_eqb_true in E'. subst x. destruct (str_eqb k k') eqn:E2; [|reflexivity].
    apply str_eqb_true in E2. exfalso. apply Hn. now left.
  - apply IH. tauto.
Qed.

Lemma map_insert_in k v m x : In x (map_insert k v m) <-> x = (k, v) \/ In x m.
Proof.
  induction m as [|[k' v'] m IH]; cbn; [intuition|].
  destruct (str_ltb k k'); cbn; [intuition|]. rewrite IH. intuition.
Qed.

(** A key greater than all others goes to the end. *)
Lemma map_insert_last k v m : (forall k', In k' (map fst m) -> str_ltb k' k = true) ->
  map_insert k v m = m ++ [(k, v)].
Proof.
  induction m as [|[k' v'] m IH]; cbn; intros H; [reflexivity|].
  destruct (str_ltb k k') eqn:E.
  - specialize (H k' (or_introl eq_refl)). exfalso.
    pose proof (str_ltb_trans _ _ _ E H) as H2. now rewrite str_ltb_irrefl in H2.
  - f_equal. apply IH. auto.
Qed.

Lemma map_emplace_sorted k v m : sorted_keys m -> sorted_keys (map_emplace k v m).
Proof.
  unfold map_emplace. destruct (map_find k m) eqn:E; [auto|]. apply map_find_none in E.
  now apply map_insert_sorted.
Qed.

Lemma map_emplace_in k v m x : In x (map_emplace k v m) -> x = (k, v) \/ In x m.
Proof.
  unfold map_emplace. destruct (map_find k m); [auto|]. now rewrite map_insert_in.
Qed.

Lemma map_emplace_find k v m x :
  map_find x (map_emplace k v m) =
  match map_find x m with Some w => Some w | None => if str_eqb k x then Some v else None end.
Proof.
  unfold map_emplace. destruct (map_find k m) eqn:E.
  - destruct (map_find x m) eqn:E'; [reflexivity|]. destruct (str_eqb k x) eqn:E2; [|reflexivity].
    apply str_eqb_true in E2. subst. congruence.
  - pose proof E as En. apply map_find_none in En. rewrite map_insert_find by exact En.
    destruct (str_eqb k x) eqn:E2.
    + apply str_eqb_true in E2. subst. now rewrite E.
    + now destruct (map_find x m).
Qed.

Lemma map_assign_keys k v m : map fst (map_assign k v m) = map fst m.
Proof. induction m as [|[k' v'] m IH]; cbn; [reflexivity|]. destruct (str_eqb k' k); cbn; congruence. Qed.

Lemma sorted_keys_ext m : forall m', map fst m = map fst m' -> sorted_keys m -> sorted_keys m'.
Proof.
  induction m as [|[k v] m IH]; intros [|[k' v'] m']; cbn; intros E H; try discriminate; auto.
  injection E as -> E. split; [|now apply IH]. rewrite <- E. apply H.
Qed.

Lemma map_assign_in k v m x : In x (map_assign k v m) -> x = (k, v) \/ In x m.
Proof.
  induction m as [|[k' v'] m IH]; cbn; [tauto|]. destruct (str_eqb k' k) eqn:E; cbn.
  - apply str_eqb_true in E. subst. intuition.
  - intuition.
Qed.

Lemma map_assign_find k v m x :
  map_find x (map_assign k v m) =
  match map_find x m with Some w => Some (if str_eqb k x then v else w) | None => None end.
Proof.
  induction m as [|[k' v'] m IH]; cbn; [reflexivity|]. destruct (str_eqb k' k) eqn:E; cbn.
  - apply str_eqb_true in E. subst. destruct (str_eqb k x) eqn:E2; [reflexivity|].
    now destruct (map_find x m).
  - destruct (str_eqb k' x) eqn:E2; [|exact IH].
    apply str_eqb_true in E2. subst. rewrite str_eqb_sym in E. now rewrite E.
Qed.

Lemma map_assign_same k v m : map_find k m = Some v -> map_assign k v m = m.
Proof.
  induction m as [|[k' v'] m IH]; cbn; [reflexivity|]. destruct (str_eqb k' k) eqn:E.
  - now intros [= ->].
  - intros H. f_equal. auto.
Qed.

(* ------------------------------------------------------------------ *)
(** ** Documents *)

Lemma find_member_in n ms j : find_member n ms = Some j -> In (n, j) ms.
Proof.
  induction ms as [|[k x] ms IH]; cbn; [discriminate|]. destruct (str_eqb k n) eqn:E.
  - intros [= ->]. apply str_eqb_true in E. subst. now left.
  - intros H. right. auto.
Qed.

Lemma find_member_none n ms : find_member n ms = None <-> ~ In n (map fst ms).
Proof.
  induction ms as [|[k x] ms IH]; cbn; [tauto|]. destruct (str_eqb k n) eqn:E.
  - apply str_eqb_true in E. split; [discriminate|]. intros H. exfalso. apply H. now left.
  - apply str_eqb_false in E. rewrite IH. tauto.
Qed.

Lemma find_member_app n a b :
  find_member n (a ++ b) = match find_member n a with Some j => Some j | None => find_member n b end.
Proof. induction a as [|[k x] a IH]; cbn; [reflexivity|]. destruct (str_eqb k n); auto. Qed.

Lemma find_member_nodup n j ms : NoDup (map fst ms) -> In (n, j) ms -> find_member n ms = Some j.
Proof.
  induction ms as [|[k x] ms IH]; cbn; [tauto|]. intros Hn [[= -> ->]|Hin].
  - now rewrite str_eqb_refl.
  - inversion Hn; subst. destruct (str_eqb k n) eqn:E; [|auto].
    apply str_eqb_true in E. subst. exfalso. apply H1. now apply (in_map fst) in Hin.
Qed.

Lemma has_field_true n ms : has_field ms n = true <-> In n (map fst ms).
Proof.
  unfold has_field. destruct (find_member n ms) eqn:E.
  - split; [|auto]. intros _. apply find_member_in in E. now apply (in_map fst) in E.
  - apply find_member_none in E. split; [discriminate|tauto].
Qed.

Lemma has_field_false n ms : has_field ms n = false <-> ~ In n (map fst ms).
Proof. rewrite <- has_field_true. destruct (has_field ms n); split; congruence. Qed.

(* ------------------------------------------------------------------ *)
(** ** Reserved names *)

Lemma add_names_ok l : forall ns c r, add_names l (ns, c) = Ok r <->
  r = (ns ++ l, c) /\ NoDup l /\ (forall x, In x l -> ~ In x ns).
Proof.
  induction l as [|n l IH]; intros ns c r; cbn -[in_set].
  - rewrite app_nil_r. split; [intros [= <-]|intros (-> & _)]; [|reflexivity].
    split; [reflexivity|]. split; [constructor|]. cbn. tauto.
  - destruct (in_set n ns) eqn:E; cbn [obind].
    + split; [discriminate|]. intros (_ & _ & H). apply in_set_true in E. exfalso. eapply H; [now left|exact E].
    + apply in_set_false in E. rewrite IH. rewrite <- app_assoc. cbn. split.
      * intros (-> & Hn & Hx). split; [reflexivity|]. split.
        { constructor; [|exact Hn]. intros Hin. apply (Hx _ Hin). apply in_or_app. right. now left. }
        { intros x [<-|Hin]; [exact E|]. intros H. apply (Hx _ Hin). apply in_or_app. now left. }
      * intros (-> & Hn & Hx). inversion Hn; subst. split; [reflexivity|]. split; [assumption|].
        intros x Hin H. apply in_app_or in H. cbn in H. destruct H as [H|[<-|[]]]; [|contradiction].
        exact (Hx x (or_intror Hin) H).
Qed.

Lemma add_names_defined l : forall st, add_names l st <> UB.
Proof.
  induction l as [|n l IH]; intros [ns c]; cbn -[in_set]; [discriminate|].
  destruct (in_set n ns); cbn; [discriminate|apply IH].
Qed.

Lemma NoDup_app {A} (a b : list A) : NoDup (a ++ b) <-> NoDup a /\ NoDup b /\ (forall x, In x a -> ~ In x b).
Proof.
  induction a as [|x a IH]; cbn.
  - split; [intros H|intros H; apply H]. split; [constructor|]. tauto.
  - split.
    + intros H. inversion H; subst. apply IH in H3. destruct H3 as (Ha & Hb & Hd). split.
      * constructor; [|exact Ha]. intros Hin. apply H2. apply in_or_app. now left.
      * split; [exact Hb|]. intros y [<-|Hy]; [|auto]. intros Hin. apply H2. apply in_or_app. now right.
    + intros (Ha & Hb & Hd). inversion Ha; subst. constructor.
      * intros Hin. apply in_app_or in Hin. destruct Hin as [Hin|Hin]; [contradiction|].
        exact (Hd x (or_introl eq_refl) Hin).
      * apply IH. split; [exact H2|]. split; [exact Hb|]. auto.
Qed.

(** The run-time check passes exactly when names are distinct and there is at
    most one [extra_fields] member; the set is then all the names. *)
Lemma collect_ok t : forall ns c r, c <= 1 -> (collect_reserved t (ns, c) = Ok r <->
  r = (ns ++ all_names t, c + extras t) /\ NoDup (all_names t) /\
  (forall x, In x (all_names t) -> ~ In x ns) /\ c + extras t <= 1).
Proof.
  induction t as [ |it| | | |t IH|t IH|n t IH|t IH|ts IH|e|e|fs IH] using ty_ind0; intros ns c r Hc;
    try (cbn; rewrite app_nil_r, Nat.add_0_r; split;
         [intros [= <-]; repeat split; auto; constructor|intros (-> & _); reflexivity]).
  cbn [collect_reserved all_names extras]. revert ns c r Hc. induction fs as [|[a t] fs IHfs]; intros ns c r Hc.
  - cbn. rewrite app_nil_r, Nat.add_0_r.
    split; [intros [= <-]; repeat split; auto; constructor|intros (-> & _); reflexivity].
  - inversion IH as [|? ? IHt IHr]; subst. specialize (IHfs IHr). cbn [snd] in IHt.
    cbn [collect_fields all_names_of extras_of]. destruct (a_extra a).
    + cbn -[collect_fields all_names_of extras_of Nat.ltb Nat.add].
      destruct (Nat.ltb_spec 1 (S c)).
      * cbn [obind]. split; [discriminate|]. lia.
      * cbn [obind app]. fold collect_reserved. rewrite IHfs by lia.
        replace (S c + extras_of extras fs) with (c + (1 + extras_of extras fs)) by lia. tauto.
    + destruct (a_flatten a).
      * specialize (IHt ns c). destruct (collect_reserved t (ns, c)) as [st| |] eqn:E; cbn [obind].
        2,3: split; [discriminate|]; intros (_ & Hn & Hx & He); exfalso;
             apply NoDup_app in Hn; destruct Hn as (Hn & _);
             assert (Hf : forall x, In x (all_names t) -> ~ In x ns) by (intros x Hx'; apply Hx, in_or_app; now left);
             assert (He' : c + extras t <= 1) by lia;
             destruct (IHt (ns ++ all_names t, c + extras t) Hc) as [_ IHt'];
             specialize (IHt' (conj eq_refl (conj Hn (conj Hf He')))); discriminate.
        destruct (IHt st Hc) as [IHt' _]. specialize (IHt' eq_refl). destruct IHt' as (-> & Hn & Hx & He).
        rewrite IHfs by lia. rewrite <- app_assoc, Nat.add_assoc. split.
        -- intros (-> & Hn2 & Hx2 & He2). split; [reflexivity|]. split; [|split].
           ++ apply NoDup_app. split; [exact Hn|]. split; [exact Hn2|]. intros x H1 H2.
              apply (Hx2 x H2). apply in_or_app. now right.
           ++ intros x H. apply in_app_or in H. destruct H as [H|H]; [now apply Hx|].
              intros H'. apply (Hx2 x H). apply in_or_app. now left.
           ++ exact He2.
        -- intros (-> & Hn2 & Hx2 & He2). apply NoDup_app in Hn2. destruct Hn2 as (_ & Hn2 & Hd).
           split; [reflexivity|]. split; [exact Hn2|]. split; [|exact He2].
           intros x H H'. apply in_app_or in H'. destruct H' as [H'|H'].
           ++ apply (Hx2 x); [apply in_or_app; now right|exact H'].
           ++ exact (Hd x H' H).
      * set (l := serialized_name a :: a_aliases a).
        pose proof (add_names_ok l ns c) as Ha. destruct (add_names l (ns, c)) as [st| |] eqn:E; cbn [obind].
        2,3: split; [discriminate|]; intros (_ & Hn & Hx & _); exfalso;
             apply NoDup_app in Hn; destruct Hn as (Hn & _);
             assert (Hf : forall x, In x l -> ~ In x ns) by (intros x Hx'; apply Hx, in_or_app; now left);
             destruct (Ha (ns ++ l, c)) as [_ Ha']; specialize (Ha' (conj eq_refl (conj Hn Hf))); discriminate.
        destruct (Ha st) as [Ha' _]. specialize (Ha' eq_refl). destruct Ha' as (-> & Hn & Hx).
        rewrite IHfs by lia. rewrite <- app_assoc. cbn [Nat.add]. split.
        -- intros (-> & Hn2 & Hx2 & He2). split; [reflexivity|]. split; [|split].
           ++ apply NoDup_app. split; [exact Hn|]. split; [exact Hn2|]. intros x H1 H2.
              apply (Hx2 x H2). apply in_or_app. now right.
           ++ intros x H. apply in_app_or in H. destruct H as [H|H]; [now apply Hx|].
              intros H'. apply (Hx2 x H). apply in_or_app. now left.
           ++ exact He2.
        -- intros (-> & Hn2 & Hx2 & He2). apply NoDup_app in Hn2. destruct Hn2 as (_ & Hn2 & Hd).
           split; [reflexivity|]. split; [exact Hn2|]. split; [|exact He2].
           intros x H H'. apply in_app_or in H'. destruct H' as [H'|H'].
           ++ apply (Hx2 x); [apply in_or_app; now right|exact H'].
           ++ exact (Hd x H' H).
Qed.

Lemma collect_defined t : forall st, collect_reserved t st <> UB.
Proof.
  induction t as [ |it| | | |t IH|t IH|n t IH|t IH|ts IH|e|e|fs IH] using ty_ind0; intros st; try discriminate.
  cbn [collect_reserved]. revert st. induction fs as [|[a t] fs IHfs]; intros st; [discriminate|].
  inversion IH as [|? ? IHt IHr]; subst. specialize (IHfs IHr). cbn [snd] in IHt. cbn [collect_fields].
  destruct (a_extra a).
  - destruct st as [ns c]. destruct (1 <? S c); cbn [obind]; [discriminate|apply IHfs].
  - destruct (a_flatten a).
    + specialize (IHt st). destruct (collect_reserved t st); cbn [obind]; [apply IHfs|discriminate|congruence].
    + pose proof (add_names_defined (serialized_name a :: a_aliases a) st) as H.
      destruct (add_names _ st); cbn [obind]; [apply IHfs|discriminate|congruence].
Qed.

Lemma reserved_defined fs : reserved_field_names fs <> UB.
Proof.
  unfold reserved_field_names. destruct (any_extra_or_flatten fs); [|discriminate].
  pose proof (collect_defined (TRec fs) ([], 0)) as H. cbn [collect_reserved] in H.
  destruct (collect_fields collect_reserved fs ([], 0)); cbn; [discriminate|discriminate|congruence].
Qed.

Lemma reserved_ok fs : any_extra_or_flatten fs = true -> forall names, reserved_field_names fs = Ok names <->
  names = all_names (TRec fs) /\ distinct_names (TRec fs).
Proof.
  intros Hany names. unfold reserved_field_names. rewrite Hany.
  pose proof (collect_ok (TRec fs) [] 0) as H. cbn [collect_reserved] in H.
  destruct (collect_fields collect_reserved fs ([], 0)) as [[ns c]| |] eqn:E; cbn [obind fst].
  - destruct (H (ns, c) ltac:(lia)) as [H1 _]. specialize (H1 eq_refl). destruct H1 as (E1 & Hn & _ & He).
    injection E1 as -> ->. split.
    + intros [= <-]. split; [reflexivity|]. now split.
    + now intros (-> & _).
  - split; [discriminate|]. intros (-> & Hn & He). destruct (H (all_names (TRec fs), extras (TRec fs)) ltac:(lia)) as [_ H1].
    exfalso. discriminate H1. split; [reflexivity|]. split; [exact Hn|]. split; [cbn; tauto|exact He].
  - split; [discriminate|]. intros (-> & Hn & He). destruct (H (all_names (TRec fs), extras (TRec fs)) ltac:(lia)) as [_ H1].
    exfalso. discriminate H1. split; [reflexivity|]. split; [exact Hn|]. split; [cbn; tauto|exact He].
Qed.

Lemma reserved_none fs : any_extra_or_flatten fs = false -> reserved_field_names fs = Ok [].
Proof. intros H. unfold reserved_field_names. now rewrite H. Qed.

Lemma reserved_distinct fs : distinct_names (TRec fs) -> exists names, reserved_field_names fs = Ok names /\
  (any_extra_or_flatten fs = true -> names = all_names (TRec fs)).
Proof.
  intros H. destruct (any_extra_or_flatten fs) eqn:E.
  - exists (all_names (TRec fs)). split; [|auto]. apply reserved_ok; auto.
  - exists []. split; [now apply reserved_none|discriminate].
Qed.

Lemma any_in fs a t : In (a, t) fs -> a_extra a = true \/ a_flatten a = true -> any_extra_or_flatten fs = true.
Proof.
  intros Hin H. apply existsb_exists. exists (a, t). split; [exact Hin|]. cbn.
  apply orb_true_iff. tauto.
Qed.
