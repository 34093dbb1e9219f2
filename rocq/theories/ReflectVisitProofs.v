(** How often a member is visited. *)
From Coq Require Import List NArith Arith Bool Sorted Lia.
From Verif Require Import PathModel ReflectModel ReflectSpec ReflectProofs.
Import ListNotations.

Lemma of_class_one s t u : of_class s t -> of_class s u -> t = u.
Proof.
  intros [p E] [q F]. rewrite E in F. apply app_inj_tail in F. exact (proj2 F).
Qed.

Lemma Forall2_nth {A B} (R : A -> B -> Prop) xs ys i y :
  Forall2 R xs ys -> nth_error ys i = Some y -> exists x, nth_error xs i = Some x /\ R x y.
Proof.
  intros H. revert i. induction H as [|a b xs ys Hab H IH]; intros i E; [destruct i; discriminate|].
  destruct i as [|i]; cbn in *; [injection E as <-; exists a; split; [reflexivity|exact Hab]|]. exact (IH i E).
Qed.

Lemma member_visits_lemma {P T} (r : record P T) :
  exists ps, enumerates r ps /\ length ps = length (reflect_object r) /\
    forall i p f, nth_error ps i = Some p -> nth_error (reflect_object r) i = Some f ->
      exists m, declared_at r p = Some m /\
        (of_value f = None <-> ~ (public_base (m_decl m) (r_class r) /\ exists s, only_base (m_decl m) (r_class r) s)) /\
        forall t s name, only_base t (r_class r) s -> public_base t (r_class r) ->
          (of_value f = Some (s, name) <-> m_decl m = t /\ m_name m = name).
Proof.
  destruct (fields_in_order_lemma r) as (ps & He & _ & _ & H). exists ps. split; [exact He|].
  split; [exact (Forall2_length _ _ _ H)|]. intros i p f Ep Ef.
  destruct (Forall2_nth _ _ _ _ _ H Ef) as (p' & Ep' & m & Hm & _ & _ & _ & Hv).
  rewrite Ep in Ep'. injection Ep' as <-. exists m. split; [exact Hm|]. split.
  - split.
    + intros Hn [Hp [s Hs]]. assert (X : of_value f = Some (s, m_name m)) by (apply Hv; cbn; auto). congruence.
    + intros Hn. destruct (of_value f) as [x|]; [|reflexivity]. exfalso. apply Hn.
      destruct (proj1 (Hv x) eq_refl) as (_ & Ho & Hp). split; [exact Hp|]. exists (fst x). exact Ho.
  - intros t s name Ho Hp. split.
    + intros E. apply Hv in E. cbn in E. destruct E as (-> & Ho' & _). split; [|reflexivity].
      destruct Ho as (_ & Ht & _), Ho' as (_ & Ht' & _). exact (of_class_one _ _ _ Ht' Ht).
    + intros [<- <-]. apply Hv. cbn. auto.
Qed.
