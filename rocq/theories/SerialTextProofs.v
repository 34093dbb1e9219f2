(** Different documents are written by different calls. *)
From Coq Require Import List NArith ZArith Arith Bool Lia.
From Verif Require Import Base SerialModel.
Import ListNotations.

Lemma json_ind0 (P : json -> Prop) :
  P JNull -> (forall b, P (JBool b)) -> (forall z, P (JInt z)) -> (forall b, P (JDbl b)) -> (forall s, P (JStr s)) ->
  (forall js, Forall P js -> P (JArr js)) -> (forall ms, Forall (fun m => P (snd m)) ms -> P (JObj ms)) ->
  forall j, P j.
Proof.
  intros H1 H2 H3 H4 H5 H6 H7. fix F 1. intros [ |b|z|b|s|js|ms]; [exact H1|apply H2|apply H3|apply H4|apply H5| |].
  - apply H6. induction js as [|j js IH]; constructor; [apply F|exact IH].
  - apply H7. induction ms as [|[k j] ms IH]; constructor; [apply F|exact IH].
Qed.

Definition starts (e : event) : bool :=
  match e with EvEndArr | EvEndObj | EvKey _ => false | _ => true end.

Lemma accept_head j : exists e es, accept j = e :: es /\ starts e = true.
Proof. destruct j; cbn; eauto. Qed.

Lemma accept_prefix j : forall j' r r', accept j ++ r = accept j' ++ r' -> j = j' /\ r = r'.
Proof.
  induction j as [|b|z|b|s|js IH|ms IH] using json_ind0; intros j' r r' H.
  1-5: destruct j'; cbn in H; try discriminate; injection H; intros; subst; auto.
  - destruct j' as [|b'|z'|b'|s'|js'|ms']; cbn in H; try discriminate. injection H as H. rewrite <- !app_assoc in H. cbn in H.
    assert (G : js = js' /\ r = r').
    2: { destruct G as [-> ->]; auto. }
    revert js' H. induction js as [|x js IHjs]; intros [|x' js'] H; cbn in H.
    + injection H; auto.
    + destruct (accept_head x') as (e & es & E & Hs). rewrite E in H. cbn in H. injection H as <- _. discriminate.
    + destruct (accept_head x) as (e & es & E & Hs). rewrite E in H. cbn in H. injection H as -> _. discriminate.
    + inversion IH as [|? ? I1 I2]; subst. rewrite <- !app_assoc in H. apply I1 in H. destruct H as [-> H].
      destruct (IHjs I2 _ H) as [-> ->]. auto.
  - destruct j' as [|b'|z'|b'|s'|js'|ms']; cbn in H; try discriminate. injection H as H. rewrite <- !app_assoc in H. cbn in H.
    assert (G : ms = ms' /\ r = r').
    2: { destruct G as [-> ->]; auto. }
    revert ms' H. induction ms as [|[k x] ms IHms]; intros [|[k' x'] ms'] H; cbn in H; try discriminate.
    + injection H; auto.
    + inversion IH as [|? ? I1 I2]; subst. injection H as -> H. cbn [snd] in *. rewrite <- !app_assoc in H. apply I1 in H. destruct H as [-> H].
      destruct (IHms I2 _ H) as [-> ->]. auto.
Qed.

Lemma accept_injective j j' : accept j = accept j' -> j = j'.
Proof. intros H. apply (accept_prefix j j' [] []). now rewrite !app_nil_r. Qed.
