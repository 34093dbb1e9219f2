(** Texts of decimal digits read as integers in YAML. *)
From Coq Require Import List NArith ZArith Arith Bool Lia.
From Verif Require Import Base EnumModel EnumSpec ScalarModel ScalarSpec SerialModel SerialSpec SerialYamlProofs.
Import ListNotations.

Lemma numeral10_digits s n : numeral 10 s n -> Forall (fun c => 48 <= c <= 57)%N s.
Proof.
  intros (_ & ds & H & D & _). induction H as [|c d s ds Hc H IH]; [constructor|].
  inversion D as [|? ? Hd D' ]; subst. constructor; [|auto].
  destruct Hc as [[? ?]|[? [? ?]]]; lia.
Qed.

Lemma plain_means signed s n : magnitude s n -> int_means signed s (Z.of_N n).
Proof. intros M. exists [], s, [], n. split; [now rewrite app_nil_r|]. auto 6. Qed.

Lemma digits_means signed s z : Forall (fun c => 48 <= c <= 57)%N s -> int_means signed s z ->
  exists n, z = Z.of_N n /\ magnitude s n.
Proof.
  intros D (sign & body & tail & n & -> & W & M & Hs).
  assert (tail = []).
  { destruct tail as [|c tail]; [reflexivity|]. exfalso. inversion W as [|? ? Wc _]; subst.
    rewrite !Forall_app in D. destruct D as (_ & _ & D). inversion D as [|? ? Dc _]; subst. unfold white in Wc. lia. }
  subst tail. rewrite app_nil_r in *.
  destruct Hs as [(-> & ->)|[(-> & ->)|(-> & _ & _)]]; [eauto| |];
    cbn [app] in D; inversion D as [|? ? Dc _]; subst; lia.
Qed.

Lemma yaml_digits ft t s n out : int_type t -> numeral 10 s n ->
  ((forall s', s = 48%N :: s' -> s' = []) -> of_type t (Z.of_N n) ->
     deser (Yaml ft) (TInt t) (JStr s) out = (VInt (Z.of_N n), None)) /\
  (forall s' m, s = 48%N :: s' -> numeral 8 s m -> of_type t (Z.of_N m) ->
     deser (Yaml ft) (TInt t) (JStr s) out = (VInt (Z.of_N m), None)) /\
  (forall s', s = 48%N :: s' -> (forall m, ~ numeral 8 s m) ->
     deser (Yaml ft) (TInt t) (JStr s) out = (out, Some EDeser)).
Proof.
  intros Ht Hn. destruct (yaml_int_lemma ft t out Ht) as [Y1 Y2]. split; [|split].
  - intros Hz Hr. apply Y1; [assumption|]. apply plain_means.
    destruct s as [|c s]; [destruct Hn as [H _]; now contradiction H|].
    destruct (N.eq_dec c 48) as [->|Hc].
    + right. left. pose proof (Hz _ eq_refl) as ->. exists []. split; [reflexivity|].
      destruct Hn as (_ & ds & F & D & E). inversion F as [|? d ? ds' Hc F']; subst. inversion F'; subst.
      inversion D; subst. split; [discriminate|]. exists [d]. split; [exact F|].
      assert (d = 0%N) by (destruct Hc as [[? ?]|[? [? ?]]]; lia). subst d. split; [repeat constructor|reflexivity].
    + right. right. split; [|assumption]. intros s' E. congruence.
  - intros s' m -> H8 Hr. apply Y1; [assumption|]. apply plain_means. right. left. eauto.
  - intros s' -> H8. apply Y2. intros s0 z E M Hr. injection E as <-.
    destruct (digits_means _ _ _ (numeral10_digits _ _ Hn) M) as (m & -> & Mg).
    destruct Mg as [(x & s2 & E & Hx & _)|[(s2 & E & H)|(H & _)]].
    + injection E as ->. pose proof (numeral10_digits _ _ Hn) as D. inversion D as [|? ? _ D']; subst.
      inversion D' as [|? ? Dx _]; subst. lia.
    + exact (H8 m H).
    + now apply (H s').
Qed.
