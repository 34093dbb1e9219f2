(** UTF-8 in, UTF-8 out, for the reader and the writer. *)
From Coq Require Import String List NArith ZArith Arith Bool Lia.
From Verif Require Import Base ScalarModel ScalarSpec ScalarProofs SerialModel SerialTextProofs JtextModel JtextSpec JtextNumProofs JtextStringProofs JtextReadProofs JtextWriteProofs.
Import ListNotations.
Local Open Scope list_scope.
Local Open Scope N_scope.

Local Notation str := (list N) (only parsing).

Lemma utf8_of_bytes cp c : utf8_of cp c -> (cp < 128 /\ c = [cp]) \/ (c <> [] /\ Forall (fun b => 128 <= b) c).
Proof.
  intros [[H ->]|[[H ->]|[[H ->]|[H ->]]]]; [left; auto| | |]; right; (split; [discriminate|]); repeat constructor; lia.
Qed.

Lemma utf8_ascii c s : c < 128 -> utf8 s -> utf8 (c :: s).
Proof. intros H Hs. apply (U_char c [c]); auto; [left; auto|unfold surrogate; lia]. Qed.
Lemma utf8_ascii_all t s : Forall (fun c => c < 128) t -> utf8 s -> utf8 (t ++ s).
Proof. induction 1; intros; cbn; auto using utf8_ascii. Qed.
Lemma utf8_app s t : utf8 s -> utf8 t -> utf8 (s ++ t).
Proof. induction 1 as [|cp c s Hc Hs Hu IH]; intros Ht; [auto|]. rewrite <- app_assoc. econstructor; eauto. Qed.

Lemma utf8_tail c s : c < 128 -> utf8 (c :: s) -> utf8 s.
Proof.
  intros H Hu. inversion Hu as [|cp b s' Hb Hs Hu' E]. destruct (utf8_of_bytes _ _ Hb) as [[_ ->]|[Hne Hf]].
  - injection E as _ <-. exact Hu'.
  - destruct b as [|x b]; [contradiction|]. injection E as -> _. inversion Hf; subst. lia.
Qed.

(** A byte below 128 stands for itself wherever it is. *)
Lemma utf8_split_n n : forall a c b, (length a <= n)%nat -> c < 128 -> utf8 (a ++ c :: b) -> utf8 a /\ utf8 b.
Proof.
  induction n as [|n IH]; intros a c b Hn Hc Hu.
  - destruct a; [|cbn in Hn; lia]. split; [constructor|]. now apply utf8_tail in Hu.
  - inversion Hu as [E|cp x s Hx Hs Hu' E]; [destruct a; discriminate|].
    assert ((exists a', a = x ++ a' /\ s = a' ++ c :: b) \/ (a = [] /\ x = [c] /\ s = b)) as [(a' & -> & ->)|(-> & -> & ->)].
    { destruct (utf8_of_bytes _ _ Hx) as [[Hcp ->]|[Hne Hf]].
      - destruct a as [|y a]; [right; injection E as -> ->; auto|left; exists a; injection E as -> ->; auto].
      - left. clear Hx Hs Hu Hu' Hn Hne IH. revert a E. induction Hf as [|y x Hy Hf IHf]; intros a E; [exists a; auto|].
        destruct a as [|z a]; [injection E as -> _; lia|]. injection E as -> E. destruct (IHf _ E) as (a' & -> & ->). exists a'. auto. }
    + destruct (IH a' c b) as [H1 H2]; auto.
      * destruct (utf8_of_bytes _ _ Hx) as [[_ ->]|[Hne _]]; [cbn in Hn; lia|]. rewrite app_length in Hn. destruct x; [contradiction|]. cbn in Hn. lia.
      * split; auto. econstructor; eauto.
    + split; [constructor|exact Hu'].
Qed.
Lemma utf8_split a c b : c < 128 -> utf8 (a ++ c :: b) -> utf8 a /\ utf8 b.
Proof. apply (utf8_split_n (length a)). lia. Qed.

(* ------------------------------------------------------------------ reading *)

Lemma quad_ascii n h : hex_quad n h -> Forall (fun c => c < 128) h.
Proof. intros (_ & _ & ds & H & _). induction H as [|c d h ds Hc _ IH]; constructor; auto. unfold spells in Hc. lia. Qed.
Lemma utf8_tails t s : Forall (fun c => c < 128) t -> utf8 (t ++ s) -> utf8 s.
Proof. induction 1 as [|c t Hc Ht IH]; intros H; [auto|]. apply IH. now apply utf8_tail in H. Qed.

Lemma plain_many c : Forall (fun b => 128 <= b) c -> forall m s, characters m (c ++ s) -> exists m', m = c ++ m' /\ characters m' s.
Proof.
  induction 1 as [|b c Hb Hc IH]; intros m s H; [exists m; auto|]. cbn [app] in H. inversion H; subst; try lia.
  match goal with H : characters _ (c ++ s) |- _ => apply IH in H; destruct H as (m' & -> & H') end. exists m'. auto.
Qed.

Lemma characters_utf8_n n : forall t m, (length t <= n)%nat -> characters m t -> utf8 t -> utf8 m.
Proof.
  induction n as [|n IH]; intros t m Hn Hc Hu.
  - destruct t; [|cbn in Hn; lia]. inversion Hc. constructor.
  - inversion Hu as [|cp x s Hx Hs Hu' E]; subst; [inversion Hc; constructor|].
    destruct (utf8_of_bytes _ _ Hx) as [[Hcp ->]|[Hne Hf]].
    + cbn [app] in *. cbn [length] in Hn.
      inversion Hc as [|c m' s' H1 H2 H3 H4|c e m' s' Hi H4|cp' h c m' s' Hq Hs' Hu4 H4|hi lo h h' c m' s' Hq Hq' Hh Hl Hu4 H4]; subst.
      * apply utf8_ascii; auto. apply (IH s); auto. lia.
      * cbn [length] in Hn. assert (c < 128 /\ e < 128) as [Hc1 He] by (cbn in Hi; repeat destruct Hi as [[= <- <-]|Hi]; try lia).
        apply utf8_ascii; auto. apply (IH s'); auto; [lia|]. now apply utf8_tail in Hu'.
      * cbn [length] in Hn. rewrite app_length in Hn. apply utf8_tail in Hu'; [|lia]. apply utf8_tails in Hu'; [|eapply quad_ascii; eauto].
        apply (U_char cp'); auto. apply (IH s'); auto. lia.
      * cbn [length] in Hn. rewrite app_length in Hn. cbn [length] in Hn. rewrite app_length in Hn.
        apply utf8_tail in Hu'; [|lia]. apply utf8_tails in Hu'; [|eapply quad_ascii; eauto].
        apply utf8_tail in Hu'; [|lia]. apply utf8_tail in Hu'; [|lia]. apply utf8_tails in Hu'; [|eapply quad_ascii; eauto].
        eapply U_char; [exact Hu4|unfold surrogate; lia|]. apply (IH s'); auto. lia.
    + destruct (plain_many _ Hf _ _ Hc) as (m' & -> & Hm'). apply (U_char cp); auto. apply (IH s); auto.
      rewrite app_length in Hn. destruct x; [contradiction|]. cbn in Hn. lia.
Qed.
Lemma characters_utf8 m t : characters m t -> utf8 t -> utf8 m.
Proof. apply (characters_utf8_n (length t)). lia. Qed.

Lemma string_utf8 k n a b : string_of k n -> utf8 (a ++ n ++ b) -> utf8 k.
Proof.
  intros (t & -> & Hc) Hu. replace (a ++ (34 :: t ++ [34]) ++ b) with (a ++ 34 :: t ++ 34 :: b) in Hu by (cbn; now rewrite <- app_assoc).
  apply utf8_split in Hu; [|lia]. destruct Hu as [_ Hu]. apply utf8_split in Hu; [|lia]. destruct Hu as [Hu _]. eapply characters_utf8; eauto.
Qed.

Definition all_utf8 : json -> Prop := throughout (fun _ => True) (fun _ => True) utf8.
Definition elements_utf8 (js : list json) : Prop := all_utf8 (JArr js).
Definition members_utf8 (ms : list (str * json)) : Prop := all_utf8 (JObj ms).

Section U.
Variable R : str -> option N.

Lemma read_utf8 :
  (forall j v, denotes R j v -> forall a b, utf8 (a ++ v ++ b) -> all_utf8 j) /\
  (forall js s, array_text R js s -> forall a b, utf8 (a ++ s ++ b) -> elements_utf8 js) /\
  (forall ms s, object_text R ms s -> forall a b, utf8 (a ++ s ++ b) -> members_utf8 ms).
Proof.
  apply (denotes_ind3 R (fun j v _ => forall a b, utf8 (a ++ v ++ b) -> all_utf8 j) (fun js s _ => forall a b, utf8 (a ++ s ++ b) -> elements_utf8 js)
    (fun ms s _ => forall a b, utf8 (a ++ s ++ b) -> members_utf8 ms)); try (intros; exact I).
  - intros m s Hs a b Hu. eapply string_utf8; eauto.
  - intros js s He IH a b Hu. apply (IH (a ++ [91]) ([93] ++ b)). rewrite <- !app_assoc. cbn in *. now rewrite <- app_assoc in Hu.
  - intros ms s He IH a b Hu. apply (IH (a ++ [123]) ([125] ++ b)). rewrite <- !app_assoc. cbn in *. now rewrite <- app_assoc in Hu.
  - intros j w s w' Hw Hd IH Hw' a b Hu. split; [|exact I]. apply (IH (a ++ w) (w' ++ b)). now rewrite <- !app_assoc in *.
  - intros j js w s w' s' Hw Hd IH Hw' He IHe a b Hu. split.
    + apply (IH (a ++ w) (w' ++ 44 :: s' ++ b)). repeat (rewrite <- !app_assoc in *; cbn [app] in *). exact Hu.
    + apply (IHe (a ++ w ++ s ++ w' ++ [44]) b). repeat (rewrite <- !app_assoc in *; cbn [app] in *). exact Hu.
  - intros k j w n w1 w2 s w' Hw Hn Hw1 Hw2 Hd IH Hw' a b Hu. split; [|split; [|exact I]].
    + apply (string_utf8 k n (a ++ w) (w1 ++ 58 :: w2 ++ s ++ w' ++ b)); auto. repeat (rewrite <- !app_assoc in *; cbn [app] in *). exact Hu.
    + apply (IH (a ++ w ++ n ++ w1 ++ 58 :: w2) (w' ++ b)). repeat (rewrite <- !app_assoc in *; cbn [app] in *). exact Hu.
  - intros k j ms w n w1 w2 s w' s' Hw Hn Hw1 Hw2 Hd IH Hw' Hm IHm a b Hu. split; [|split].
    + apply (string_utf8 k n (a ++ w) (w1 ++ 58 :: w2 ++ s ++ w' ++ 44 :: s' ++ b)); auto. repeat (rewrite <- !app_assoc in *; cbn [app] in *). exact Hu.
    + apply (IH (a ++ w ++ n ++ w1 ++ 58 :: w2) (w' ++ 44 :: s' ++ b)). repeat (rewrite <- !app_assoc in *; cbn [app] in *). exact Hu.
    + apply (IHm (a ++ w ++ n ++ w1 ++ 58 :: w2 ++ s ++ w' ++ [44]) b). repeat (rewrite <- !app_assoc in *; cbn [app] in *). exact Hu.
Qed.
End U.

Lemma parse_utf8 dc t j : utf8 t -> parse dc t = Ok j -> all_utf8 j.
Proof.
  intros Hu E. apply parse_iff in E. destruct E as (b & s & r & -> & _ & (w & v & w' & -> & _ & Hv & _) & _).
  destruct (read_utf8 (strtod dc)) as [H _]. apply (H _ _ Hv (b ++ w) (w' ++ r)). now rewrite <- !app_assoc in *.
Qed.

(* ------------------------------------------------------------------ writing *)

Lemma escaped_cases c : escaped c = [c] \/ (c < 128 /\ Forall (fun b => b < 128) (escaped c)).
Proof.
  unfold escaped.
  repeat match goal with |- context [?x =? ?y] => destruct (N.eqb_spec x y) as [->|?]; [right; split; [lia|repeat constructor]|] end.
  destruct (N.ltb_spec c 32); [|auto]. right. split; [lia|].
  assert (forall x, x < 16 -> hex_digit x < 128) as H1 by (intros x Hx; unfold hex_digit; destruct (N.ltb_spec x 10); lia).
  assert (c / 16 < 16) by (apply N.div_lt_upper_bound; lia). assert (c mod 16 < 16) by (apply N.mod_lt; lia).
  repeat (constructor; [auto; lia|]). constructor.
Qed.
Lemma escaped_high c : 128 <= c -> escaped c = [c].
Proof. intros H. destruct (escaped_cases c) as [|[]]; [auto|lia]. Qed.
Lemma flat_utf8 s : utf8 s -> utf8 (flat_map escaped s).
Proof.
  induction 1 as [|cp c s Hc Hs Hu IH]; [constructor|]. rewrite flat_map_app. destruct (utf8_of_bytes _ _ Hc) as [[Hcp ->]|[Hne Hf]].
  - cbn [flat_map]. rewrite app_nil_r. destruct (escaped_cases cp) as [->|[_ Ha]]; [now apply utf8_ascii|now apply utf8_ascii_all].
  - assert (flat_map escaped c = c) as ->; [|now apply (U_char cp)]. clear Hc Hne. induction Hf as [|b c Hb Hf IHf]; [reflexivity|]. cbn [flat_map]. now rewrite escaped_high, IHf.
Qed.
Lemma quoted_utf8 s : utf8 s -> utf8 (quoted s).
Proof. intros H. apply utf8_ascii; [lia|]. apply utf8_app; [now apply flat_utf8|]. apply utf8_ascii; [lia|constructor]. Qed.

Lemma blanks_utf8 w : blanks w -> utf8 w.
Proof. intros H. rewrite <- (app_nil_r w). apply utf8_ascii_all; [|constructor]. eapply Forall_impl; [|exact H]. unfold blank. intros c Hc. cbn. lia. Qed.
Lemma number_utf8 t : (exists z, whole t z) \/ real t -> utf8 t.
Proof. intros H. rewrite <- (app_nil_r t). apply utf8_ascii_all; [|constructor]. eapply Forall_impl; [|apply number_no_zero; exact H]. cbn. lia. Qed.

Section W.
Variable dc : dconv.
Variable p : bool.
Lemma sep_utf8 l d : utf8 (separator p l d).
Proof.
  rewrite <- (app_nil_r (separator p l d)). apply utf8_ascii_all; [|constructor].
  assert (Forall (fun c => c < 128) (indent d)) as Hi by (apply Forall_forall; intros c H; apply repeat_spec in H; subst; lia).
  unfold separator. destruct (in_array l), (Nat.eqb (values_in l) 0), (Nat.even (values_in l)), p; cbn [andb app]; rewrite ?app_nil_r; repeat first [exact Hi|constructor; [lia|]|constructor].
Qed.
Lemma render_utf8 j : storable dc j -> all_utf8 j -> forall d, utf8 (render dc p d j).
Proof.
  induction j as [|b|z|b|s|js IH|ms IH] using json_ind0; intros Hs Hu d; cbn [render].
  - rewrite <- (app_nil_r [110; 117; 108; 108]). apply utf8_ascii_all; repeat constructor.
  - destruct b; [rewrite <- (app_nil_r [116; 114; 117; 101])|rewrite <- (app_nil_r [102; 97; 108; 115; 101])]; apply utf8_ascii_all; repeat constructor.
  - apply number_utf8. left. exists z. apply int_text_whole.
  - apply number_utf8. right. apply Hs.
  - apply quoted_utf8. exact Hu.
  - apply utf8_ascii; [lia|]. apply utf8_app.
    + unfold storable, all_utf8 in *. cbn [throughout] in Hs, Hu. generalize 0%nat. induction IH as [|x l Hx Hl IHl]; intros n; [constructor|].
      cbn in Hs, Hu. cbn [go_arr]. destruct Hs as [H1 H2], Hu as [U1 U2]. apply utf8_app; [apply sep_utf8|]. apply utf8_app; auto.
    + apply utf8_app; [destruct js; [constructor|apply blanks_utf8, nl_blanks]|]. apply utf8_ascii; [lia|constructor].
  - apply utf8_ascii; [lia|]. apply utf8_app.
    + unfold storable, all_utf8 in *. cbn [throughout] in Hs, Hu. generalize 0%nat. induction IH as [|x l Hx Hl IHl]; intros n; [constructor|].
      cbn in Hs, Hu. cbn [go_obj]. destruct Hs as (H0 & H1 & H2), Hu as (U0 & U1 & U2).
      apply utf8_app; [apply sep_utf8|]. apply utf8_app; [now apply quoted_utf8|]. apply utf8_app; [apply sep_utf8|]. apply utf8_app; auto.
    + apply utf8_app; [destruct ms; [constructor|apply blanks_utf8, nl_blanks]|]. apply utf8_ascii; [lia|constructor].
Qed.
End W.
