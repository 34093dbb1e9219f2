(** The reader accepts the specified texts, and nothing else. *)
From Coq Require Import String List NArith ZArith Arith Bool Lia.
From Verif Require Import Base ScalarModel ScalarSpec ScalarProofs SerialModel JtextModel JtextSpec JtextNumProofs JtextStringProofs.
Import ListNotations.
Local Open Scope list_scope.
Local Open Scope N_scope.

Local Notation str := (list N) (only parsing).

Scheme denotes_mut := Induction for denotes Sort Prop
  with elements_mut := Induction for array_text Sort Prop
  with members_mut := Induction for object_text Sort Prop.
Combined Scheme denotes_ind3 from denotes_mut, elements_mut, members_mut.

Lemma is_space_iff c : is_space c = true <-> blank c.
Proof. unfold is_space, blank. rewrite !orb_true_iff, !N.eqb_eq. tauto. Qed.
Lemma skip_split s : exists w, s = w ++ skip_spaces s /\ blanks w /\ ~ blank (peek (skip_spaces s)).
Proof.
  induction s as [|c s (w & Es & Hw & Hp)].
  - exists []. split; [reflexivity|]. split; [constructor|]. unfold blank. cbn. lia.
  - cbn. destruct (is_space c) eqn:E.
    + exists (c :: w). split; [cbn; congruence|]. split; [constructor; auto; now apply is_space_iff|auto].
    + exists []. split; [reflexivity|]. split; [constructor|]. cbn. intros H. apply is_space_iff in H. congruence.
Qed.
Lemma skip_blanks w s : blanks w -> skip_spaces (w ++ s) = skip_spaces s.
Proof. induction 1 as [|c w Hc Hw IH]; [reflexivity|]. cbn. apply is_space_iff in Hc. now rewrite Hc. Qed.
Lemma skip_none s : ~ blank (peek s) -> skip_spaces s = s.
Proof. destruct s as [|c s]; [reflexivity|]. cbn. intros H. destruct (is_space c) eqn:E; [|reflexivity]. apply is_space_iff in E. contradiction. Qed.
Lemma skip_to w s : blanks w -> ~ blank (peek s) -> skip_spaces (w ++ s) = s.
Proof. intros. rewrite skip_blanks by auto. now apply skip_none. Qed.
Lemma blanks_app a b : blanks a -> blanks b -> blanks (a ++ b).
Proof. intros. apply Forall_app. auto. Qed.

Lemma peek_is s c : peek s = c -> c <> 0 -> s = c :: tl s.
Proof. destruct s; cbn; congruence. Qed.

Lemma literal_sound word j s j' r : Forall (fun c => c <> 0) word -> literal word j s = Got j' r -> s = word ++ r /\ j' = j.
Proof.
  intros H. revert s. induction H as [|c word Hc Hw IH]; intros s E; cbn in E; [injection E as <- <-; auto|].
  destruct (N.eqb_spec (peek s) c) as [Ep|]; [|discriminate]. apply IH in E. destruct E as [E ->]. apply peek_is in Ep; auto. rewrite Ep, E. auto.
Qed.
Lemma literal_complete word j r : literal word j (word ++ r) = Got j r.
Proof. induction word as [|c w IH]; [reflexivity|]. cbn [app literal peek tl]. now rewrite N.eqb_refl. Qed.

Section R.
Variable dc : dconv.
Notation R := (strtod dc).

Lemma elements_blank w js s : blanks w -> array_text R js s -> array_text R js (w ++ s).
Proof.
  intros Hw H. destruct H as [j w0 s w' H0 Hd H'|j js w0 s w' s' H0 Hd H' He]; rewrite app_assoc; constructor; auto using blanks_app.
Qed.
Lemma members_blank w ms s : blanks w -> object_text R ms s -> object_text R ms (w ++ s).
Proof.
  intros Hw H. destruct H as [k j w0 n w1 w2 s w' H0 Hn H1 H2 Hd H'|k j ms w0 n w1 w2 s w' s' H0 Hn H1 H2 Hd H' He]; rewrite app_assoc; constructor; auto using blanks_app.
Qed.

Lemma string_value s m r : peek s = 34 -> string_body (tl s) = Got m r -> exists v, s = v ++ r /\ string_of m v.
Proof.
  intros Ep E. apply peek_is in Ep; [|lia]. apply string_exact in E. destruct E as (t & E & Hc).
  exists (34 :: t ++ [34]). split; [|exists t; auto]. rewrite Ep, E. cbn. now rewrite <- app_assoc.
Qed.

Lemma read_sound f :
  (forall s j r, value dc f s = Got j r -> exists v, s = v ++ r /\ denotes R j v) /\
  (forall s js r, elements dc f s = Got js r -> exists v, s = v ++ 93 :: r /\ array_text R js v) /\
  (forall s ms r, members dc f s = Got ms r -> exists v, s = v ++ 125 :: r /\ object_text R ms v).
Proof.
  induction f as [|f (IHv & IHe & IHm)]; [repeat split; discriminate|]. repeat split.
  - intros s j r E. cbn [value] in E. cbv zeta in E.
    destruct (N.eqb_spec (peek s) 110).
    { apply literal_sound in E; [|repeat constructor; lia]. destruct E as [-> ->]. eexists. split; [reflexivity|]. constructor. }
    destruct (N.eqb_spec (peek s) 116).
    { apply literal_sound in E; [|repeat constructor; lia]. destruct E as [-> ->]. eexists. split; [reflexivity|]. constructor. }
    destruct (N.eqb_spec (peek s) 102).
    { apply literal_sound in E; [|repeat constructor; lia]. destruct E as [-> ->]. eexists. split; [reflexivity|]. constructor. }
    destruct (N.eqb_spec (peek s) 34) as [Ep|].
    { destruct (string_body (tl s)) as [m r'|] eqn:Es; [|discriminate]. injection E as <- <-. destruct (string_value _ _ _ Ep Es) as (v & -> & Hv).
      eexists. split; [reflexivity|]. now constructor. }
    destruct (N.eqb_spec (peek s) 123) as [Ep|].
    { apply peek_is in Ep; [|lia]. destruct (skip_split (tl s)) as (w & Es & Hw & _). set (s1 := skip_spaces (tl s)) in *.
      destruct (N.eqb_spec (peek s1) 125) as [Ep1|].
      - injection E as <- <-. apply peek_is in Ep1; [|lia]. exists (123 :: w ++ [125]). split; [|now constructor].
        rewrite Ep, Es, Ep1 at 1. cbn. now rewrite <- app_assoc.
      - destruct (members dc f s1) as [ms r'|] eqn:Em; [|discriminate]. injection E as <- <-. apply IHm in Em. destruct Em as (v & Ev & Hv).
        exists (123 :: (w ++ v) ++ [125]). split; [|constructor; now apply members_blank].
        rewrite Ep, Es, Ev at 1. cbn. now rewrite <- !app_assoc. }
    destruct (N.eqb_spec (peek s) 91) as [Ep|].
    { apply peek_is in Ep; [|lia]. destruct (skip_split (tl s)) as (w & Es & Hw & _). set (s1 := skip_spaces (tl s)) in *.
      destruct (N.eqb_spec (peek s1) 93) as [Ep1|].
      - injection E as <- <-. apply peek_is in Ep1; [|lia]. exists (91 :: w ++ [93]). split; [|now constructor].
        rewrite Ep, Es, Ep1 at 1. cbn. now rewrite <- app_assoc.
      - destruct (elements dc f s1) as [ms r'|] eqn:Em; [|discriminate]. injection E as <- <-. apply IHe in Em. destruct Em as (v & Ev & Hv).
        exists (91 :: (w ++ v) ++ [93]). split; [|constructor; now apply elements_blank].
        rewrite Ep, Es, Ev at 1. cbn. now rewrite <- !app_assoc. }
    now apply number_sound in E.
  - intros s js r E. cbn [elements] in E. destruct (value dc f s) as [j r1|] eqn:Ev; [|discriminate]. cbn [then_] in E. cbv zeta in E.
    apply IHv in Ev. destruct Ev as (v & -> & Hv). destruct (skip_split r1) as (w & Er & Hw & _). set (r2 := skip_spaces r1) in *.
    destruct (N.eqb_spec (peek r2) 44) as [Ep|].
    + apply peek_is in Ep; [|lia]. destruct (skip_split (tl r2)) as (w1 & Er1 & Hw1 & _). set (r3 := skip_spaces (tl r2)) in *.
      destruct (elements dc f r3) as [js' r4|] eqn:Ee; [|discriminate]. injection E as <- <-. apply IHe in Ee. destruct Ee as (v' & Ev' & Hv').
      exists ([] ++ v ++ w ++ 44 :: w1 ++ v'). split.
      * rewrite Er, Ep, Er1, Ev'. cbn [app]. rewrite <- !app_assoc. cbn [app]. now rewrite <- !app_assoc.
      * constructor; auto; [constructor|now apply elements_blank].
    + destruct (N.eqb_spec (peek r2) 93) as [Ep|]; [|discriminate]. apply peek_is in Ep; [|lia]. injection E as <- <-.
      exists ([] ++ v ++ w). split; [|constructor; auto; constructor]. rewrite Er, Ep at 1. cbn. now rewrite <- app_assoc.
  - intros s ms r E. cbn [members] in E. destruct (N.eqb_spec (peek s) 34) as [Eq|]; cbn [negb] in E; [|discriminate].
    destruct (string_body (tl s)) as [k r0|] eqn:Ek; [|discriminate]. cbn [then_] in E. cbv zeta in E.
    destruct (string_value _ _ _ Eq Ek) as (n & -> & Hn). clear Eq Ek. destruct (skip_split r0) as (w0 & Er0 & Hw0 & _). set (r1 := skip_spaces r0) in *.
    destruct (N.eqb_spec (peek r1) 58) as [Ec|]; cbn [negb] in E; [|discriminate]. apply peek_is in Ec; [|lia].
    destruct (skip_split (tl r1)) as (w2 & Er2 & Hw2 & _). set (r2 := skip_spaces (tl r1)) in *.
    destruct (value dc f r2) as [j r3|] eqn:Ev; [|discriminate]. cbn [then_] in E.
    apply IHv in Ev. destruct Ev as (v & Ev & Hv). destruct (skip_split r3) as (w & Er & Hw & _). set (r4 := skip_spaces r3) in *.
    destruct (N.eqb_spec (peek r4) 44) as [Ep|].
    + apply peek_is in Ep; [|lia]. destruct (skip_split (tl r4)) as (w1 & Er1 & Hw1 & _). set (r5 := skip_spaces (tl r4)) in *.
      destruct (members dc f r5) as [js' r6|] eqn:Ee; [|discriminate]. injection E as <- <-. apply IHm in Ee. destruct Ee as (v' & Ev' & Hv').
      exists ([] ++ n ++ w0 ++ 58 :: w2 ++ v ++ w ++ 44 :: w1 ++ v'). split.
      * rewrite Er0, Ec, Er2, Ev, Er, Ep, Er1, Ev'. cbn [app]. repeat (rewrite <- !app_assoc; cbn [app]). reflexivity.
      * constructor; auto; [constructor|now apply members_blank].
    + destruct (N.eqb_spec (peek r4) 125) as [Ep|]; [|discriminate]. apply peek_is in Ep; [|lia]. injection E as <- <-.
      exists ([] ++ n ++ w0 ++ 58 :: w2 ++ v ++ w). split; [|constructor; auto; constructor].
      rewrite Er0, Ec, Er2, Ev, Er, Ep at 1. cbn [app]. repeat (rewrite <- !app_assoc; cbn [app]). reflexivity.
Qed.

(* ------------------------------------------------------------------ *)

(** What may follow a value. *)
Definition after (r : str) : Prop := blank (peek r) \/ peek r = 44 \/ peek r = 93 \/ peek r = 125 \/ peek r = 0.
Lemma after_ended r : after r -> ended r.
Proof.
  intros H. unfold ended, no_digit, at_digit. rewrite is_digit_not. unfold after, blank in H. repeat split; lia.
Qed.
Lemma after_blanks w r : blanks w -> after r -> after (w ++ r).
Proof. destruct 1; auto. intros _. left. auto. Qed.
Lemma after_44 r : after (44 :: r). Proof. unfold after. cbn. auto. Qed.
Lemma after_93 r : after (93 :: r). Proof. unfold after. cbn. auto. Qed.
Lemma after_125 r : after (125 :: r). Proof. unfold after. cbn. auto. Qed.

Definition value_head (c : N) : Prop := In c [110; 116; 102; 34; 123; 91; 45] \/ 48 <= c <= 57.
Lemma denotes_head j v : denotes R j v -> exists c v', v = c :: v' /\ value_head c.
Proof.
  intros H. unfold value_head. destruct H as [| | |z s W|b s W|m s (t & -> & _)|w| |w|]; try (do 2 eexists; split; [reflexivity|cbn; tauto]).
  - destruct (whole_head _ _ W) as (c & t & -> & Hc). exists c, t. split; auto. cbn. intuition.
  - destruct (real_head _ W) as (c & t & -> & Hc). exists c, t. split; auto. cbn. intuition.
Qed.
Lemma head_facts c : value_head c -> ~ blank c /\ c <> 93 /\ c <> 44 /\ c <> 125 /\ c <> 0 /\ c < 128.
Proof. unfold value_head, blank. cbn. intros H. lia. Qed.

Lemma value_number f s : (exists c t, s = c :: t /\ (c = 45 \/ 48 <= c <= 57)) -> value dc (S f) s = number dc s.
Proof.
  intros (c & t & -> & Hc). cbn [value peek tl]. cbv zeta.
  assert (forall x, x = 110 \/ x = 116 \/ x = 102 \/ x = 34 \/ x = 123 \/ x = 91 -> (c =? x) = false) as H by (intros x Hx; apply N.eqb_neq; lia).
  rewrite !H by tauto. reflexivity.
Qed.

Lemma elements_next j js w s w' r f : blanks w' -> after r -> value dc f (s ++ w' ++ r) = Got j (w' ++ r) ->
  blanks w -> ~ blank (peek s) -> s <> [] -> ~ blank (peek r) ->
  forall rest, (if peek r =? 44 then then_ (elements dc f (skip_spaces (tl r))) (fun js r => Got (j :: js) r)
      else if peek r =? 93 then Got [j] (tl r)
      else Fail PArrayMissCommaOrSquareBracket) = Got js rest ->
  elements dc (S f) (skip_spaces (w ++ s ++ w' ++ r)) = Got js rest.
Proof.
  intros Hw' Ha Hv Hw Hs Hne Hr rest E. rewrite skip_to; [|auto|destruct s; [contradiction|exact Hs]].
  cbn [elements]. rewrite Hv. cbn [then_]. cbv zeta. now rewrite skip_to by auto.
Qed.

Lemma read_complete :
  (forall j v, denotes R j v -> forall r f, after r -> (2 * length v <= f)%nat -> value dc f (v ++ r) = Got j r) /\
  (forall js s, array_text R js s -> forall r f, (2 * length s + 1 <= f)%nat ->
     elements dc f (skip_spaces (s ++ 93 :: r)) = Got js r /\ peek (skip_spaces (s ++ 93 :: r)) <> 93) /\
  (forall ms s, object_text R ms s -> forall r f, (2 * length s + 1 <= f)%nat ->
     members dc f (skip_spaces (s ++ 125 :: r)) = Got ms r /\ peek (skip_spaces (s ++ 125 :: r)) <> 125).
Proof.
  apply (denotes_ind3 R
    (fun j v _ => forall r f, after r -> (2 * length v <= f)%nat -> value dc f (v ++ r) = Got j r)
    (fun js s _ => forall r f, (2 * length s + 1 <= f)%nat ->
       elements dc f (skip_spaces (s ++ 93 :: r)) = Got js r /\ peek (skip_spaces (s ++ 93 :: r)) <> 93)
    (fun ms s _ => forall r f, (2 * length s + 1 <= f)%nat ->
       members dc f (skip_spaces (s ++ 125 :: r)) = Got ms r /\ peek (skip_spaces (s ++ 125 :: r)) <> 125)).
  - intros r [|f] Ha Hf; [cbn in Hf; lia|]. apply (literal_complete [110; 117; 108; 108]).
  - intros r [|f] Ha Hf; [cbn in Hf; lia|]. apply (literal_complete [116; 114; 117; 101]).
  - intros r [|f] Ha Hf; [cbn in Hf; lia|]. apply (literal_complete [102; 97; 108; 115; 101]).
  - intros z s W Hh r f Ha Hf. destruct (whole_head _ _ W) as (c & t & E & Hc). destruct f as [|f]; [rewrite E in Hf; cbn in Hf; lia|].
    rewrite value_number; [apply number_int; auto using after_ended|]. exists c, (t ++ r). rewrite E. auto.
  - intros b s W Hh r f Ha Hf. destruct (real_head _ W) as (c & t & E & Hc). destruct f as [|f]; [rewrite E in Hf; cbn in Hf; lia|].
    rewrite value_number; [apply number_dbl; auto using after_ended|]. exists c, (t ++ r). rewrite E. auto.
  - intros m s (t & -> & Hc) r f Ha Hf. destruct f as [|f]; [cbn in Hf; lia|].
    cbn [value app peek tl N.eqb Pos.eqb]. cbv zeta. rewrite <- app_assoc. cbn [app]. now rewrite (string_complete _ _ Hc).
  - intros w Hw r f Ha Hf. destruct f as [|f]; [cbn in Hf; lia|]. cbn [value app peek tl N.eqb Pos.eqb]. cbv zeta.
    rewrite <- app_assoc. cbn [app]. rewrite skip_to; [reflexivity|auto|unfold blank; cbn; lia].
  - intros js s He IH r f Ha Hf. destruct f as [|f]; [cbn in Hf; lia|]. cbn [value app peek tl N.eqb Pos.eqb]. cbv zeta.
    rewrite <- app_assoc. cbn [app]. cbn in Hf. rewrite app_length in Hf. cbn in Hf. destruct (IH r f) as [E Hp]; [lia|]. apply N.eqb_neq in Hp. rewrite Hp, E. reflexivity.
  - intros w Hw r f Ha Hf. destruct f as [|f]; [cbn in Hf; lia|]. cbn [value app peek tl N.eqb Pos.eqb]. cbv zeta.
    rewrite <- app_assoc. cbn [app]. rewrite skip_to; [reflexivity|auto|unfold blank; cbn; lia].
  - intros js s He IH r f Ha Hf. destruct f as [|f]; [cbn in Hf; lia|]. cbn [value app peek tl N.eqb Pos.eqb]. cbv zeta.
    rewrite <- app_assoc. cbn [app]. cbn in Hf. rewrite app_length in Hf. cbn in Hf. destruct (IH r f) as [E Hp]; [lia|]. apply N.eqb_neq in Hp. rewrite Hp, E. reflexivity.
  - intros j w s w' Hw Hd IH Hw' r f Hf. destruct (denotes_head _ _ Hd) as (c & t & E & Hc). apply head_facts in Hc. destruct Hc as (Hb & H93 & _).
    destruct f as [|f]; [lia|]. rewrite !app_length in Hf. repeat (rewrite <- !app_assoc; cbn [app]). split.
    + eapply elements_next; eauto; try (subst s; cbn; auto; discriminate); try (unfold blank; cbn; lia); try apply after_93.
      apply IH; [|lia]. apply after_blanks; auto. apply after_93.
    + rewrite skip_to by (auto; subst s; exact Hb). subst s. exact H93.
  - intros j js w s w' s' Hw Hd IH Hw' He IHe r f Hf. destruct (denotes_head _ _ Hd) as (c & t & E & Hc). apply head_facts in Hc. destruct Hc as (Hb & H93 & _).
    destruct f as [|f]; [lia|]. rewrite !app_length in Hf. cbn [length] in Hf. repeat (rewrite <- !app_assoc; cbn [app]). split.
    + eapply elements_next; eauto; try (subst s; cbn; auto; discriminate); try (unfold blank; cbn; lia); try apply after_44.
      * apply IH; [|lia]. apply after_blanks; auto. apply after_44.
      * cbn [peek tl N.eqb Pos.eqb]. destruct (IHe r f) as [-> _]; [lia|]. reflexivity.
    + rewrite skip_to by (auto; subst s; exact Hb). subst s. exact H93.
  - intros k j w n w1 w2 s w' Hw (m & -> & Hn) Hw1 Hw2 Hd IH Hw' r f Hf. destruct (denotes_head _ _ Hd) as (c & t & E & Hc). apply head_facts in Hc. destruct Hc as (Hb & H93 & _).
    destruct f as [|f]; [lia|]. rewrite !app_length in Hf. cbn [length] in Hf. rewrite !app_length in Hf. repeat (rewrite <- !app_assoc; cbn [app]).
    rewrite skip_to by (auto; unfold blank; cbn; lia). split; [|cbn; lia]. cbn [members peek tl N.eqb Pos.eqb negb].
    rewrite (string_complete _ _ Hn). cbn [then_]. cbv zeta. rewrite skip_to by (auto; unfold blank; cbn; lia). cbn [peek tl N.eqb Pos.eqb negb].
    rewrite skip_to by (auto; subst s; exact Hb). rewrite IH; [|apply after_blanks; auto; apply after_125|lia]. cbn [then_]. rewrite skip_to by (auto; unfold blank; cbn; lia). reflexivity.
  - intros k j ms w n w1 w2 s w' s' Hw (m & -> & Hn) Hw1 Hw2 Hd IH Hw' Hm IHm r f Hf. destruct (denotes_head _ _ Hd) as (c & t & E & Hc). apply head_facts in Hc. destruct Hc as (Hb & H93 & _).
    destruct f as [|f]; [lia|]. rewrite !app_length in Hf. cbn [length] in Hf. rewrite !app_length in Hf. cbn [length] in Hf. repeat (rewrite <- !app_assoc; cbn [app]).
    rewrite skip_to by (auto; unfold blank; cbn; lia). split; [|cbn; lia]. cbn [members peek tl N.eqb Pos.eqb negb].
    rewrite (string_complete _ _ Hn). cbn [then_]. cbv zeta. rewrite skip_to by (auto; unfold blank; cbn; lia). cbn [peek tl N.eqb Pos.eqb negb].
    rewrite skip_to by (auto; subst s; exact Hb). rewrite IH; [|apply after_blanks; auto; apply after_44|lia]. cbn [then_]. rewrite skip_to by (auto; unfold blank; cbn; lia).
    cbn [peek tl N.eqb Pos.eqb]. destruct (IHm r f) as [-> _]; [lia|]. reflexivity.
Qed.

(* ------------------------------------------------------------------ *)

Lemma skip_byte_split c s : c <> 0 -> exists b, s = b ++ skip_byte c s /\ (b = [] \/ b = [c]).
Proof.
  intros Hc. unfold skip_byte. destruct (N.eqb_spec (peek s) c); [exists [c]|exists []]; split; auto. now apply peek_is.
Qed.
Lemma skip_bom_split s : exists b, s = b ++ skip_bom s /\ mark b.
Proof.
  destruct (skip_byte_split 239 s) as (b1 & E1 & H1); [lia|]. destruct (skip_byte_split 187 (skip_byte 239 s)) as (b2 & E2 & H2); [lia|].
  destruct (skip_byte_split 191 (skip_byte 187 (skip_byte 239 s))) as (b3 & E3 & H3); [lia|].
  exists (b1 ++ b2 ++ b3). split; [|exists b1, b2, b3; auto]. rewrite <- !app_assoc. unfold skip_bom. rewrite <- E3, <- E2. exact E1.
Qed.
Lemma skip_byte_mark c b s : b = [] \/ b = [c] -> peek s <> c -> skip_byte c (b ++ s) = s.
Proof.
  intros Hb H. unfold skip_byte. destruct Hb as [-> | ->]; cbn [app peek tl].
  - apply N.eqb_neq in H. now rewrite H.
  - now rewrite N.eqb_refl.
Qed.
Lemma skip_bom_mark b s : mark b -> peek s < 128 -> skip_bom (b ++ s) = s.
Proof.
  intros (b1 & b2 & b3 & -> & H1 & H2 & H3) Hs. unfold skip_bom. rewrite <- !app_assoc.
  rewrite (skip_byte_mark 239 b1) by (auto; destruct H2 as [-> | ->], H3 as [-> | ->]; cbn [app peek]; lia).
  rewrite (skip_byte_mark 187 b2) by (auto; destruct H3 as [-> | ->]; cbn [app peek]; lia).
  apply skip_byte_mark; auto. lia.
Qed.

Lemma parse_iff t j : parse dc t = Ok j <-> exists b s r, t = b ++ s ++ r /\ mark b /\ document R j s /\ (r = [] \/ exists r', r = 0 :: r').
Proof.
  unfold parse, parse_stream. split.
  - destruct (skip_bom_split t) as (b & Eb & Hb). intros E. cbv zeta in E. set (t1 := skip_bom t) in *.
    destruct (skip_split t1) as (w & Ew & Hw & _). set (t2 := skip_spaces t1) in *.
    destruct (peek t2 =? 0); [discriminate|]. destruct (value dc (2 * length t2 + 2) t2) as [j' r1|] eqn:Ev; [|discriminate].
    destruct (N.eqb_spec (peek (skip_spaces r1)) 0) as [E0|]; [|discriminate]. injection E as <-.
    apply read_sound in Ev. destruct Ev as (v & Ev & Hv). destruct (skip_split r1) as (w' & Er & Hw' & _).
    exists b, (w ++ v ++ w'), (skip_spaces r1). split; [rewrite Eb, Ew, Ev, Er at 1; now rewrite <- !app_assoc|].
    split; [exact Hb|]. split; [exists w, v, w'; auto|]. destruct (skip_spaces r1) as [|c r']; [auto|]. cbn in E0. subst c. eauto.
  - intros (b & s & r & -> & Hb & (w & v & w' & -> & Hw & Hv & Hw') & Hr). destruct (denotes_head _ _ Hv) as (c & v' & Ec & Hc).
    pose proof (head_facts _ Hc) as (Hcb & _ & _ & _ & Hc0 & Hc128).
    assert (peek (v ++ w' ++ r) = c) as Ep by (rewrite Ec; reflexivity).
    rewrite <- !app_assoc. rewrite skip_bom_mark; [|auto|].
    2:{ destruct Hw as [|x w Hx _]; cbn [app]; [rewrite Ep; exact Hc128|cbn; unfold blank in Hx; lia]. }
    rewrite skip_to by (auto; rewrite Ep; exact Hcb). cbv zeta. rewrite Ep. apply N.eqb_neq in Hc0. rewrite Hc0.
    assert (peek r = 0) as Er by (destruct Hr as [->|[r' ->]]; reflexivity).
    destruct read_complete as [RC _]. rewrite (RC _ _ Hv).
    + rewrite skip_to; [now rewrite Er|auto|]. rewrite Er. unfold blank. lia.
    + apply after_blanks; auto. unfold after. auto.
    + rewrite app_length. lia.
Qed.

Lemma parse_never_ub t : parse dc t <> UB.
Proof. unfold parse. destruct (parse_stream dc t); discriminate. Qed.

Lemma mark_nil : mark [].
Proof. exists [], [], []. auto. Qed.

Lemma document_parses j s : document R j s -> parse dc s = Ok j.
Proof. intros H. apply parse_iff. exists [], s, []. rewrite app_nil_r. repeat split; auto using mark_nil. Qed.

Lemma document_unique j j' s : document R j s -> document R j' s -> j = j'.
Proof. intros H H'. apply document_parses in H, H'. congruence. Qed.

(* ------------------------------------------------------------------ *)

(** A text of a document has no zero, so nothing follows a document in a text without zeros. *)
Lemma characters_nonzero m t : characters m t -> Forall (fun c => c <> 0) t.
Proof.
  assert (forall n h, hex_quad n h -> Forall (fun c => c <> 0) h) as Q.
  { intros n h (_ & _ & ds & H & _). induction H as [|c d h ds Hc _ IH]; constructor; auto. unfold spells in Hc. lia. }
  induction 1 as [|c m s H1 H2 H3 Hc IH|c e m s Hi Hc IH|cp h c m s Hq Hs Hu Hc IH|hi lo h h' c m s Hq Hq' Hh Hl Hu Hc IH].
  - constructor.
  - constructor; [lia|auto].
  - constructor; [lia|]. constructor; [|auto]. cbn in Hi. intros ->. repeat destruct Hi as [[=]|Hi]; auto.
  - constructor; [lia|]. constructor; [lia|]. apply Forall_app. split; eauto.
  - constructor; [lia|]. constructor; [lia|]. apply Forall_app. split; eauto. constructor; [lia|]. constructor; [lia|]. apply Forall_app. split; eauto.
Qed.
Lemma blanks_nonzero w : blanks w -> Forall (fun c => c <> 0) w.
Proof. apply Forall_impl. unfold blank. lia. Qed.
Lemma string_nonzero m s : string_of m s -> Forall (fun c => c <> 0) s.
Proof. intros (t & -> & H). constructor; [lia|]. apply Forall_app. split; [eapply characters_nonzero; eauto|]. constructor; [lia|constructor]. Qed.
Lemma nonzero_all :
  (forall j v, denotes R j v -> Forall (fun c => c <> 0) v) /\ (forall js s, array_text R js s -> Forall (fun c => c <> 0) s) /\
  (forall ms s, object_text R ms s -> Forall (fun c => c <> 0) s).
Proof.
  apply (denotes_ind3 R (fun j v _ => Forall (fun c => c <> 0) v) (fun js s _ => Forall (fun c => c <> 0) s) (fun ms s _ => Forall (fun c => c <> 0) s)); intros;
    try solve [cbn; repeat constructor; discriminate];
    try (eapply Forall_impl; [|apply number_no_zero; eauto]; cbn; lia);
    repeat first [rewrite Forall_app|rewrite Forall_cons_iff]; repeat split; eauto using blanks_nonzero, string_nonzero; try discriminate.
Qed.
Lemma document_nonzero j s : document R j s -> ~ In 0 s.
Proof.
  intros (w & v & w' & -> & Hw & Hv & Hw') H. destruct nonzero_all as [Z _]. apply Z in Hv. apply blanks_nonzero in Hw, Hw'.
  assert (Forall (fun c => c <> 0) (w ++ v ++ w')) as A by (rewrite !Forall_app; auto). rewrite Forall_forall in A. now apply (A 0).
Qed.
End R.
