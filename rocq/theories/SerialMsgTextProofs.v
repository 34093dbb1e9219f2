(** The text of a report. *)
From Coq Require Import String List NArith ZArith Arith Bool Lia.
From Verif Require Import Base ScalarModel ScalarSpec ScalarProofs SerialModel SerialYamlProofs
  SerialMsgModel SerialMsgSpec SerialMsgProofs.
Import ListNotations.
Local Open Scope list_scope.

Local Notation str := (list N) (only parsing).

Lemma sentence_text l s : sentence l s <-> s = line_text l.
Proof.
  destruct l as [[|] n|[|] n|i|[|] n]; cbn [sentence line_text doing_text]; rewrite ?bytes_codes; try reflexivity.
  split.
  - intros (ds & Hd & ->). apply int_text_decimal in Hd. now subst.
  - intros ->. eexists. split; [now apply int_text_decimal|reflexivity].
Qed.

Lemma first_text cv rs c s : first_sentence cv rs c s <-> s = cause_text cv rs c.
Proof. destruct c; cbn [first_sentence cause_text]; rewrite ?bytes_codes; reflexivity. Qed.

Lemma c_string_whole s : ~ In 0%N s -> c_string s = s.
Proof.
  induction s as [|x s IH]; cbn; intros H; [reflexivity|]. destruct (N.eqb_spec x 0) as [->|Hx]; [tauto|]. f_equal. tauto.
Qed.

Lemma clean_app a b : clean a -> clean b -> clean (a ++ b).
Proof. unfold clean. rewrite !in_app_iff. tauto. Qed.

Lemma clean_codes s : forallb (fun c => negb (c =? 10)%N && negb (c =? 0)%N) (codes s) = true -> clean (codes s).
Proof.
  intros H. rewrite forallb_forall in H. split; intros X; apply H in X; discriminate.
Qed.

Lemma digits_clean z : clean (int_text z).
Proof.
  assert (H : decimal z (int_text z)) by now apply int_text_decimal.
  destruct H as (body & E & (_ & ds & Hd & _) & _).
  assert (Hb : clean body).
  { clear E. split; intros X; induction Hd as [|c d cs ds' Hc _ IH]; cbn in X; [exact X| |exact X|];
      destruct X as [->|X]; auto; unfold spells in Hc; lia. }
  rewrite E. destruct (z <? 0)%Z; [|exact Hb]. destruct Hb as [H1 H2]. split; cbn; intros [X|X]; (discriminate || tauto).
Qed.

Lemma line_clean l : clean_line l -> clean (line_text l).
Proof.
  destruct l as [[|] n|[|] n|i|[|] n]; cbn [clean_line line_text doing_text]; rewrite ?bytes_codes; intros H;
    repeat apply clean_app; try (apply clean_codes; reflexivity); auto. apply digits_clean.
Qed.

Lemma shown_iff s t : shown s t <-> t = c_string s.
Proof.
  unfold shown. revert t. induction s as [|x s IH]; intros t; cbn [c_string].
  - split; [intros [_ [->|(r & E)]]; [reflexivity|now destruct t]|intros ->; auto].
  - destruct (N.eqb_spec x 0) as [->|Hx].
    + split.
      * intros [Hn [<-|(r & E)]]; [destruct Hn; now left|]. destruct t as [|y t]; [reflexivity|].
        injection E as <- _. destruct Hn. now left.
      * intros ->. split; [auto|]. right. now exists s.
    + split.
      * intros [Hn H]. destruct t as [|y t].
        -- destruct H as [H|(r & [= H _])]; [discriminate|contradiction].
        -- assert (y = x) by (destruct H as [H|(r & H)]; now injection H). subst y. f_equal. apply IH.
           split; [intros X; apply Hn; now right|]. destruct H as [H|(r & H)]; injection H as H; [now left|right; now exists r].
      * intros ->. destruct (proj2 (IH (c_string s)) eq_refl) as [Hn H]. split.
        -- intros [X|X]; [congruence|auto].
        -- destruct H as [H|(r & H)]; [left; now rewrite <- H|right; exists r; cbn; now rewrite <- H].
Qed.

Lemma c_string_no_zero s : ~ In 0%N (c_string s).
Proof. now apply (shown_iff s (c_string s)). Qed.

Lemma messages_cut cv rs c ls : messages cv rs c ls = joined (cause_text cv rs c) (map (fun l => c_string (line_text l)) ls).
Proof.
  unfold messages, joined. generalize (cause_text cv rs c) as m. induction ls as [|l ls IH]; intros m; cbn.
  - now rewrite app_nil_r.
  - rewrite IH, <- !app_assoc. reflexivity.
Qed.

Lemma what_shown cv rs c ls first rest : first_sentence cv rs c first -> ~ In 0%N first ->
  Forall2 (fun l s => exists whole, sentence l whole /\ shown whole s) ls rest ->
  what_text cv rs c ls = joined first rest.
Proof.
  intros Hc Hz Hls. apply first_text in Hc. subst first.
  assert (rest = map (fun l => c_string (line_text l)) ls).
  { induction Hls as [|l s ls rest (whole & Hs & Ht) _ IH]; [reflexivity|]. cbn. apply sentence_text in Hs. apply shown_iff in Ht.
    now rewrite Ht, Hs, IH. }
  subst rest. unfold what_text. rewrite messages_cut. apply c_string_whole.
  unfold joined. rewrite in_app_iff. intros [X|X]; [auto|]. rewrite in_concat in X.
  destruct X as (l & Hl & X). apply in_map_iff in Hl. destruct Hl as (l' & <- & Hl'). apply in_map_iff in Hl'.
  destruct Hl' as (l0 & <- & _). destruct X as [X|X]; [discriminate|]. now apply c_string_no_zero in X.
Qed.

(** A zero in the first line ends the text. *)
Lemma what_first cv rs c ls first s : first_sentence cv rs c first -> In 0%N first -> shown first s -> what_text cv rs c ls = s.
Proof.
  intros Hc Hz Hs. apply first_text in Hc. subst first. unfold what_text. rewrite messages_cut. symmetry. apply shown_iff.
  destruct Hs as [Hn [E|(r & E)]]; [rewrite E in Hz; contradiction|]. split; [exact Hn|]. right. unfold joined. rewrite E, <- app_assoc.
  eexists. reflexivity.
Qed.

Lemma what_joined cv rs c ls first rest : first_sentence cv rs c first -> Forall2 sentence ls rest ->
  clean first -> Forall clean_line ls -> what_text cv rs c ls = joined first rest.
Proof.
  intros Hc Hls Hf Hl. apply (what_shown cv rs c ls first rest Hc); [apply Hf|].
  induction Hls as [|l s ls rest Hs _ IH]; [constructor|]. inversion Hl; subst. constructor; [|auto].
  exists s. split; [exact Hs|]. apply sentence_text in Hs. subst s. split; [|now left]. now apply line_clean.
Qed.

(** Lines can be told apart. *)
Lemma split_line (a b : str) x y : ~ In 10%N a -> ~ In 10%N b ->
  a ++ 10%N :: x = b ++ 10%N :: y -> a = b /\ x = y.
Proof.
  revert b. induction a as [|c a IH]; intros [|c' b] Ha Hb E; cbn in *.
  - split; congruence.
  - injection E as <- _. tauto.
  - injection E as -> _. tauto.
  - injection E as <- E. apply IH in E; [|tauto|tauto]. destruct E as [-> ->]. auto.
Qed.

Lemma line_alone (a b : str) y : ~ In 10%N a -> a = b ++ 10%N :: y -> False.
Proof. intros Ha ->. apply Ha, in_elt. Qed.

Lemma joined_injective ls : forall f f' ls', ~ In 10%N f -> ~ In 10%N f' -> Forall (fun s => ~ In 10%N s) ls -> Forall (fun s => ~ In 10%N s) ls' ->
  joined f ls = joined f' ls' -> f = f' /\ ls = ls'.
Proof.
  unfold joined. induction ls as [|l ls IH]; intros f f' [|l' ls'] Hf Hf' Hl Hl' E; cbn in E.
  - rewrite !app_nil_r in E. auto.
  - rewrite app_nil_r in E. now apply line_alone in E.
  - rewrite app_nil_r in E. symmetry in E. now apply line_alone in E.
  - apply split_line in E; [|exact Hf|exact Hf']. destruct E as [-> E]. inversion Hl; inversion Hl'; subst.
    apply IH in E; auto. destruct E as [-> ->]. auto.
Qed.

Lemma line_text_injective l l' : line_text l = line_text l' -> l = l'.
Proof.
  intros E. destruct l as [[|] n|[|] n|i|[|] n], l' as [[|] n'|[|] n'|i'|[|] n']; cbn in E; try discriminate;
    try (injection E as ->; reflexivity). 
  injection E as E. f_equal. apply Nat2Z.inj.
  eapply decimal_unique; [apply int_text_decimal; reflexivity|apply int_text_decimal; reflexivity|exact E].
Qed.

Lemma what_injective cv rs cv' rs' c c' ls ls' s s' : first_sentence cv rs c s -> first_sentence cv' rs' c' s' -> clean s -> clean s' ->
  Forall clean_line ls -> Forall clean_line ls' ->
  what_text cv rs c ls = what_text cv' rs' c' ls' -> s = s' /\ ls = ls'.
Proof.
  intros Hs Hs' Cs Cs' Cl Cl' E.
  assert (S2 : forall ls, Forall2 sentence ls (map line_text ls)).
  { clear. induction ls; cbn; constructor; auto. now apply sentence_text. }
  rewrite (what_joined cv rs c ls s _ Hs (S2 ls) Cs Cl), (what_joined cv' rs' c' ls' s' _ Hs' (S2 ls') Cs' Cl') in E.
  assert (N10 : forall ls, Forall clean_line ls -> Forall (fun s => ~ In 10%N s) (map line_text ls)).
  { clear. intros ls H. apply Forall_forall. intros s Hs. apply in_map_iff in Hs. destruct Hs as (l & <- & Hin).
    rewrite Forall_forall in H. apply (line_clean l (H l Hin)). }
  apply joined_injective in E; [|apply Cs|apply Cs'|now apply N10|now apply N10].
  destruct E as [-> E]. split; [reflexivity|]. clear - E. revert ls' E. induction ls as [|l ls IH]; intros [|l' ls'] E; cbn in E; try discriminate; [reflexivity|].
  injection E as E1 E2. apply line_text_injective in E1. subst. f_equal. auto.
Qed.
