(** Reading through computed fields. *)
From Coq Require Import List NArith Arith Bool Lia.
From Verif Require Import Base CgetModel CgetSpec.
Import ListNotations.

Notation field := (str * source * list (val -> str -> bool) * ty)%type (only parsing).

Lemma same_iff a b : same a b = true <-> a = b.
Proof. unfold same. destruct (list_eq_dec N.eq_dec a b); split; congruence. Qed.
Lemma same_not a b : same a b = false <-> a <> b.
Proof. rewrite <- same_iff. destruct (same a b); split; congruence. Qed.

Lemma ty_rec1 (P : ty -> Prop) : P Leaf -> (forall t, P t -> P (Opt t)) -> (forall t, P t -> P (Map t)) -> (forall t, P t -> P (Seq t)) ->
  (forall fs, Forall (fun f : field => P (snd f)) fs -> P (Struct fs)) -> forall t, P t.
Proof.
  intros HL HO HM HS HT. fix IH 1. intros [|t|t|t|fs].
  - exact HL.
  - apply HO, IH.
  - apply HM, IH.
  - apply HS, IH.
  - apply HT. induction fs as [|f fs IHfs]; constructor; [apply IH|exact IHfs].
Qed.

Lemma find_first {A} (f : A -> bool) (P : A -> Prop) l : (forall x, f x = true <-> P x) ->
  match find f l with Some x => first P l x | None => Forall (fun y => ~ P y) l end.
Proof.
  intros H. induction l as [|y l IH]; cbn [find]; [constructor|]. destruct (f y) eqn:E.
  - exists [], l. split; [reflexivity|]. split; [now apply H|constructor].
  - assert (N : ~ P y) by (rewrite <- H; congruence). destruct (find f l) as [x|].
    + destruct IH as (a & b & -> & Px & Fa). exists (y :: a), b. split; [reflexivity|]. split; [exact Px|now constructor].
    + now constructor.
Qed.
Lemma first_one {A} (P : A -> Prop) l : forall x y, first P l x -> first P l y -> x = y.
Proof.
  intros x y (a & b & E & Px & Fa) (a' & b' & E' & Py & Fa'). subst l. revert a' E' Fa'.
  induction a as [|z a IH]; intros [|z' a'] E' Fa'; cbn in E'; inversion E'; subst; try reflexivity.
  - inversion Fa'; subst. contradiction.
  - inversion Fa; subst. contradiction.
  - inversion Fa; inversion Fa'; subst. eapply IH; eauto.
Qed.
Lemma first_none {A} (P : A -> Prop) l x : first P l x -> ~ Forall (fun y => ~ P y) l.
Proof. intros (a & b & -> & Px & _) H. apply Forall_app in H as [_ H]. inversion H; subst. contradiction. Qed.
Lemma find_is_first {A} (f : A -> bool) (P : A -> Prop) l x : (forall x, f x = true <-> P x) -> first P l x -> find f l = Some x.
Proof.
  intros H F. pose proof (find_first f P l H) as G. destruct (find f l) as [y|].
  - f_equal. eapply first_one; eauto.
  - exfalso. eapply first_none; eauto.
Qed.

Lemma by_key_iff keys l s v : by_key keys l s = Some v <-> keyed keys l s v.
Proof.
  unfold by_key. induction keys as [|k keys IH]; cbn [fold_right].
  - split; [discriminate|]. intros ([|? ?] & ? & ? & E & _); discriminate.
  - pose proof (find_first (fun x => k x s) (fun x => k x s = true) l (fun x => iff_refl _)) as F.
    destruct (find (fun x => k x s) l) as [w|] eqn:E.
    + split.
      * intros [= <-]. exists [], k, keys. split; [reflexivity|]. split; [constructor|exact F].
      * intros ([|k' a] & k1 & b & Ek & Fa & Fi); cbn in Ek; injection Ek as -> ->.
        -- f_equal. eapply first_one; eauto.
        -- exfalso. inversion Fa as [|? ? Fk _]; subst. destruct F as (x & y & -> & Pw & _). apply Forall_app in Fk as [_ Fk].
           inversion Fk; subst. congruence.
    + assert (Fk : Forall (fun x => k x s = false) l).
      { eapply Forall_impl; [|exact F]. cbn. intros x Hx. now apply not_true_iff_false. }
      rewrite IH. split.
      * intros (a & k1 & b & -> & Fa & Fi). exists (k :: a), k1, b. split; [reflexivity|]. split; [now constructor|exact Fi].
      * intros ([|k' a] & k1 & b & Ek & Fa & Fi); cbn in Ek; injection Ek as -> ->.
        -- exfalso. destruct Fi as (x & y & -> & Pw & _). apply Forall_app in Fk as [_ Fk]. inversion Fk; subst. congruence.
        -- exists a, k1, b. split; [reflexivity|]. split; [now inversion Fa|exact Fi].
Qed.

Section Visit.
Context (parse_index : str -> option nat).
Notation visit := (visit parse_index).
Notation leads := (leads parse_index).

Definition named (s : str) (f : field) : Prop := fst (fst (fst f)) = s.

Lemma visit_struct fs keys n s p : visit (Struct fs) keys n (s :: p) =
  match find (fun f : field => same (fst (fst (fst f))) s) fs with
  | None => Throws
  | Some (name, src, ks, t') =>
      match n with
      | Gone => UB
      | Stable v | Temp v => match field_of v src with Some c => visit t' ks c p | None => Throws end
      end
  end.
Proof.
  cbn [CgetModel.visit]. induction fs as [|[[[nm src] ks] t'] fs IH]; cbn [find fst]; [reflexivity|].
  destruct (same nm s); [reflexivity|]. exact IH.
Qed.

Lemma field_found s (fs : list field) f : first (fun f => fst (fst (fst f)) = s) fs f -> find (fun f : field => same (fst (fst (fst f))) s) fs = Some f.
Proof. apply find_is_first. intros x. apply same_iff. Qed.

Definition at_node (c : bool) (v : val) : node := if c then Temp v else Stable v.

Lemma leads_gone c t ks v p x th : leads c t ks v p x th -> visit t ks Gone p = UB.
Proof.
  intros H. destruct H.
  - destruct t; reflexivity.
  - rewrite visit_struct, (field_found _ _ _ H). reflexivity.
  - rewrite visit_struct, (field_found _ _ _ H). reflexivity.
  - reflexivity.
  - reflexivity.
  - reflexivity.
  - cbn [CgetModel.visit]. rewrite H. reflexivity.
Qed.

Lemma leads_visit c t ks v p x th : leads c t ks v p x th -> visit t ks (at_node c v) p = if th then UB else Ok x.
Proof.
  intros H. induction H.
  - destruct t, c; reflexivity.
  - rewrite visit_struct, (field_found _ _ _ H). destruct c; cbn [at_node field_of]; rewrite H0; exact IHleads.
  - rewrite visit_struct, (field_found _ _ _ H). destruct c; exact IHleads.
  - exact IHleads.
  - cbn [CgetModel.visit at_node]. rewrite (find_is_first _ _ _ _ (fun y => same_iff (fst y) s) H). exact IHleads.
  - cbn [CgetModel.visit]. apply by_key_iff in H. destruct c; cbn [at_node]; rewrite H; exact IHleads.
  - cbn [CgetModel.visit]. rewrite H. destruct c; cbn [at_node orb]; rewrite H0; [|exact IHleads].
    eapply leads_gone; eauto.
Qed.

Lemma visit_leads t : forall ks c v p,
  (forall x, visit t ks (at_node c v) p = Ok x -> leads c t ks v p x false) /\
  (visit t ks (at_node c v) p = UB -> exists p1 p2 x, p = p1 ++ p2 /\ leads c t ks v p1 x true).
Proof.
  assert (Here : forall t ks c v, (forall x, visit t ks (at_node c v) [] = Ok x -> leads c t ks v [] x false) /\
    (visit t ks (at_node c v) [] = UB -> exists p1 p2 x, [] = p1 ++ p2 /\ leads c t ks v p1 x true)).
  { intros t0 ks c v. assert (E : visit t0 ks (at_node c v) [] = Ok v) by (destruct t0, c; reflexivity). rewrite E.
    split; [|discriminate]. intros x [= <-]. constructor. }
  induction t as [|t IH|t IH|t IH|fs IH] using ty_rec1; intros ks c v [|s p]; try apply Here; clear Here.
  - split; discriminate.
  - destruct c; [split; discriminate|]. cbn [at_node]. destruct v as [n|ms| |w|l|l]; try (split; discriminate).
    change (visit (Opt t) ks (Stable (VSome w)) (s :: p)) with (visit t [] (at_node false w) (s :: p)). split.
    + intros x H. constructor. now apply IH.
    + intros H. apply IH in H as (p1 & p2 & x & E & L). destruct p1 as [|s1 p1]; [inversion L|]. injection E as <- ->.
      exists (s :: p1), p2, x. split; [reflexivity|]. now constructor.
  - destruct c; [split; discriminate|]. cbn [at_node CgetModel.visit]. destruct v as [n|ms| |w|l|l]; try (split; discriminate).
    pose proof (find_first (fun e : str * val => same (fst e) s) (fun e => fst e = s) l (fun e => same_iff (fst e) s)) as F.
    destruct (find (fun e : str * val => same (fst e) s) l) as [e|]; [|split; discriminate].
    change (Stable (snd e)) with (at_node false (snd e)). split.
    + intros x H. econstructor; [exact F|]. now apply IH.
    + intros H. apply IH in H as (p1 & p2 & x & -> & L). exists (s :: p1), p2, x. split; [reflexivity|]. econstructor; eauto.
  - cbn [CgetModel.visit]. destruct ks as [|k ks].
    + destruct (parse_index s) as [i|] eqn:Ei; [|split; discriminate].
      destruct c; cbn [at_node]; destruct v as [n|ms| |w|l|l]; try (split; discriminate);
        (destruct (nth_error l i) as [x0|] eqn:En; [|split; discriminate]).
      * split.
        -- intros x H. exfalso. destruct p as [|s' p]; [destruct t; discriminate|].
           clear IH. revert H. generalize (@nil (val -> str -> bool)). revert s' p.
           induction t as [|t IHt|t IHt|t IHt|fs IHf] using ty_rec1; intros s' p ks H; try discriminate.
           ++ cbn [CgetModel.visit] in H. destruct ks; [|discriminate]. destruct (parse_index s'); discriminate.
           ++ rewrite visit_struct in H. destruct (find _ fs) as [[[[? ?] ?] ?]|]; discriminate.
        -- intros _. exists [s], p, x0. split; [reflexivity|].
           exact (leads_index parse_index true t l s [] i x0 x0 false Ei En (leads_here _ _ _ _ _)).
      * change (Stable x0) with (at_node false x0). split.
        -- intros x H. exact (leads_index parse_index false t l s p i x0 x false Ei En (proj1 (IH _ _ _ _) x H)).
        -- intros H. apply IH in H as (p1 & p2 & x & -> & L). exists (s :: p1), p2, x. split; [reflexivity|].
           exact (leads_index parse_index false t l s p1 i x0 x true Ei En L).
    + assert (G : forall l, v = VSeq l ->
        (forall x, match by_key (k :: ks) l s with Some w => visit t [] (at_node false w) p | None => Throws end = Ok x ->
           leads c (Seq t) (k :: ks) v (s :: p) x false) /\
        (match by_key (k :: ks) l s with Some w => visit t [] (at_node false w) p | None => Throws end = UB ->
           exists p1 p2 x, s :: p = p1 ++ p2 /\ leads c (Seq t) (k :: ks) v p1 x true)).
      { intros l ->. destruct (by_key (k :: ks) l s) as [w|] eqn:E; [|split; discriminate]. apply by_key_iff in E. split.
        - intros x H. econstructor; [exact E|]. now apply IH.
        - intros H. apply IH in H as (p1 & p2 & x & -> & L). exists (s :: p1), p2, x. split; [reflexivity|]. econstructor; eauto. }
      destruct c; cbn [at_node]; destruct v as [n|ms| |w|l|l]; try (split; discriminate); exact (G l eq_refl).
  - rewrite visit_struct.
    pose proof (find_first (fun f : field => same (fst (fst (fst f))) s) (fun f => fst (fst (fst f)) = s) fs
      (fun f => same_iff (fst (fst (fst f))) s)) as F.
    destruct (find _ fs) as [[[[nm src] fks] t']|]; [|split; discriminate].
    assert (IHt : forall ks c v p, (forall x, visit t' ks (at_node c v) p = Ok x -> leads c t' ks v p x false) /\
       (visit t' ks (at_node c v) p = UB -> exists p1 p2 x, p = p1 ++ p2 /\ leads c t' ks v p1 x true)).
    { rewrite Forall_forall in IH. destruct F as (a & b & E & _). apply (IH (nm, src, fks, t')). rewrite E. apply in_or_app. right. now left. }
    replace (match at_node c v with
             | Gone => UB
             | Stable v | Temp v => match field_of v src with Some n => visit t' fks n p | None => Throws end
             end) with (match field_of v src with Some n => visit t' fks n p | None => Throws end) by (destruct c; reflexivity).
    destruct src as [i|f]; cbn [field_of].
    + destruct v as [n|ms| |w|l|l]; try (split; discriminate). destruct (nth_error ms i) as [w|] eqn:En; cbn [option_map]; [|split; discriminate].
      change (Stable w) with (at_node false w). split.
      * intros x H. eapply leads_member; eauto. now apply IHt.
      * intros H. apply IHt in H as (p1 & p2 & x & -> & L). exists (s :: p1), p2, x. split; [reflexivity|]. eapply leads_member; eauto.
    + change (Temp (f v)) with (at_node true (f v)). split.
      * intros x H. eapply leads_computed; eauto. now apply IHt.
      * intros H. apply IHt in H as (p1 & p2 & x & -> & L). exists (s :: p1), p2, x. split; [reflexivity|]. eapply leads_computed; eauto.
Qed.

Lemma no_computed_field fs f : no_computed_list (Struct fs) -> In f fs ->
  match snd (fst (fst f)), snd (fst f), snd f with Computed _, [], Seq _ => False | _, _, _ => True end /\ no_computed_list (snd f).
Proof.
  cbn [no_computed_list]. induction fs as [|[[[nm s] ks] t] fs IH]; intros H I; [contradiction|].
  destruct H as (H1 & H2 & H3). destruct I as [<-|I]; [split; assumption | now apply IH].
Qed.
Lemma first_in {A} (P : A -> Prop) l x : first P l x -> In x l.
Proof. intros (a & b & -> & _). apply in_or_app. right. now left. Qed.

Lemma leads_no_computed c t ks v p x th : leads c t ks v p x th -> no_computed_list t -> th = true ->
  c = true /\ ks = [] /\ exists t', t = Seq t'.
Proof.
  intros H. induction H; intros N T; cbn [no_computed_list] in N; try discriminate.
  - destruct (no_computed_field fs _ N (first_in _ _ _ H)) as [_ N2]. destruct (IHleads N2 T) as [X _]. discriminate.
  - destruct (no_computed_field fs _ N (first_in _ _ _ H)) as [N1 N2]. destruct (IHleads N2 T) as (_ & E & t0 & E2). cbn in N1, E2.
    subst. contradiction.
  - destruct (IHleads N T) as [X _]. discriminate.
  - destruct (IHleads N T) as [X _]. discriminate.
  - destruct (IHleads N T) as [X _]. discriminate.
  - destruct c; [repeat split; eauto|]. cbn in T. destruct (IHleads N T) as [X _]. discriminate.
Qed.

Lemma get_leads t root p x th : leads false t [] root p x th -> get parse_index t root p = if th then UB else Ok x.
Proof. exact (leads_visit false t [] root p x th). Qed.

Lemma get_answers t root p x : get parse_index t root p = Ok x <-> leads false t [] root p x false.
Proof.
  split.
  - exact (proj1 (visit_leads t [] false root p) x).
  - intros H. exact (get_leads _ _ _ _ _ H).
Qed.

Lemma get_undefined t root p : get parse_index t root p = UB -> exists p1 p2 x, p = p1 ++ p2 /\ leads false t [] root p1 x true.
Proof. exact (proj2 (visit_leads t [] false root p)). Qed.

Lemma get_defined t root p : no_computed_list t -> get parse_index t root p <> UB.
Proof.
  intros N H. apply get_undefined in H as (p1 & p2 & x & _ & L). destruct (leads_no_computed _ _ _ _ _ _ _ L N eq_refl) as [X _]. discriminate.
Qed.
End Visit.
