(** Calls on the writer up to an exception. *)
From Coq Require Import List NArith ZArith Arith Bool Lia.
From Verif Require Import Base PathModel EnumModel SerialModel SerialSpec SerialBaseProofs SerialDumpProofs JtextModel JtextSpec.
Import ListNotations.
Local Open Scope outcome_scope.
Local Open Scope N_scope.

Local Notation str := (list N) (only parsing).

Section T.
Variable dc : dconv.
Variable p : bool.
Variable fp : fpconv.

(** Where a value can be written, and where a name or the end of an object. *)
Definition at_value (w : writer) : Prop :=
  match w_levels w with
  | [] => w_root w = false
  | l :: _ => in_array l = true \/ Nat.even (values_in l) = false
  end.
Definition at_member (w : writer) : Prop :=
  match w_levels w with
  | [] => False
  | l :: _ => in_array l = false /\ Nat.even (values_in l) = true
  end.
Definition at_item (w : writer) : Prop :=
  match w_levels w with
  | [] => False
  | l :: _ => in_array l = true
  end.

(** One more value. *)
Definition one_more (w w' : writer) : Prop :=
  match w_levels w with
  | [] => w_levels w' = []
  | l :: ls => w_levels w' = mklevel (in_array l) (S (values_in l)) :: ls
  end.
(** The innermost level has grown by values or members. *)
Definition same_place (w w' : writer) : Prop := tl (w_levels w') = tl (w_levels w).

Definition value_like (r : SerialModel.written) : Prop :=
  forall w, at_value w -> Forall (in_event short) (fst r) ->
  exists w', calls dc p w (fst r) = Ok w' /\ (snd r = Ok tt -> one_more w w').
Definition members_like (r : SerialModel.written) : Prop :=
  forall w, at_member w -> Forall (in_event short) (fst r) ->
  exists w', calls dc p w (fst r) = Ok w' /\ (snd r = Ok tt -> at_member w' /\ same_place w w').
Definition items_like (r : SerialModel.written) : Prop :=
  forall w, at_item w -> Forall (in_event short) (fst r) ->
  exists w', calls dc p w (fst r) = Ok w' /\ (snd r = Ok tt -> at_item w' /\ same_place w w').

Lemma calls_app es : forall es' w, calls dc p w (es ++ es') = (w1 <- calls dc p w es ;; calls dc p w1 es').
Proof. induction es as [|e es IH]; intros es' w; cbn [app calls]; [reflexivity|]. destruct (call dc p w e); cbn [obind]; auto. Qed.

Lemma prefix_value b w : at_value w -> exists w', prefix p b w = Ok w' /\ one_more w w'.
Proof.
  unfold at_value, prefix, one_more. destruct (w_levels w) as [|l ls].
  - intros ->. eexists. split; reflexivity.
  - intros H. replace (negb (in_array l) && Nat.even (values_in l) && negb b) with false.
    + eexists. split; reflexivity.
    + destruct H as [-> | ->]; [reflexivity|]. now rewrite andb_false_r.
Qed.

Lemma prefix_name w : at_member w -> exists w', prefix p true w = Ok w' /\ one_more w w'.
Proof.
  unfold at_member, prefix, one_more. destruct (w_levels w) as [|l ls]; [tauto|]. intros _.
  rewrite andb_false_r. eexists. split; reflexivity.
Qed.

Lemma string_ok s w w' : short s -> prefix p true w = Ok w' -> exists w2, string_call p s w = Ok w2 /\ w_levels w2 = w_levels w'.
Proof.
  intros Hs E. unfold string_call, size_type. unfold short in Hs. rewrite N.mod_small by lia.
  destruct (N.leb_spec 4294967296 (2 + N.of_nat (length s) * 6)); [lia|]. rewrite E. cbn [obind]. eexists. split; reflexivity.
Qed.

Lemma one_value e : (match e with EvNull | EvBool _ | EvInt _ | EvDbl _ | EvStr _ => True | _ => False end) -> value_like (wev e).
Proof.
  intros He w Hw Hs. inversion Hs as [|? ? Hs1 _]; subst. cbn [wev fst calls].
  destruct (prefix_value false w Hw) as (w1 & E1 & H1).
  assert (K : forall (o : outcome writer) f, o = Ok w1 -> (forall x, w_levels (f x) = w_levels x) ->
    exists w', (w2 <- (x <- o ;; Ok (f x)) ;; Ok w2) = Ok w' /\ (snd (wev e) = Ok tt -> one_more w w')).
  { intros o f -> Hf. cbn [obind]. eexists. split; [reflexivity|]. intros _. unfold one_more in *. now rewrite Hf. }
  destruct e as [ |[]| | |s| | | | | ]; try contradiction; cbn [call].
  - apply (K _ (fun x => put x _) E1). reflexivity.
  - apply (K _ (fun x => put x _) E1). reflexivity.
  - apply (K _ (fun x => put x _) E1). reflexivity.
  - apply (K _ (fun x => put x _) E1). reflexivity.
  - apply (K _ (fun x => if nan_or_inf bits then x else put x _) E1). intros x. now destruct (nan_or_inf bits).
  - destruct (prefix_value true w Hw) as (w2 & E2 & H2). destruct (string_ok s w w2 Hs1 E2) as (w3 & E3 & H3).
    rewrite E3. cbn [obind]. exists w3. split; [reflexivity|]. intros _. unfold one_more in *. now rewrite H3.
Qed.

Lemma fst_fail a b : snd a <> Ok tt -> fst (wseq a b) = fst a /\ snd (wseq a b) = snd a.
Proof. intros H. rewrite wseq_fail by assumption. auto. Qed.

(** One after another. *)
Lemma like_seq (P Q R : writer -> Prop) (S1 S2 S3 : writer -> writer -> Prop) a b :
  (forall w w', P w -> S1 w w' -> Q w') -> (forall w w1 w2, P w -> S1 w w1 -> S2 w1 w2 -> S3 w w2) ->
  (forall w, P w -> Forall (in_event short) (fst a) -> exists w', calls dc p w (fst a) = Ok w' /\ (snd a = Ok tt -> S1 w w')) ->
  (forall w, Q w -> Forall (in_event short) (fst b) -> exists w', calls dc p w (fst b) = Ok w' /\ (snd b = Ok tt -> S2 w w')) ->
  forall w, P w -> Forall (in_event short) (fst (wseq a b)) ->
  exists w', calls dc p w (fst (wseq a b)) = Ok w' /\ (snd (wseq a b) = Ok tt -> S3 w w').
Proof.
  intros HQ HS Ha Hb w Hw Hs. destruct a as [es [[]| |]].
  - rewrite wseq_ok in *. cbn [fst snd] in *. apply Forall_app in Hs. destruct Hs as [Hs1 Hs2].
    destruct (Ha w Hw Hs1) as (w1 & E1 & K1). specialize (K1 eq_refl). destruct (Hb w1 (HQ _ _ Hw K1) Hs2) as (w2 & E2 & K2).
    exists w2. rewrite calls_app, E1. cbn [obind]. split; [assumption|]. intros E. eauto.
  - destruct (Ha w Hw Hs) as (w1 & E1 & K1). exists w1. split; [assumption|]. discriminate.
  - destruct (Ha w Hw Hs) as (w1 & E1 & K1). exists w1. split; [assumption|]. discriminate.
Qed.

Lemma members_seq a b : members_like a -> members_like b -> members_like (wseq a b).
Proof.
  intros Ha Hb. refine (like_seq at_member at_member at_member (fun w w' => at_member w' /\ same_place w w') (fun w w' => at_member w' /\ same_place w w')
    (fun w w' => at_member w' /\ same_place w w') a b _ _ Ha Hb); unfold same_place; intuition congruence.
Qed.
Lemma items_seq a b : items_like a -> items_like b -> items_like (wseq a b).
Proof.
  intros Ha Hb. refine (like_seq at_item at_item at_item (fun w w' => at_item w' /\ same_place w w') (fun w w' => at_item w' /\ same_place w w')
    (fun w w' => at_item w' /\ same_place w w') a b _ _ Ha Hb); unfold same_place; intuition congruence.
Qed.
Lemma members_nil : members_like wnil.
Proof. intros w Hw _. exists w. split; [reflexivity|]. intros _. split; [assumption|reflexivity]. Qed.
Lemma items_nil : items_like wnil.
Proof. intros w Hw _. exists w. split; [reflexivity|]. intros _. split; [assumption|reflexivity]. Qed.
Lemma value_fail o : o <> Ok tt -> value_like (wfail o).
Proof. intros Ho w Hw _. exists w. split; [reflexivity|]. intros H. now cbn in H. Qed.
Lemma members_fail o : o <> Ok tt -> members_like (wfail o).
Proof. intros Ho w Hw _. exists w. split; [reflexivity|]. intros H. now cbn in H. Qed.
Lemma items_fail o : o <> Ok tt -> items_like (wfail o).
Proof. intros Ho w Hw _. exists w. split; [reflexivity|]. intros H. now cbn in H. Qed.

Lemma even_flip n : Nat.even (S n) = negb (Nat.even n).
Proof. rewrite Nat.even_succ, <- Nat.negb_even. reflexivity. Qed.

Lemma name_like k r : value_like r -> members_like (wseq (wev (EvKey k)) r).
Proof.
  intros Hr. unfold members_like.
  refine (like_seq at_member (fun w => exists l ls, w_levels w = l :: ls /\ in_array l = false /\ Nat.even (values_in l) = false) at_member
    one_more one_more (fun w w' => at_member w' /\ same_place w w') (wev (EvKey k)) r _ _ _ _).
  - unfold at_member, one_more. intros w w' Hw H. destruct (w_levels w) as [|l ls]; [tauto|]. destruct Hw as [Ha He].
    exists (mklevel (in_array l) (S (values_in l))), ls. split; [assumption|]. cbn [in_array values_in]. rewrite even_flip, He. auto.
  - unfold at_member, one_more, same_place. intros w w1 w2 Hw H1 H2. destruct (w_levels w) as [|l ls]; [tauto|].
    rewrite H1 in H2. cbn [in_array values_in] in H2. rewrite H2. cbn [tl in_array values_in]. destruct Hw as [Ha He].
    rewrite !even_flip, He. repeat split; congruence.
  - intros w Hw Hs. inversion Hs as [|? ? Hs1 _]; subst. cbn [wev fst calls call].
    destruct (prefix_name w Hw) as (w1 & E1 & H1). destruct (string_ok k w w1 Hs1 E1) as (w2 & E2 & H2). rewrite E2. cbn [obind].
    exists w2. split; [reflexivity|]. intros _. unfold one_more in *; now rewrite H2.
  - intros w (l & ls & El & Ha & He) Hs. apply Hr; [unfold at_value; rewrite El; auto|assumption].
Qed.

Lemma item_like r : value_like r -> items_like r.
Proof.
  intros Hr w Hw Hs. destruct (Hr w) as (w1 & E1 & K1); [unfold at_value, at_item in *; destruct (w_levels w); tauto|assumption|].
  exists w1. split; [assumption|]. intros E. specialize (K1 E). unfold at_item, one_more, same_place in *.
  destruct (w_levels w) as [|l ls]; [tauto|]. rewrite K1. auto.
Qed.

Lemma array_like r : items_like r -> value_like (wseq (wev EvStartArr) (wseq r (wev EvEndArr))).
Proof.
  intros Hr. unfold value_like.
  refine (like_seq at_value at_item at_value
    (fun w w' => at_item w' /\ exists w1, one_more w w1 /\ tl (w_levels w') = w_levels w1)
    (fun w w' => w_levels w' = tl (w_levels w)) one_more (wev EvStartArr) (wseq r (wev EvEndArr)) _ _ _ _).
  - intros w w' _ [H _]. exact H.
  - intros w w1 w2 _ (_ & w3 & H3 & E3) E2. unfold one_more in *. rewrite E2, E3. exact H3.
  - intros w Hw _. cbn [wev fst calls call]. destruct (prefix_value false w Hw) as (w1 & E1 & H1). rewrite E1. cbn [obind].
    eexists. split; [reflexivity|]. intros _. split; [reflexivity|]. exists w1. split; [assumption|reflexivity].
  - refine (like_seq at_item at_item at_item (fun w w' => at_item w' /\ same_place w w') (fun w w' => w_levels w' = tl (w_levels w))
      (fun w w' => w_levels w' = tl (w_levels w)) r (wev EvEndArr) _ _ Hr _).
    + intros w w' _ [H _]. exact H.
    + unfold same_place. intros w w1 w2 _ [_ H1] H2. congruence.
    + intros w Hw _. cbn [wev fst calls call]. unfold at_item in Hw. destruct (w_levels w) as [|l ls]; [tauto|]. rewrite Hw. cbn [negb obind].
      eexists. split; [reflexivity|]. intros _. reflexivity.
Qed.

Lemma object_like r : members_like r -> value_like (wseq (wev EvStartObj) (wseq r (wev EvEndObj))).
Proof.
  intros Hr. unfold value_like.
  refine (like_seq at_value at_member at_value
    (fun w w' => at_member w' /\ exists w1, one_more w w1 /\ tl (w_levels w') = w_levels w1)
    (fun w w' => w_levels w' = tl (w_levels w)) one_more (wev EvStartObj) (wseq r (wev EvEndObj)) _ _ _ _).
  - intros w w' _ [H _]. exact H.
  - intros w w1 w2 _ (_ & w3 & H3 & E3) E2. unfold one_more in *. rewrite E2, E3. exact H3.
  - intros w Hw _. cbn [wev fst calls call]. destruct (prefix_value false w Hw) as (w1 & E1 & H1). rewrite E1. cbn [obind].
    eexists. split; [reflexivity|]. intros _. split; [split; reflexivity|]. exists w1. split; [assumption|reflexivity].
  - refine (like_seq at_member at_member at_member (fun w w' => at_member w' /\ same_place w w') (fun w w' => w_levels w' = tl (w_levels w))
      (fun w w' => w_levels w' = tl (w_levels w)) r (wev EvEndObj) _ _ Hr _).
    + intros w w' _ [H _]. exact H.
    + unfold same_place. intros w w1 w2 _ [_ H1] H2. congruence.
    + intros w Hw _. cbn [wev fst calls call]. unfold at_member in Hw. destruct (w_levels w) as [|l ls]; [tauto|].
      destruct Hw as [Ha He]. rewrite Ha. rewrite <- Nat.negb_even, He. cbn [negb orb obind].
      eexists. split; [reflexivity|]. intros _. reflexivity.
Qed.

Lemma all_items {A} (f : A -> SerialModel.written) l : (forall x, In x l -> items_like (f x)) -> items_like (wall f l).
Proof. induction l as [|x l IH]; intros H; cbn [wall]; [apply items_nil|]. apply items_seq; [apply H; now left|apply IH; intros; apply H; now right]. Qed.
Lemma all_members {A} (f : A -> SerialModel.written) l : (forall x, In x l -> members_like (f x)) -> members_like (wall f l).
Proof. induction l as [|x l IH]; intros H; cbn [wall]; [apply members_nil|]. apply members_seq; [apply H; now left|apply IH; intros; apply H; now right]. Qed.

Definition dumps_like (flat : option (list str)) (t : ty) (r : SerialModel.written) : Prop :=
  match flat, t with
  | Some _, TRec _ => members_like r
  | _, _ => value_like r
  end.

Lemma text_like (o : outcome str) : value_like (wout o (fun s => wev (EvStr s))).
Proof. destruct o; cbn [wout]; [now apply one_value|now apply value_fail|now apply value_fail]. Qed.

Lemma dmp_like skip t : forall flat v, dumps_like flat t (dmp (Json fp) skip t flat v).
Proof.
  assert (V : forall flat t' r, match t' with TRec _ => False | _ => True end -> value_like r -> dumps_like flat t' r).
  { intros [names|] t' r Ht Hr; destruct t'; auto. contradiction. }
  assert (F : forall flat t', dumps_like flat t' (wfail UB)).
  { intros [names|] t'; destruct t'; (now apply value_fail) || (now apply members_fail). }
  induction t as [ |it| | | |t IH|t IH|n t IH|t IH|ts IH|e|e|fs IH] using ty_ind1; intros flat v;
    destruct v as [b|z|b|b|s| |v|vs|m|vs]; try exact (F _ _); try (apply V; [exact I|]); cbn [dmp]; try (now apply one_value).
  - exact (IH None v).
  - apply array_like, all_items. intros x _. apply item_like. exact (IH None x).
  - apply array_like, all_items. intros x _. apply item_like. exact (IH None x).
  - apply object_like, all_members. intros x _. destruct (skip_null_value skip (snd x)); [apply members_nil|].
    apply name_like. exact (IH None (snd x)).
  - apply array_like. revert vs. induction IH as [|t ts Ht _ IHts]; intros [|v vs]; cbn [dump_tuple];
      try apply items_nil; try (now apply items_fail). apply items_seq; [apply item_like; exact (Ht None v)|apply IHts].
  - apply text_like.
  - apply array_like, all_items. intros x _. destruct (es_test (e_ity e) z x); [apply item_like, text_like|apply items_nil].
  - assert (Hf : forall names, members_like (dump_fields skip (dmp (Json fp) skip) names fs vs)).
    { intros names. revert vs. induction IH as [|[a t] fs [Ht Hm] _ IHfs]; intros [|v vs]; cbn [dump_fields];
        try apply members_nil; try (now apply members_fail). cbn [snd] in *. apply members_seq; [|apply IHfs].
      destruct (a_skip_ser a || skip_serialized_field skip a v); [apply members_nil|].
      destruct (a_extra a).
      - destruct t; try (now apply members_fail). destruct v as [ | | | | | | | |kvs| ]; try (now apply members_fail).
        specialize (Hm t eq_refl). induction kvs as [|[k x] kvs IHk]; cbn [dump_extra]; [apply members_nil|].
        destruct (in_set k names); [now apply members_fail|]. apply members_seq; [|exact IHk].
        destruct (skip_null_value skip x); [apply members_nil|]. apply name_like. exact (Hm None x).
      - destruct (a_flatten a).
        + destruct t; try (now apply members_fail). exact (Ht (Some names) v).
        + apply name_like. exact (Ht None v). }
    destruct flat as [names|]; [exact (Hf names)|]. cbn [dumps_like].
    apply object_like. destruct (reserved_field_names fs); cbn [wout]; [apply Hf|now apply members_fail|now apply members_fail].
Qed.

Lemma dump_ends t v : Forall (in_event short) (fst (dump (Json fp) true t v)) ->
  match serialize (Json fp) true t v with
  | Ok _ => exists s, dump_text dc fp p t v = Ok s
  | Throws => dump_text dc fp p t v = Throws
  | UB => dump_text dc fp p t v = UB
  end.
Proof.
  intros Hs. pose proof (dump_lemma (Json fp) true t v) as D.
  destruct (dmp_like true t None v new_writer eq_refl Hs) as (w & E1 & _). unfold dump_text.
  change (dmp (Json fp) true t None v) with (dump (Json fp) true t v) in E1.
  destruct (dump (Json fp) true t v) as [es o]. cbn [fst snd] in *.
  destruct (serialize (Json fp) true t v) as [j| |].
  - injection D as -> ->. rewrite E1. cbn [obind]. eexists; reflexivity.
  - subst o. rewrite E1. reflexivity.
  - subst o. reflexivity.
Qed.
End T.
