(** Writing directly to a stream produces what writing the tree would. *)
From Coq Require Import List NArith ZArith Arith Bool Lia.
From Verif Require Import Base PathModel EnumModel EnumSpec EnumProofs SerialModel SerialSpec SerialBaseProofs.
Import ListNotations.
Local Open Scope outcome_scope.

Local Notation str := (list N) (only parsing).

(** [w] writes the events [k a] if [o] gives [a], and fails like [o] otherwise. *)
Definition writes {A} (o : outcome A) (k : A -> list event) (w : written) : Prop :=
  match o with
  | Ok a => w = (k a, Ok tt)
  | Throws => snd w = Throws
  | UB => snd w = UB
  end.

Definition members_events (ms : list (str * json)) : list event :=
  flat_map (fun m => EvKey (fst m) :: accept (snd m)) ms.

Lemma wseq_fail a b : snd a <> Ok tt -> wseq a b = a.
Proof. destruct a as [es [[]| |]]; cbn; congruence. Qed.

Lemma wseq_ok es b : wseq (es, Ok tt) b = (es ++ fst b, snd b).
Proof. now destruct b. Qed.

Lemma writes_bind {A B} (o : outcome A) (f : A -> outcome B) k1 k2 k w1 w2 :
  writes o k1 w1 -> (forall a, o = Ok a -> writes (f a) (k2 a) w2) ->
  (forall a b, o = Ok a -> f a = Ok b -> k1 a ++ k2 a b = k b) ->
  writes (obind o f) k (wseq w1 w2).
Proof.
  destruct o as [a| |]; cbn; intros H1 H2 H3.
  - subst w1. rewrite wseq_ok. specialize (H2 a eq_refl). specialize (H3 a). destruct (f a); cbn in *.
    + subst w2. cbn. now rewrite H3.
    + exact H2.
    + exact H2.
  - rewrite wseq_fail; congruence.
  - rewrite wseq_fail; congruence.
Qed.

Lemma writes_pre {A} (o : outcome A) k k' es w :
  writes o k w -> (forall a, k' a = es ++ k a) -> writes o k' (wseq (es, Ok tt) w).
Proof.
  intros H E. rewrite wseq_ok. destruct o as [a| |]; cbn in *; auto. subst w. cbn. now rewrite E.
Qed.

Lemma writes_post {A} (o : outcome A) k k' es w :
  writes o k w -> (forall a, k' a = k a ++ es) -> writes o k' (wseq w (es, Ok tt)).
Proof.
  intros H E. destruct o as [a| |]; cbn in *.
  - subst w. cbn. now rewrite E.
  - rewrite wseq_fail; congruence.
  - rewrite wseq_fail; congruence.
Qed.

Lemma writes_omap {A B} (f : A -> B) o k k' w :
  writes o k w -> (forall a, o = Ok a -> k' (f a) = k a) -> writes (omap f o) k' w.
Proof. destruct o; cbn; intros H E; auto. now rewrite E. Qed.

Lemma writes_mapm {A B} (f : A -> outcome B) (k : B -> list event) (w : A -> written) l :
  (forall x, In x l -> writes (f x) k (w x)) -> writes (mapm f l) (flat_map k) (wall w l).
Proof.
  induction l as [|x l IH]; cbn [mapm wall]; intros H; [reflexivity|].
  apply writes_bind with (k1 := k) (k2 := fun a r => flat_map k (tl r)).
  - apply H. now left.
  - intros a _. assert (IH' : writes (mapm f l) (flat_map k) (wall w l)) by (apply IH; intros; apply H; now right).
    destruct (mapm f l); cbn in *; auto.
  - intros a b _. destruct (mapm f l); cbn; try discriminate. now intros [= <-].
Qed.

Lemma writes_filter {A B} (p : A -> bool) (f : A -> outcome B) (k : B -> list event) (w : A -> written) l :
  (forall x, In x l -> writes (f x) k (w x)) ->
  writes (mapm f (filter p l)) (flat_map k) (wall (fun x => if p x then w x else wnil) l).
Proof.
  induction l as [|x l IH]; intros H; [reflexivity|].
  assert (IH' := IH (fun y Hy => H y (or_intror Hy))). cbn [filter wall].
  destruct (p x).
  - cbn [mapm]. apply writes_bind with (k1 := k) (k2 := fun a r => flat_map k (tl r)).
    + apply H. now left.
    + intros a _. destruct (mapm f (filter p l)); cbn in *; auto.
    + intros a b _. destruct (mapm f (filter p l)); cbn; try discriminate. now intros [= <-].
  - unfold wnil. rewrite wseq_ok. cbn [app]. destruct (wall _ l). exact IH'.
Qed.

Lemma writes_map skip f w kvs : (forall kv, In kv kvs -> writes (f (snd kv)) accept (w (snd kv))) ->
  writes (map_members skip f kvs) members_events
    (wall (fun kv => if skip_null_value skip (snd kv) then wnil
                     else wseq (wev (EvKey (fst kv))) (w (snd kv))) kvs).
Proof.
  induction kvs as [|[k v] kvs IH]; intros H; [reflexivity|].
  assert (IH' := IH (fun y Hy => H y (or_intror Hy))). cbn [map_members wall fst snd].
  destruct (skip_null_value skip v).
  - unfold wnil. rewrite wseq_ok. cbn [app]. destruct (wall _ kvs). exact IH'.
  - apply writes_bind with (k1 := fun j => EvKey k :: accept j) (k2 := fun a r => members_events (tl r)).
    + apply (writes_pre _ accept _ [EvKey k]); [apply (H (k, v)); now left|reflexivity].
    + intros a _. destruct (map_members skip f kvs); cbn in *; auto.
    + intros a b _. destruct (map_members skip f kvs); cbn; try discriminate. now intros [= <-].
Qed.

Lemma writes_extra skip names f w kvs : (forall kv, In kv kvs -> writes (f (snd kv)) accept (w (snd kv))) ->
  writes (extra_members skip names f kvs) members_events (dump_extra skip names w kvs).
Proof.
  induction kvs as [|[k v] kvs IH]; intros H; [reflexivity|].
  assert (IH' := IH (fun y Hy => H y (or_intror Hy))). cbn [extra_members dump_extra].
  destruct (in_set k names); [reflexivity|]. destruct (skip_null_value skip v).
  - unfold wnil. rewrite wseq_ok. cbn [app]. destruct (dump_extra skip names w kvs). exact IH'.
  - apply writes_bind with (k1 := fun j => EvKey k :: accept j) (k2 := fun a r => members_events (tl r)).
    + apply (writes_pre _ accept _ [EvKey k]); [apply (H (k, v)); now left|reflexivity].
    + intros a _. destruct (extra_members skip names f kvs); cbn in *; auto.
    + intros a b _. destruct (extra_members skip names f kvs); cbn; try discriminate. now intros [= <-].
Qed.

Lemma writes_tuple (f : ty -> val -> outcome json) (w : ty -> val -> written) ts :
  Forall (fun t => forall v, writes (f t v) accept (w t v)) ts ->
  forall vs, writes (ser_tuple f ts vs) (flat_map accept) (dump_tuple w ts vs).
Proof.
  induction ts as [|t ts IH]; intros Hf [|v vs]; try reflexivity.
  inversion Hf as [|? ? H1 H2]; subst. specialize (IH H2 vs). cbn [ser_tuple dump_tuple].
  apply writes_bind with (k1 := accept) (k2 := fun a r => flat_map accept (tl r)).
  - apply H1.
  - intros a _. destruct (ser_tuple f ts vs); cbn in *; auto.
  - intros a b _. destruct (ser_tuple f ts vs); cbn; try discriminate. now intros [= <-].
Qed.

(** The events of a value; a flattened struct writes only its members. *)
Definition events_of (flat : option (list str)) (t : ty) (j : json) : list event :=
  match flat, t, j with
  | Some _, TRec _, JObj ms => members_events ms
  | _, _, _ => accept j
  end.

Lemma events_none t j : events_of None t j = accept j.
Proof. reflexivity. Qed.

Lemma writes_fields skip (f : ty -> option (list str) -> val -> outcome json)
  (w : ty -> option (list str) -> val -> written) names fs :
  Forall (fun g : attrs * ty =>
    (forall flat v, writes (f (snd g) flat v) (events_of flat (snd g)) (w (snd g) flat v)) /\
    (forall te, snd g = TMap te -> forall flat v, writes (f te flat v) (events_of flat te) (w te flat v))) fs ->
  (forall t flat v ms, match t with TRec _ => True | _ => False end -> f t flat v = Ok ms -> exists l, ms = JObj l) ->
  forall vs, writes (ser_fields skip f names fs vs) members_events (dump_fields skip w names fs vs).
Proof.
  intros Hf Hobj. induction fs as [|[a t] fs IH]; intros [|v vs]; try reflexivity.
  inversion Hf as [|? ? H1 H2]; subst. cbn [snd] in H1. specialize (IH H2 vs). cbn [ser_fields dump_fields].
  destruct (a_skip_ser a || skip_serialized_field skip a v).
  { unfold wnil. rewrite wseq_ok. cbn [app]. destruct (dump_fields skip w names fs vs). exact IH. }
  apply writes_bind with (k1 := members_events)
    (k2 := fun a r => match ser_fields skip f names fs vs with Ok rest => members_events rest | _ => [] end).
  - destruct (a_extra a).
    + destruct t; try reflexivity. destruct v; try reflexivity. apply writes_extra. intros kv _.
      apply (proj2 H1 t eq_refl None).
    + destruct (a_flatten a).
      * destruct t; try reflexivity. pose proof (proj1 H1 (Some names) v) as Hw.
        pose proof (Hobj (TRec fs0) (Some names) v) as Ho.
        destruct (f (TRec fs0) (Some names) v) as [j| |]; cbn [obind writes] in *; auto.
        destruct (Ho j I eq_refl) as [l ->]. exact Hw.
      * assert (Hw : writes (f t None v) (fun j => EvKey (serialized_name a) :: accept j)
                       (wseq ([EvKey (serialized_name a)], Ok tt) (w t None v)))
          by (apply (writes_pre _ accept); [exact (proj1 H1 None v)|reflexivity]).
        unfold wev. destruct (f t None v) as [j| |]; cbn [obind writes] in *; auto.
        rewrite Hw. cbn. now rewrite app_nil_r.
  - intros ms _. destruct (ser_fields skip f names fs vs); cbn in *; auto.
  - intros ms b _ E. destruct (ser_fields skip f names fs vs); cbn in E; try discriminate.
    injection E as <-. unfold members_events. now rewrite flat_map_app.
Qed.

Section WithBackend.
Context (be : backend).

Lemma ser_obj skip t flat v j : match t with TRec _ => True | _ => False end ->
  ser be skip t flat v = Ok j -> exists l, j = JObj l.
Proof.
  destruct t; cbn; try tauto. intros _. destruct v; try discriminate.
  destruct (match flat with Some names => Ok names | None => reserved_field_names fs end); cbn [obind]; try discriminate.
  destruct (ser_fields skip (ser be skip) a fs vs); cbn; try discriminate. intros [= <-]. eauto.
Qed.

Lemma dmp_writes skip t : forall flat v,
  writes (ser be skip t flat v) (events_of flat t) (dmp be skip t flat v).
Proof.
  induction t as [ |it| | | |t IH|t IH|n t IH|t IH|ts IH|e|e|fs IH] using ty_ind1; intros flat v;
    assert (Hev : forall t', ~ is_rec t' -> events_of flat t' = accept) by
      (intros t' Ht'; destruct flat, t'; try reflexivity; cbn in Ht'; tauto);
    try (rewrite Hev by (cbn; tauto)); clear Hev;
    destruct v as [b|z|b|b|s| |v|vs|m|vs]; try reflexivity; cbn [ser dmp];
    try (destruct be; reflexivity).
  - exact (IH None v).
  - unfold wev. apply writes_omap with (k := fun js => EvStartArr :: flat_map accept js ++ [EvEndArr]); [|reflexivity].
    apply writes_pre with (k := fun js => flat_map accept js ++ [EvEndArr]); [|reflexivity].
    eapply writes_post; [|reflexivity]. apply writes_mapm. intros x _. exact (IH None x).
  - unfold wev. apply writes_omap with (k := fun js => EvStartArr :: flat_map accept js ++ [EvEndArr]); [|reflexivity].
    apply writes_pre with (k := fun js => flat_map accept js ++ [EvEndArr]); [|reflexivity].
    eapply writes_post; [|reflexivity]. apply writes_mapm. intros x _. exact (IH None x).
  - apply writes_omap with (k := fun ms => EvStartObj :: members_events ms ++ [EvEndObj]); [|reflexivity].
    apply writes_pre with (k := fun ms => members_events ms ++ [EvEndObj]); [|reflexivity].
    eapply writes_post; [|reflexivity]. apply writes_map. intros x _. exact (IH None _).
  - apply writes_omap with (k := fun js => EvStartArr :: flat_map accept js ++ [EvEndArr]); [|reflexivity].
    apply writes_pre with (k := fun js => flat_map accept js ++ [EvEndArr]); [|reflexivity].
    eapply writes_post; [|reflexivity]. apply writes_tuple.
    eapply Forall_impl; [|exact IH]. intros t Ht v. exact (Ht None v).
  - destruct (to_string _ _ z _); reflexivity.
  - apply writes_omap with (k := fun js => EvStartArr :: flat_map accept js ++ [EvEndArr]); [|reflexivity].
    apply writes_pre with (k := fun js => flat_map accept js ++ [EvEndArr]); [|reflexivity].
    eapply writes_post; [|reflexivity].
    apply (writes_filter _ _ _ (fun x => wout (to_string (e_ity e) (e_tab e) x (e_unknown e)) (fun s => wev (EvStr s)))).
    intros x _. destruct (to_string _ _ x _); reflexivity.
  - assert (Hf : forall names, writes (ser_fields skip (ser be skip) names fs vs) members_events
                   (dump_fields skip (dmp be skip) names fs vs)).
    { intros names. apply writes_fields; [exact IH|]. intros. eapply ser_obj; eassumption. }
    destruct flat as [names|]; cbn [obind].
    + eapply writes_omap; [apply Hf|reflexivity].
    + destruct (reserved_field_names fs) as [names| |]; try reflexivity. cbn [obind wout].
      apply writes_omap with (k := fun ms => EvStartObj :: members_events ms ++ [EvEndObj]); [|reflexivity].
      apply writes_pre with (k := fun ms => members_events ms ++ [EvEndObj]); [|reflexivity].
      eapply writes_post; [|reflexivity]. apply Hf.
Qed.

(** Both succeed with the same document, or both fail the same way. *)
Lemma dump_lemma skip t v :
  match serialize be skip t v with
  | Ok j => dump be skip t v = (accept j, Ok tt)
  | Throws => snd (dump be skip t v) = Throws
  | UB => snd (dump be skip t v) = UB
  end.
Proof. exact (dmp_writes skip t None v). Qed.

End WithBackend.
