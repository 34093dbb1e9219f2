(** Which exceptions reading throws. *)
From Coq Require Import List NArith ZArith Arith Bool Lia.
From Verif Require Import Base PathModel EnumModel EnumSpec EnumProofs SerialModel SerialSpec SerialBaseProofs
  SerialTypeProofs SerialDocSpec SerialReadProofs.
Import ListNotations.

(** The exceptions that can leave: [logic] if names clash somewhere, [user] if a
    validator throws something of its own. *)
Definition allowed (t : ty) (x : exn) : Prop :=
  x = EDeser \/ (x = ELogic /\ ~ every_struct sound_names t) \/ (x = EUser /\ ~ every_struct polite t).

Definition throws_only (P : json -> val -> val -> option exn -> Prop) (ok : exn -> Prop) : Prop :=
  forall j w v x, P j w v (Some x) -> ok x.

Lemma in_turn_throws {A} (P : A -> val -> val -> option exn -> Prop) (ok : exn -> Prop) xs :
  (forall a w v x, P a w v (Some x) -> ok x) -> forall ws vs x, in_turn P xs ws vs (Some x) -> ok x.
Proof.
  intros H. induction xs as [|a xs IH]; intros [|w ws] [|v vs] x Hx; cbn in Hx; try contradiction; [discriminate|].
  destruct Hx as [[_ Hx]|(_ & Hx & _)]; eauto.
Qed.

Lemma tuple_throws (P : ty -> json -> val -> val -> option exn -> Prop) (ok : exn -> Prop) ts :
  (forall t, In t ts -> throws_only (P t) ok) -> forall js ws vs x, tuple_turn P ts js ws vs (Some x) -> ok x.
Proof.
  induction ts as [|t ts IH]; intros H [|j js] [|w ws] [|v vs] x Hx; cbn in Hx; try contradiction; [discriminate|].
  destruct Hx as [[_ Hx]|(_ & Hx & _)]; [|exact (H t (or_introl eq_refl) _ _ _ _ Hx)].
  eapply IH; [|exact Hx]. intros; apply H; now right.
Qed.

Lemma fields_throws (P : attrs * ty -> val -> val -> option exn -> Prop) (ok : exn -> Prop) fs :
  (forall f, In f fs -> forall w v x, P f w v (Some x) -> ok x) -> forall ws vs x, fields_turn P fs ws vs (Some x) -> ok x.
Proof.
  induction fs as [|f fs IH]; intros H [|w ws] [|v vs] x Hx; cbn in Hx; try contradiction; [discriminate|].
  destruct Hx as [[_ Hx]|(_ & Hx & _)]; [|exact (H f (or_introl eq_refl) _ _ _ Hx)].
  eapply IH; [|exact Hx]. intros g Hg. apply H. now right.
Qed.

Lemma checked_throws a (P : val -> val -> option exn -> Prop) (ok : exn -> Prop) w v x :
  (forall x, P w v (Some x) -> ok x) -> ok EDeser -> ((exists f, In f (a_validators a) /\ f v = Raise) -> ok EUser) ->
  read_checked a P w v (Some x) -> ok x.
Proof.
  intros H1 H2 H3 [[_ H]|[_ [[_ H]|(pre & f & post & E & _ & [[_ H]|[Hr H]])]]]; [auto|discriminate| |].
  - injection H as ->. exact H2.
  - injection H as ->. apply H3. exists f. split; [|exact Hr]. rewrite E. apply in_or_app. right. now left.
Qed.

Lemma elements_throws (P : ty -> json -> val -> val -> option exn -> Prop) (ok : exn -> Prop) fs :
  (forall a t, In (a, t) fs -> throws_only (P t) ok) -> ok EDeser ->
  (forall a t f v, In (a, t) fs -> In f (a_validators a) -> f v = Raise -> ok EUser) ->
  forall js ws vs x, elements_turn P fs js ws vs (Some x) -> ok x.
Proof.
  induction fs as [|[a t] fs IH]; intros H H2 H3 js [|w ws] [|v vs] x Hx; cbn in Hx; try contradiction; [discriminate|].
  assert (R : forall js ws vs x, elements_turn P fs js ws vs (Some x) -> ok x).
  { apply IH; [intros; eapply H; right; eassumption|exact H2|intros; eapply H3; [right; eassumption|eassumption|eassumption]]. }
  destruct (a_skip_deser a); [destruct Hx as [_ Hx]; eauto|].
  destruct (a_extra a || a_flatten a); [destruct Hx as (_ & _ & [= ->]); exact H2|].
  destruct (match js with [] => (JNull, []) | j :: js' => (j, js') end) as [j js'].
  destruct Hx as [[_ Hx]|(_ & Hx & _)]; [eauto|].
  eapply checked_throws; [| |  |exact Hx]; [|exact H2|].
  - intros y Hy. exact (H a t (or_introl eq_refl) _ _ _ _ Hy).
  - intros (f & Hf & Hr). exact (H3 a t f v (or_introl eq_refl) Hf Hr).
Qed.

Lemma gathered_throws (P : json -> val -> option exn -> Prop) (ok : exn -> Prop) ms m x :
  (forall j v x, P j v (Some x) -> ok x) -> gathered P ms m (Some x) -> ok x.
Proof. intros H (_ & good & _ & _ & [[E _]|(_ & k & j & post & w & _ & Hp)]); [discriminate|eauto]. Qed.

Section WithBackend.
Context (be : backend).

Lemma allowed_rec fs a t x : In (a, t) fs -> allowed t x -> allowed (TRec fs) x.
Proof.
  intros Hin [H|[[H1 H2]|[H1 H2]]]; [now left| |]; right; [left|right]; (split; [exact H1|]); intros [_ H]; apply H2;
    exact (proj1 (all1_in _ _) H (a, t) Hin).
Qed.

Lemma polite_raise fs a t f v : In (a, t) fs -> In f (a_validators a) -> f v = Raise -> allowed (TRec fs) EUser.
Proof. intros H1 H2 H3. right. right. split; [reflexivity|]. intros [H _]. exact (H a t f v H1 H2 H3). Qed.

Lemma sound_clash fs : ~ sound_names fs -> allowed (TRec fs) ELogic.
Proof. intros H. right. left. split; [reflexivity|]. intros [H' _]. contradiction. Qed.

Lemma allowed_impl t t' x : (forall Q, every_struct Q t -> every_struct Q t') -> allowed t' x -> allowed t x.
Proof. intros H [E|[[E1 E2]|[E1 E2]]]; [now left| |]; right; [left|right]; (split; [exact E1|]); intros Hq; apply E2, H, Hq. Qed.

Lemma field_throws (P : ty -> json -> val -> val -> option exn -> Prop) fs a t names ms :
  In (a, t) fs -> throws_only (P t) (allowed t) -> (forall te, t = TMap te -> throws_only (P te) (allowed te)) ->
  forall w v x, field_read P names ms (a, t) w v (Some x) -> allowed (TRec fs) x.
Proof.
  intros Hin Ht Hm w v x. unfold field_read. destruct (a_skip_deser a); [now intros [_ H]|].
  assert (C : forall j, read_checked a (P t j) w v (Some x) -> allowed (TRec fs) x).
  { intros j Hx. eapply checked_throws; [| | |exact Hx].
    - intros y Hy. eapply allowed_rec; [exact Hin|]. eapply Ht, Hy.
    - now left.
    - intros (f & Hf & Hr). eapply polite_raise; eassumption. }
  destruct (a_extra a).
  - destruct t as [ |it| | | |t|t|n t|te|ts|en|en|gs]; try contradiction.
    intros (ms' & m & _ & _ & Hg). eapply allowed_rec; [exact Hin|].
    apply (allowed_impl (TMap te) te x (fun Q H => H)). eapply gathered_throws; [|exact Hg]. intros j v' y. apply (Hm te eq_refl).
  - destruct (a_flatten a); [intros H; eapply allowed_rec; [exact Hin|]; eapply Ht, H|].
    intros [(j & _ & H)|[_ H]].
    + destruct j; try (now apply C in H). destruct (a_default a); [exfalso; destruct H as [_ H]; discriminate|now apply C in H].
    + destruct (a_default a); [exfalso; destruct H as [_ H]; discriminate|]. destruct (a_allow_missing a); [exfalso; destruct H as [_ H]; discriminate|now apply C in H].
Qed.

Lemma reads_throws t : throws_only (reads be t) (allowed t).
Proof.
  assert (D : forall t w v x, refused w v (Some x) -> allowed t x) by (intros ? ? ? ? [_ [= ->]]; now left).
  induction t as [ |it| | | |t IH|t IH|n t IH|t IH|ts IH|en|en|fs IH] using ty_ind1; intros j w v x H; cbn [reads] in H.
  - destruct H as [(z & _ & _ & H)|[_ H]]; [discriminate|exact (D _ _ _ _ H)].
  - destruct H as [(z & _ & _ & H)|[_ H]]; [discriminate|exact (D _ _ _ _ H)].
  - destruct H as [(z & _ & _ & H)|[_ H]]; [discriminate|exact (D _ _ _ _ H)].
  - destruct H as [(z & _ & _ & H)|[_ H]]; [discriminate|exact (D _ _ _ _ H)].
  - destruct j; try (exact (D _ _ _ _ H)); destruct H as [_ H]; discriminate.
  - destruct H as [(_ & _ & H)|[_ [[H _]|(_ & _ & v' & H)]]]; try discriminate. now apply IH in H.
  - destruct j; try (exact (D _ _ _ _ H)). destruct H as (vs & _ & [[H _]|(_ & pre & j & post & u & _ & _ & H)]); [discriminate|]. now apply IH in H.
  - destruct j; try (exact (D _ _ _ _ H)). destruct w; try (exact (D _ _ _ _ H)).
    destruct H as [[_ H]|(_ & vs' & _ & H)]; [exact (D _ _ _ _ H)|]. eapply (in_turn_throws (reads be t) (allowed t)); [|exact H]. exact IH.
  - destruct j; try (exact (D _ _ _ _ H)). destruct H as (m & _ & H). eapply (gathered_throws _ (allowed t)); [|exact H]. intros j v'. apply IH.
  - destruct j; try (exact (D _ _ _ _ H)). destruct w; try (exact (D _ _ _ _ H)).
    destruct H as [[_ H]|(_ & vs' & _ & H)]; [exact (D _ _ _ _ H)|].
    eapply (tuple_throws (reads be) (allowed (TTup ts))); [|exact H]. intros t Hin j w' v' y Hy. rewrite Forall_forall in IH.
    eapply (allowed_impl (TTup ts) t y); [|eapply IH; [exact Hin|exact Hy]]. intros Q Hq. exact (proj1 (all1_in _ _) Hq t Hin).
  - destruct H as [(s & z & _ & _ & _ & H)|[_ H]]; [discriminate|exact (D _ _ _ _ H)].
  - destruct j; try (exact (D _ _ _ _ H)). destruct H as (good & xs & z & _ & _ & _ & [[H _]|[[= ->] _]]); [discriminate|now left].
  - rewrite Forall_forall in IH. destruct j; try (exact (D _ _ _ _ H)); (destruct w; try (exact (D _ _ _ _ H))).
    + destruct H as [[_ H]|(_ & vs' & _ & H)]; [exact (D _ _ _ _ H)|].
      eapply (elements_throws (reads be) (allowed (TRec fs))); [| | |exact H].
      * intros a t Hin j w' v' y Hy. eapply allowed_rec; [exact Hin|]. eapply (proj1 (IH _ Hin)), Hy.
      * now left.
      * intros; eapply polite_raise; eassumption.
    + destruct H as [(Hs & _ & [= ->])|(_ & vs' & _ & H)]; [now apply sound_clash|].
      eapply fields_throws; [|exact H]. intros [a t] Hin w' v' y Hy.
      eapply field_throws; [exact Hin| | |exact Hy]; [exact (proj1 (IH _ Hin))|exact (proj2 (IH _ Hin))].
Qed.

Lemma extras_throws (P : json -> val -> val -> option exn -> Prop) (ok : exn -> Prop) d names ms :
  throws_only P ok -> forall m m' x, extras_patched P d names ms m m' (Some x) -> ok x.
Proof.
  intros H. induction ms as [|[k j] ms IH]; intros m m' x Hx; cbn [extras_patched] in Hx; [destruct Hx as [_ Hx]; discriminate|].
  destruct Hx as [[_ Hx]|[_ [(w & v & _ & [(_ & m1 & _ & Hx)|(_ & Hx & _)])|(_ & v & [(_ & m1 & _ & Hx)|(_ & Hx & _)])]]]; eauto.
Qed.

Lemma patch_field_throws (P : ty -> json -> val -> val -> option exn -> Prop) fs a t names ms :
  In (a, t) fs -> throws_only (P t) (allowed t) -> (forall te, t = TMap te -> throws_only (P te) (allowed te)) ->
  forall w v x, field_patched P names ms (a, t) w v (Some x) -> allowed (TRec fs) x.
Proof.
  intros Hin Ht Hm w v x. unfold field_patched. destruct (a_skip_deser a); [now intros [_ H]|].
  assert (C : forall j, read_checked a (P t j) w v (Some x) -> allowed (TRec fs) x).
  { intros j Hx. eapply checked_throws; [| | |exact Hx].
    - intros y Hy. eapply allowed_rec; [exact Hin|]. eapply Ht, Hy.
    - now left.
    - intros (f & Hf & Hr). eapply polite_raise; eassumption. }
  destruct (a_extra a).
  - destruct t as [ |it| | | |t|t|n t|te|ts|en|en|gs]; try contradiction. destruct w; try contradiction.
    intros (m' & _ & Hg). eapply allowed_rec; [exact Hin|].
    apply (allowed_impl (TMap te) te x (fun Q H => H)). eapply extras_throws; [|exact Hg]. apply (Hm te eq_refl).
  - destruct (a_flatten a); [intros H; eapply allowed_rec; [exact Hin|]; eapply Ht, H|].
    intros [(j & _ & H)|(_ & _ & H)]; [|discriminate].
    destruct j; try (now apply C in H). destruct (a_default a); [exfalso; destruct H as [_ H]; discriminate|now apply C in H].
Qed.

Lemma patched_throws t : throws_only (patched be t) (allowed t).
Proof.
  induction t as [ |it| | | |t IH|t IH|n t IH|t IH|ts IH|en|en|fs IH] using ty_ind1; try (exact (reads_throws _));
    intros j w v x H.
  - cbn [patched] in H. destruct H as [(_ & _ & H)|[_ H]]; [discriminate|].
    destruct w; try (destruct H as [[H _]|(_ & _ & v' & H)]; [discriminate|now apply IH in H]).
    destruct H as (v' & _ & H). now apply IH in H.
  - pose proof (reads_throws (TRec fs) j w v x) as Hr.
    destruct j; try (exact (Hr H)). destruct w; try (exact (Hr H)). clear Hr. cbn [patched] in H.
    rewrite Forall_forall in IH. destruct H as [(Hs & _ & [= ->])|(_ & vs' & _ & H)]; [now apply sound_clash|].
    eapply fields_throws; [|exact H]. intros [a t] Hin w' v' y Hy.
    eapply patch_field_throws; [exact Hin| | |exact Hy]; [exact (proj1 (IH _ Hin))|exact (proj2 (IH _ Hin))].
Qed.

Lemma exceptions_lemma t j w v x : wf t -> typed t w ->
  deser be t j w = (v, Some x) \/ patch be t j w = (v, Some x) ->
  x = EDeser \/ (x = ELogic /\ ~ every_struct sound_names t) \/ (x = EUser /\ ~ every_struct polite t).
Proof.
  intros Hw Hv [H|H].
  - apply (reads_computes be t Hw j w _ _ Hv) in H. now apply reads_throws in H.
  - apply (patched_computes be t Hw j w _ _ Hv) in H. now apply patched_throws in H.
Qed.

End WithBackend.
