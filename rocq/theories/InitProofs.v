(** Reading into a default-initialized object. *)
From Coq Require Import List NArith ZArith Arith Bool Lia.
From Verif Require Import Base PathModel EnumModel EnumSpec EnumProofs SerialModel SerialSpec SerialBaseProofs
  SerialTypeProofs SerialKeyProofs SerialRoundProofs SerialFieldProofs SerialMoreProofs InitModel InitSpec.
Import ListNotations.

(** Objects that differ only in parts that are always read. *)
Fixpoint agree (t : ty) (w w' : val) {struct t} : Prop :=
  match t with
  | TArr _ t' =>
      match w, w' with
      | VSeq ws, VSeq ws' =>
          (fix go (l m : list val) : Prop :=
             match l, m with [], [] => True | x :: l', y :: m' => agree t' x y /\ go l' m' | _, _ => False end) ws ws'
      | _, _ => w = w'
      end
  | TTup _ => w = w'
  | TRec fs =>
      match w, w' with
      | VRec ws, VRec ws' =>
          (fix go (fs : list (attrs * ty)) (l m : list val) : Prop :=
             match fs, l, m with
             | [], [], [] => True
             | (a, t') :: fs', x :: l', y :: m' => (x = y \/ (~ may_stay a /\ agree t' x y)) /\ go fs' l' m'
             | _, _, _ => False
             end) fs ws ws'
      | _, _ => w = w'
      end
  | _ => True
  end.

Section WithBackend.
Context (be : backend).

Definition follows (f : json -> val -> dres) (t : ty) : Prop := forall j w w' v,
  agree t w w' -> f j w = (v, None) -> f j w' = (v, None).

Lemma then_validate_follows a f t j w w' v : follows f t -> agree t w w' ->
  then_validate a (f j w) = (v, None) -> then_validate a (f j w') = (v, None).
Proof.
  intros Hf Hw H. destruct (f j w) as [x [e|]] eqn:E; cbn in H; [discriminate|]. injection H as -> Hv.
  rewrite (Hf _ _ _ _ Hw E). cbn. now rewrite Hv.
Qed.

Lemma deser_follows t : follows (deser be t) t.
Proof.
  induction t as [ |it| | | |t IH|t IH|n t IH|t IH|ts IH|e|e|fs IH] using ty_ind0; intros j w w' v A H; cbn [deser] in *.
  - destruct (dec_bool be j); [exact H|discriminate].
  - destruct (dec_int be it j); [exact H|discriminate].
  - destruct (dec_dbl be j); [exact H|discriminate].
  - destruct (dec_flt be j); [exact H|discriminate].
  - destruct j; try discriminate. exact H.
  - destruct (is_null j); [exact H|]. destruct (deser be t j (default_of t)) as [x [e|]]; [discriminate|exact H].
  - destruct j; try discriminate. exact H.
  - destruct j; try (destruct w; discriminate). destruct w as [b|z|b|b|s| |w|ws|m|ws]; try discriminate.
    cbn [agree] in A. destruct w' as [b|z|b|b|s| |w'|ws'|m|ws']; try discriminate A.
    destruct (length ws <? length js) eqn:El; [discriminate|].
    destruct (arr_loop (deser be t) js 0 ws) as [r e] eqn:E. injection H as <- ->.
    assert (L : length ws' = length ws).
    { clear E El. revert ws' A. induction ws as [|x ws IHw]; intros [|y ws'] A; try contradiction; [reflexivity|].
      cbn. f_equal. now apply IHw. }
    assert (G : arr_loop (deser be t) js 0 ws' = (r, None)); [|now rewrite L, El, G].
    clear L El. revert ws' r E A. generalize 0. induction ws as [|w ws IHws]; intros k [|w' ws'] r E A; try contradiction; [exact E|].
    cbn [arr_loop] in E. destruct (deser be t (at_index js k) w) as [v' [e|]] eqn:Ev; [discriminate|].
    destruct (arr_loop (deser be t) js (S k) ws) as [r' e] eqn:Er. injection E as <- ->. cbn [arr_loop].
    rewrite (IH _ w w' _ (proj1 A) Ev), (IHws _ ws' _ Er (proj2 A)). reflexivity.
  - destruct j; try discriminate. exact H.
  - cbn [agree] in A. now rewrite <- A.
  - destruct j; try discriminate. destruct (from_string _ s); [exact H|discriminate].
  - destruct j; try discriminate. exact H.
  - cbn [agree] in A. destruct j; try discriminate.
    + destruct w as [b|z|b|b|s| |w|ws|m|ws]; try (now rewrite <- A).
      destruct w' as [b|z|b|b|s| |w'|ws'|m|ws']; try discriminate A.
      destruct (sequence_field_count fs <? length js) eqn:El; [discriminate|].
      destruct (deser_elements (deser be) js fs 0 ws) as [r e] eqn:E. injection H as <- ->.
      assert (G : deser_elements (deser be) js fs 0 ws' = (r, None)); [|now rewrite G].
      clear El. revert ws ws' r E A. generalize 0.
      induction fs as [|[a t] fs IHfs]; intros k [|w ws] [|w' ws'] r E A; try contradiction; [exact E|].
      inversion IH as [|? ? IH1 IH2]; subst. cbn [snd] in IH1. destruct A as [A1 A2].
      cbn [deser_elements] in E |- *. destruct (a_skip_deser a) eqn:Hs.
      { assert (w' = w) as -> by (destruct A1 as [->|[N _]]; [reflexivity | exfalso; apply N; now left]).
        destruct (deser_elements (deser be) js fs k ws) as [r' e] eqn:Er. injection E as <- ->.
        now rewrite (IHfs IH2 _ _ _ _ Er A2). }
      destruct (a_extra a || a_flatten a) eqn:Eo; [discriminate|].
      destruct (then_validate a (deser be t (at_index js k) w)) as [v' [e|]] eqn:Ev; [discriminate|].
      destruct (deser_elements (deser be) js fs (S k) ws) as [r' e] eqn:Er. injection E as <- ->.
      assert (Ev' : then_validate a (deser be t (at_index js k) w') = (v', None)).
      { destruct A1 as [->|[_ A1]]; [exact Ev|]. eapply then_validate_follows; [apply IH1|exact A1|exact Ev]. }
      rewrite Ev', (IHfs IH2 _ _ _ _ Er A2). reflexivity.
    + destruct w as [b|z|b|b|s| |w|ws|m|ws]; try (now rewrite <- A).
      destruct w' as [b|z|b|b|s| |w'|ws'|m|ws']; try discriminate A.
      destruct (reserved_field_names fs) as [names| |]; try discriminate.
      destruct (deser_members (deser be) names ms fs ws) as [r e] eqn:E. injection H as <- ->.
      assert (G : deser_members (deser be) names ms fs ws' = (r, None)); [|now rewrite G].
      revert ws ws' r E A.
      induction fs as [|[a t] fs IHfs]; intros [|w ws] [|w' ws'] r E A; try contradiction; [exact E|].
      inversion IH as [|? ? IH1 IH2]; subst. cbn [snd] in IH1. destruct A as [A1 A2].
      cbn [deser_members] in E |- *.
      set (one := if a_skip_deser a then _ else _) in E. destruct one as [v' [e|]] eqn:E1; [discriminate|]. subst one.
      destruct (deser_members (deser be) names ms fs ws) as [r' e] eqn:Er. injection E as <- ->.
      assert (E2 : (if a_skip_deser a then (w', None)
                    else if a_extra a then
                      match t with
                      | TMap te => let '(m, e) := extra_loop (deser be te) (default_of te) names ms [] in (VMap m, e)
                      | _ => (w', Some EStuck)
                      end
                    else if a_flatten a then deser be t (JObj ms) w'
                    else read_field a (deser be t) ms w') = (v', None)).
      { destruct A1 as [->|[N A1]]; [exact E1|].
        destruct (a_skip_deser a) eqn:Hs; [exfalso; apply N; now left|].
        destruct (a_extra a) eqn:Hx; [destruct t; try discriminate; exact E1|].
        assert (Hi : follows (deser be t) t) by apply IH1.
        destruct (a_flatten a) eqn:Hf; [exact (Hi _ _ _ _ A1 E1)|].
        unfold read_field in *. destruct (resolve_field_name ms a) as [n|].
        - destruct (is_null (at_field ms n)), (a_default a); auto; eapply then_validate_follows; eauto.
        - destruct (a_default a) eqn:Hd; auto. destruct (a_allow_missing a) eqn:Hm.
          + exfalso. apply N. right. auto.
          + eapply then_validate_follows; eauto. }
      rewrite E2, (IHfs IH2 _ _ _ Er A2). reflexivity.
Qed.
End WithBackend.

Lemma agree_sym t : forall w w', agree t w w' -> agree t w' w.
Proof.
  induction t as [ |it| | | |t IH|t IH|n t IH|t IH|ts IH|e|e|fs IH] using ty_ind0; intros w w' A; try exact Logic.I.
  - cbn [agree] in *. destruct w as [b|z|b|b|s| |w|ws|m|ws]; try (subst w'; reflexivity).
    destruct w' as [b|z|b|b|s| |w'|ws'|m|ws']; try discriminate A.
    revert ws' A. induction ws as [|x l IHl]; intros [|y m] A; try contradiction; [exact A|]. destruct A as [A1 A2]. split; [exact (IH _ _ A1) | exact (IHl _ A2)].
  - cbn [agree] in *. now symmetry.
  - cbn [agree] in *. destruct w as [b|z|b|b|s| |w|ws|m|ws]; try (subst w'; reflexivity).
    destruct w' as [b|z|b|b|s| |w'|ws'|m|ws']; try discriminate A.
    revert ws ws' A. induction fs as [|[a t] fs IHfs]; intros [|x l] [|y m] A; try contradiction; [exact A|].
    inversion IH as [|? ? IH1 IH2]; subst. cbn [snd] in IH1. destruct A as [[->|[N A]] A2]; (split; [|exact (IHfs IH2 _ _ A2)]); auto.
Qed.

Lemma value_initialized_one mi t : forall w w', value_initialized mi t w -> value_initialized mi t w' -> w = w'.
Proof.
  induction t as [ |it| | | |t IH|t IH|n t IH|t IH|ts IH|e|e|fs IH] using ty_ind0; intros w w' A B; cbn [value_initialized] in *;
    try congruence.
  - destruct A as (ws & -> & La & Fa), B as (ws' & -> & Lb & Fb). f_equal.
    assert (L : length ws = length ws') by congruence. clear La Lb. revert ws' Fb L.
    induction Fa as [|x l Hx Hl IHl]; intros [|y m] Fb L; try discriminate; [reflexivity|].
    inversion Fb as [|? ? F1 F2]; subst. injection L as L. f_equal; [exact (IH _ _ Hx F1) | exact (IHl _ F2 L)].
  - destruct A as (ws & -> & A), B as (ws' & -> & B). f_equal. revert ws ws' A B.
    induction ts as [|t ts IHts]; intros [|x l] [|y m] A B; try contradiction; [reflexivity|].
    inversion IH as [|? ? IH1 IH2]; subst. destruct A, B. f_equal; [now apply IH1 | now apply IHts].
  - destruct A as (ws & -> & A), B as (ws' & -> & B). f_equal. revert ws ws' A B.
    induction fs as [|[a t] fs IHfs]; intros [|x l] [|y m] A B; try contradiction; [reflexivity|].
    inversion IH as [|? ? IH1 IH2]; subst. cbn [snd] in IH1. destruct A as [[A1 A2] A], B as [[B1 B2] B]. cbn [fst snd] in *.
    f_equal; [|now apply IHfs]. destruct (mi a); [rewrite A1, B1 by reflexivity; reflexivity | apply IH1; auto].
Qed.

Lemma default_value_initialized mi t : initialized mi t -> value_initialized mi t (default_of t).
Proof.
  induction t as [ |it| | | |t IH|t IH|n t IH|t IH|ts IH|e|e|fs IH] using ty_ind0; intros I; cbn [value_initialized default_of initialized] in *;
    auto.
  - eexists. split; [reflexivity|]. split; [apply repeat_length|]. apply Forall_forall. intros x Hx. apply repeat_spec in Hx. subst. auto.
  - eexists. split; [reflexivity|]. induction ts as [|t ts IHts]; cbn; [exact Logic.I|].
    inversion IH as [|? ? IH1 IH2]; subst. destruct I. split; [now apply IH1 | now apply IHts].
  - eexists. split; [reflexivity|]. induction fs as [|[a t] fs IHfs]; cbn; [exact Logic.I|].
    inversion IH as [|? ? IH1 IH2]; subst. destruct I as [I1 I2]. split; [|now apply IHfs].
    split; [reflexivity|]. intros M. exact (proj1 (I1 M)).
Qed.

Lemma init_default mi a t : value_initialized mi t (a_init a) -> initialized mi t -> a_init a = default_of t.
Proof. intros V I. eapply value_initialized_one; [exact V | now apply default_value_initialized]. Qed.

Lemma fresh_filled mi g t : filled mi t -> initialized mi t -> forall p, fresh mi g p t = default_of t.
Proof.
  induction t as [ |it| | | |t IH|t IH|n t IH|t IH|ts IH|e|e|fs IH] using ty_ind0; intros F I p; cbn [fresh default_of filled initialized] in *;
    try contradiction; auto.
  - f_equal. generalize 0. induction n as [|n IHn]; intros k; cbn; [reflexivity|]. now rewrite (IH F I), IHn.
  - f_equal. generalize 0. induction fs as [|[a t] fs IHfs]; intros k; cbn; [reflexivity|].
    inversion IH as [|? ? IH1 IH2]; subst. cbn [snd fst] in *. destruct F as [F1 F2], I as [I1 I2]. cbn [fst snd] in *.
    rewrite (IHfs IH2 F2 I2). f_equal. destruct (mi a) eqn:M; [reflexivity|].
    destruct (I1 eq_refl) as [E I3]. apply init_default in E; [|exact I3]. destruct F1 as [|F1]; [discriminate|]. rewrite E. now apply IH1.
Qed.

Lemma fresh_agree mi g t : settled mi t -> initialized mi t -> forall p, agree t (fresh mi g p t) (default_of t).
Proof.
  induction t as [ |it| | | |t IH|t IH|n t IH|t IH|ts IH|e|e|fs IH] using ty_ind0; intros F I p; cbn [fresh default_of settled initialized agree] in *; auto.
  - generalize 0. induction n as [|n IHn]; intros k; [exact Logic.I|]. split; [exact (IH F I _) | exact (IHn (S k))].
  - generalize 0. induction fs as [|[a t] fs IHfs]; intros k; cbn; [exact Logic.I|].
    inversion IH as [|? ? IH1 IH2]; subst. cbn [snd fst] in *. destruct F as [F1 F2], I as [I1 I2]. cbn [fst snd] in *.
    split; [|now apply IHfs].
    destruct (mi a) eqn:M; [now left|]. destruct (I1 eq_refl) as [E I3]. apply init_default in E; [|exact I3]. rewrite E.
    destruct F1 as [|[F1|[N F1]]]; [discriminate| |].
    + left. now apply fresh_filled.
    + right. split; [exact N|]. now apply IH1.
Qed.

Lemma new_settled be mi g t j w v : settled mi t -> initialized mi t -> value_initialized mi t w ->
  (deserialize_new be mi g t j = Ok v <-> deser be t j w = (v, None)).
Proof.
  intros S I V. rewrite (value_initialized_one mi t _ _ V (default_value_initialized mi t I)).
  pose proof (fresh_agree mi g t S I []) as A. unfold deserialize_new.
  destruct (deser be t j (fresh mi g [] t)) as [x e] eqn:E. split.
  - destruct e; [discriminate|]. intros [= <-]. exact (deser_follows be t _ _ _ _ A E).
  - intros D. apply agree_sym in A. rewrite (deser_follows be t _ _ _ _ A D) in E. inversion E; subst. reflexivity.
Qed.

Lemma new_settled_throws be mi g t j w : settled mi t -> initialized mi t -> value_initialized mi t w ->
  (deserialize_new be mi g t j = Throws <-> exists v e, deser be t j w = (v, Some e)).
Proof.
  intros S I V. pose proof (fun v => new_settled be mi g t j w v S I V) as N. unfold deserialize_new in *.
  destruct (deser be t j w) as [v [e|]].
  - split; [eauto|]. intros _. destruct (deser be t j (fresh mi g [] t)) as [x [e'|]]; [reflexivity|].
    discriminate (proj1 (N x) eq_refl).
  - rewrite (proj2 (N v) eq_refl). split; [discriminate|]. intros (v' & e & [=]).
Qed.

Lemma members_stay be names ms : forall fs vs vs', deser_members (deser be) names ms fs vs = (vs', None) ->
  forall i a t, nth_error fs i = Some (a, t) ->
  a_skip_deser a = true \/ (ordinary a /\ Forall (absent ms) (lookup_names a) /\ a_allow_missing a = true /\ a_default a = None) ->
  nth_error vs' i = nth_error vs i.
Proof.
  induction fs as [|[a t] fs IH]; intros [|v vs] vs' E i b u N H; cbn [deser_members] in E; try discriminate.
  - destruct i; discriminate.
  - set (one := if a_skip_deser a then _ else _) in E. destruct one as [v' [e|]] eqn:E1; [discriminate|]. subst one.
    destruct (deser_members (deser be) names ms fs vs) as [r' e] eqn:Er. injection E as <- ->.
    destruct i as [|i]; cbn in N |- *; [|eapply IH; eauto]. injection N as -> ->. f_equal.
    destruct H as [H|((O1 & O2 & O3) & Ab & M & D)].
    + rewrite H in E1. congruence.
    + rewrite O1, O2, O3 in E1. unfold read_field in E1. rewrite M, D in E1.
      assert (R : resolve_field_name ms b = None).
      { unfold resolve_field_name. unfold lookup_names in Ab. inversion Ab as [|? ? A1 A2]; subst.
        assert (H1 : forall n, absent ms n -> has_field ms n = false) by (intros n A; now apply has_field_false).
        rewrite H1 by exact A1. clear - A2 H1. induction A2; cbn; [reflexivity|]. now rewrite H1. }
      rewrite R in E1. congruence.
Qed.

Lemma fresh_rec_nth (mi : attrs -> bool) (g : list nat -> ty -> val) p : forall fs k i a t, nth_error fs i = Some (a, t) ->
  nth_error ((fix go (fs : list (attrs * ty)) (i : nat) : list val :=
               match fs with
               | [] => []
               | (a, t') :: fs' => (if mi a then a_init a else fresh mi g (p ++ [i]) t') :: go fs' (S i)
               end) fs k) i = Some (if mi a then a_init a else fresh mi g (p ++ [k + i]) t).
Proof.
  induction fs as [|[b u] fs IH]; intros k [|i] a t N; try discriminate; cbn in N |- *.
  - injection N as -> ->. now rewrite Nat.add_0_r.
  - rewrite (IH (S k) i a t N). now rewrite Nat.add_succ_comm.
Qed.

Lemma new_stays be mi g fs ms v : deserialize_new be mi g (TRec fs) (JObj ms) = Ok v ->
  exists vs, v = VRec vs /\
  forall i a t, nth_error fs i = Some (a, t) ->
  a_skip_deser a = true \/ (ordinary a /\ Forall (absent ms) (lookup_names a) /\ a_allow_missing a = true /\ a_default a = None) ->
  nth_error vs i = Some (if mi a then a_init a else fresh mi g [i] t).
Proof.
  unfold deserialize_new. cbn [fresh deser]. destruct (reserved_field_names fs) as [names| |]; try discriminate.
  match goal with |- context [deser_members ?f names ms fs ?ws] => destruct (deser_members f names ms fs ws) as [r [e|]] eqn:E end;
    [discriminate|].
  intros [= <-]. exists r. split; [reflexivity|]. intros i a t N H.
  rewrite (members_stay be names ms _ _ _ E i a t N H).
  exact (fresh_rec_nth mi g [] fs 0 i a t N).
Qed.

Lemma new_scalar_stays be mi g fs ms v : deserialize_new be mi g (TRec fs) (JObj ms) = Ok v ->
  exists vs, v = VRec vs /\
  forall i a t, nth_error fs i = Some (a, t) -> scalar_type t ->
  a_skip_deser a = true \/ (ordinary a /\ Forall (absent ms) (lookup_names a) /\ a_allow_missing a = true /\ a_default a = None) ->
  (mi a = true -> nth_error vs i = Some (a_init a)) /\ (mi a = false -> nth_error vs i = Some (g [i] t)).
Proof.
  intros H. destruct (new_stays _ _ _ _ _ _ H) as (vs & E & G). exists vs. split; [exact E|]. intros i a t N Sc P.
  rewrite (G i a t N P). split; intros ->; [reflexivity|]. destruct t; try contradiction; reflexivity.
Qed.

Lemma fresh_typed mi g t : storage g -> wf t -> forall p, typed t (fresh mi g p t).
Proof.
  intros G. induction t as [ |it| | | |t IH|t IH|n t IH|t IH|ts IH|e|e|fs IH] using ty_ind0; intros W p;
    try (apply (default_typed _ W)); try (now apply (G p _ W)); cbn [fresh typed].
  - split; [now rewrite map_length, seq_length|]. apply all1_in. intros x Hx. apply in_map_iff in Hx as (i & <- & _). now apply IH.
  - destruct W as (W1 & W2 & _). generalize 0.
    induction fs as [|[a t] fs IHfs]; intros k; cbn; [exact Logic.I|].
    inversion IH as [|? ? IH1 IH2]; subst. cbn [snd] in IH1. destruct W1 as [W1 W3], W2 as [W2 W4]. cbn [fst snd] in *.
    split; [|now apply IHfs]. destruct (mi a); [exact (proj1 W2) | now apply IH1].
Qed.

Lemma new_typed be mi g t j v : storage g -> wf t -> deserialize_new be mi g t j = Ok v -> typed t v.
Proof.
  intros G W. unfold deserialize_new. pose proof (deser_typed be t W j _ (fresh_typed mi g t G W [])) as [T _].
  destruct (deser be t j (fresh mi g [] t)) as [x [e|]]; [discriminate|]. intros [= <-]. exact T.
Qed.
