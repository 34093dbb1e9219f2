(** The functions with messages compute what those of SerialModel compute. *)
From Coq Require Import List NArith ZArith Arith Bool Lia.
From Verif Require Import Base PathModel EnumModel ScalarModel SerialModel SerialSpec SerialBaseProofs SerialMsgModel.
Import ListNotations.

Definition erase {A} (r : A * option report) : A * option exn := (fst r, option_map kind_of_report (snd r)).

Lemma kind_add l r : kind_of_report (add l r) = kind_of_report r.
Proof. now destruct r. Qed.

Lemma kind_catch l e : option_map kind_of_report (catch l e) = option_map kind_of_report e.
Proof. destruct e as [r|]; [|reflexivity]. cbn. now rewrite kind_add. Qed.

Section Loops.
Context (f : json -> val -> xres) (g : json -> val -> dres) (Hf : forall j v, erase (f j v) = g j v).

Lemma erased j v x r : f j v = (x, r) -> g j v = (x, option_map kind_of_report r).
Proof. intros E. now rewrite <- Hf, E. Qed.

Ltac step j v := let x := fresh in let r := fresh in destruct (f j v) as [x [r|]] eqn:?E;
  match goal with E : f j v = _ |- _ => rewrite (erased _ _ _ _ E); clear E end; cbn [option_map].

Lemma seq_erase d js : forall out, erase (xseq_loop f d js out) = seq_loop g d js out.
Proof.
  induction js as [|j js IH]; intros out; cbn [xseq_loop seq_loop]; [reflexivity|].
  step j d; [|apply IH]. unfold erase. cbn [fst snd option_map]. now rewrite kind_add.
Qed.

Lemma arr_erase js vs : forall i, erase (xarr_loop f js i vs) = arr_loop g js i vs.
Proof.
  induction vs as [|v vs IH]; intros i; cbn [xarr_loop arr_loop]; [reflexivity|].
  step (at_index js i) v.
  - unfold erase. cbn [fst snd option_map]. now rewrite kind_add.
  - specialize (IH (S i)). destruct (xarr_loop f js (S i) vs) as [r e]. rewrite <- IH. reflexivity.
Qed.

Lemma map_erase d ms : forall out, erase (xmap_loop f d ms out) = map_loop g d ms out.
Proof.
  induction ms as [|[k j] ms IH]; intros out; cbn [xmap_loop map_loop]; [reflexivity|].
  step j d; [|apply IH]. unfold erase. cbn [fst snd option_map]. now rewrite kind_add.
Qed.

Lemma extra_erase d names ms : forall out, erase (xextra_loop f d names ms out) = extra_loop g d names ms out.
Proof.
  induction ms as [|[k j] ms IH]; intros out; cbn [xextra_loop extra_loop]; [reflexivity|].
  destruct (in_set k names); [apply IH|].
  step j d; [|apply IH]. unfold erase. cbn [fst snd option_map]. now rewrite kind_add.
Qed.

Lemma validate_erase vals v : option_map kind_of_report (xvalidate vals v) = validate vals v.
Proof. induction vals as [|c vals IH]; cbn; [reflexivity|]. now destruct (c v). Qed.

Lemma then_validate_erase a j v : erase (xthen_validate a (f j v)) = then_validate a (g j v).
Proof. step j v; unfold erase; cbn; [reflexivity|]. now rewrite validate_erase. Qed.

Lemma read_field_erase a ms v : erase (xread_field a f ms v) = read_field a g ms v.
Proof.
  unfold xread_field, read_field. destruct (resolve_field_name ms a) as [n|].
  - cbv zeta. destruct (is_null (at_field ms n)), (a_default a); try reflexivity; apply then_validate_erase.
  - destruct (a_default a); [reflexivity|]. destruct (a_allow_missing a); [reflexivity|apply then_validate_erase].
Qed.

Lemma patch_field_erase a ms v : erase (xpatch_field a f ms v) = patch_field a g ms v.
Proof.
  unfold xpatch_field, patch_field. destruct (resolve_field_name ms a) as [n|]; [|reflexivity].
  cbv zeta. destruct (is_null (at_field ms n)), (a_default a); try reflexivity; apply then_validate_erase.
Qed.

Lemma patch_extra_erase d names ms : forall out,
  erase (xpatch_extra_loop f d names ms out) = patch_extra_loop g d names ms out.
Proof.
  induction ms as [|[k j] ms IH]; intros out; cbn [xpatch_extra_loop patch_extra_loop]; [reflexivity|].
  destruct (in_set k names); [apply IH|]. destruct (map_find k out) as [v|].
  - step j v; [|apply IH]. unfold erase. cbn [fst snd option_map]. now rewrite kind_add.
  - step j d; [|apply IH]. unfold erase. cbn [fst snd option_map]. now rewrite kind_add.
Qed.
End Loops.

Lemma erase_wrap {A B} (c : A -> B) (r : A * option report) s :
  erase r = s -> erase (let '(x, e) := r in (c x, e)) = let '(x, e) := s in (c x, e).
Proof. intros <-. now destruct r. Qed.

Section Structs.
Context (f : ty -> json -> val -> xres) (g : ty -> json -> val -> dres).

Lemma tuple_erase js ts : Forall (fun t => forall j v, erase (f t j v) = g t j v) ts -> forall i vs,
  erase (xdeser_tuple f js ts i vs) = deser_tuple g js ts i vs.
Proof.
  induction 1 as [|t ts Ht _ IH]; intros i [|v vs]; cbn [xdeser_tuple deser_tuple]; try reflexivity.
  destruct (f t (at_index js i) v) as [x [r|]] eqn:E; rewrite (erased _ _ Ht _ _ _ _ E); cbn [option_map]; [reflexivity|].
  specialize (IH (S i) vs). destruct (xdeser_tuple f js ts (S i) vs). rewrite <- IH. reflexivity.
Qed.

Lemma elements_erase js fs : Forall (fun h : attrs * ty => forall j v, erase (f (snd h) j v) = g (snd h) j v) fs -> forall i vs,
  erase (xdeser_elements f js fs i vs) = deser_elements g js fs i vs.
Proof.
  induction 1 as [|[a t] fs Ht _ IH]; intros i [|v vs]; cbn [xdeser_elements deser_elements]; try reflexivity.
  destruct (a_skip_deser a).
  { specialize (IH i vs). destruct (xdeser_elements f js fs i vs). rewrite <- IH. reflexivity. }
  destruct (a_extra a); [reflexivity|]. destruct (a_flatten a); [reflexivity|]. cbn [orb].
  rewrite <- (then_validate_erase (f t) (g t) Ht).
  destruct (xthen_validate a (f t (at_index js i) v)) as [x [r|]].
  - unfold erase. cbn [fst snd option_map]. now rewrite kind_add.
  - unfold erase at 2. cbn [fst snd option_map]. specialize (IH (S i) vs).
    destruct (xdeser_elements f js fs (S i) vs). rewrite <- IH. reflexivity.
Qed.

Lemma members_erase names ms fs :
  Forall (fun h : attrs * ty => (forall j v, erase (f (snd h) j v) = g (snd h) j v) /\
            forall te, snd h = TMap te -> forall j v, erase (f te j v) = g te j v) fs -> forall vs,
  erase (xdeser_members f names ms fs vs) = deser_members g names ms fs vs.
Proof.
  induction 1 as [|[a t] fs Ht _ IH]; intros [|v vs]; cbn [xdeser_members deser_members]; try reflexivity.
  destruct Ht as [Ht Hm]. cbn [snd] in Ht, Hm.
  match goal with |- erase (let '(_, _) := ?x in _) = let '(_, _) := ?y in _ => assert (E : erase x = y) end.
  { destruct (a_skip_deser a); [reflexivity|]. destruct (a_extra a).
    - destruct t; try reflexivity. apply erase_wrap, extra_erase, Hm. reflexivity.
    - destruct (a_flatten a); [rewrite <- Ht; destruct (f t (JObj ms) v)|
        rewrite <- (read_field_erase (f t) (g t) Ht); destruct (xread_field a (f t) ms v)];
        unfold erase; cbn [fst snd]; now rewrite kind_catch. }
  rewrite <- E. match goal with |- erase (let '(_, _) := ?x in _) = _ => destruct x as [v' [r|]] end.
  - reflexivity.
  - cbn. specialize (IH vs). destruct (xdeser_members f names ms fs vs). rewrite <- IH. reflexivity.
Qed.

Lemma patch_members_erase names ms fs :
  Forall (fun h : attrs * ty => (forall j v, erase (f (snd h) j v) = g (snd h) j v) /\
            forall te, snd h = TMap te -> forall j v, erase (f te j v) = g te j v) fs -> forall vs,
  erase (xpatch_members f names ms fs vs) = patch_members g names ms fs vs.
Proof.
  induction 1 as [|[a t] fs Ht _ IH]; intros [|v vs]; cbn [xpatch_members patch_members]; try reflexivity.
  destruct Ht as [Ht Hm]. cbn [snd] in Ht, Hm.
  match goal with |- erase (let '(_, _) := ?x in _) = let '(_, _) := ?y in _ => assert (E : erase x = y) end.
  { destruct (a_skip_deser a); [reflexivity|]. destruct (a_extra a).
    - destruct t; try reflexivity. destruct v; try reflexivity. apply erase_wrap, patch_extra_erase, Hm. reflexivity.
    - destruct (a_flatten a); [rewrite <- Ht; destruct (f t (JObj ms) v)|
        rewrite <- (patch_field_erase (f t) (g t) Ht); destruct (xpatch_field a (f t) ms v)];
        unfold erase; cbn [fst snd]; now rewrite kind_catch. }
  rewrite <- E. match goal with |- erase (let '(_, _) := ?x in _) = _ => destruct x as [v' [r|]] end.
  - reflexivity.
  - cbn. specialize (IH vs). destruct (xpatch_members f names ms fs vs). rewrite <- IH. reflexivity.
Qed.
End Structs.

Section WithBackend.
Context (be : backend) (tname : list (attrs * ty) -> list N).

Lemma take_erase {A} (c : A -> val) k (r : option A) out : erase (xtake c k r out) = take c r out.
Proof. now destruct r. Qed.

Lemma set_erase e js : forall acc, erase (xset_loop be e js acc) = set_loop e js acc.
Proof.
  induction js as [|j js IH]; intros acc; cbn [xset_loop set_loop]; [reflexivity|].
  destruct j; try reflexivity. destruct (from_string (e_tab e) s); [apply IH|reflexivity].
Qed.

Lemma catch_erase {A} l (r : A * option report) s : erase r = s -> erase (let '(v, e) := r in (v, catch l e)) = s.
Proof. intros <-. destruct r as [v e]. unfold erase. cbn [fst snd]. now rewrite kind_catch. Qed.

Lemma xdeser_erase t : forall j v, erase (xdeser be tname t j v) = deser be t j v.
Proof.
  induction t as [ |it| | | |t IH|t IH|n t IH|t IH|ts IH|en|en|fs IH] using ty_ind1; intros j v; cbn [xdeser deser];
    try apply take_erase.
  - now destruct j.
  - destruct (is_null j); [reflexivity|]. rewrite <- IH. now destruct (xdeser be tname t j (default_of t)) as [x [r|]].
  - destruct j; try reflexivity. now apply erase_wrap, seq_erase.
  - destruct j; try reflexivity. destruct v; try reflexivity. destruct (length vs <? length js); [reflexivity|].
    now apply erase_wrap, arr_erase.
  - destruct j; try reflexivity. now apply erase_wrap, map_erase.
  - destruct j; try reflexivity. destruct v; try reflexivity. destruct (length ts <? length js); [reflexivity|].
    now apply erase_wrap, tuple_erase.
  - destruct j; try reflexivity. now destruct (from_string (e_tab en) s).
  - destruct j; try reflexivity. now apply erase_wrap, set_erase.
  - apply catch_erase. destruct j; try reflexivity; destruct v; try reflexivity.
    + destruct (sequence_field_count fs <? length js); [reflexivity|]. apply erase_wrap, elements_erase.
      eapply Forall_impl; [|exact IH]. intros h [H _]. exact H.
    + destruct (reserved_field_names fs); try reflexivity. apply erase_wrap, members_erase.
      eapply Forall_impl; [|exact IH]. intros h [H H']. exact (conj H H').
Qed.

Lemma xpatch_erase t : forall j v, erase (xpatch be tname t j v) = patch be t j v.
Proof.
  induction t as [ |it| | | |t IH|t IH|n t IH|t IH|ts IH|en|en|fs IH] using ty_ind1; intros j v;
    try (apply (xdeser_erase _ j v)); cbn [xpatch patch].
  - destruct (is_null j); [reflexivity|]. destruct v; try reflexivity.
    + rewrite <- IH. now destruct (xpatch be tname t j (default_of t)) as [x [r|]].
    + now apply erase_wrap.
  - apply catch_erase. destruct j; try apply xdeser_erase; destruct v; try apply xdeser_erase.
    destruct (reserved_field_names fs); try reflexivity. apply erase_wrap, patch_members_erase.
    eapply Forall_impl; [|exact IH]. intros h [H H']. exact (conj H H').
Qed.
End WithBackend.
