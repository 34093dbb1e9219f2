(** What a request comes to: nothing, an exception before anything is changed, or
    one attempt to change a part of the object. *)
From Coq Require Import List NArith ZArith Arith Bool Lia.
From Verif Require Import Base PathModel PathSpec PathProofs TrackerModel TrackerSpec EnumModel EnumProofs
  SerialModel SerialSpec SerialBaseProofs SerialTypeProofs SerialDumpProofs
  ResourceModel ResourceSpec ResourceBaseProofs ResourcePathProofs ResourceOpProofs ResourceCaseProofs
  ResourceAnswerSpec ResourceAnswerProofs HookModel HookSpec HookProofs.
From Verif Require TextModel.
Import ListNotations.

Local Notation str := (list N) (only parsing).

Section Validators.
Context {W : Type}.
Context (E : henv W).

(** What is to replace the part [v1], and what validators did before that. *)
Inductive attempt (t : ty) (v : val) (segs : list str) :
  request -> W -> W -> list str -> trail -> ty -> nkind -> val -> val -> Prop :=
| at_put p j w tr t1 n1 v1 x : reaches t NRoot v segs tr t1 n1 v1 -> is_node_read_only (ctx_along access0 tr) n1 = false ->
    deser (hconv E) t1 j v1 = (x, None) -> preserves_identity n1 v1 x = true ->
    attempt t v segs (Put p j) w w segs tr t1 n1 v1 x
| at_patch p j w tr t1 n1 v1 x : reaches t NRoot v segs tr t1 n1 v1 -> is_node_read_only (ctx_along access0 tr) n1 = false ->
    patch (hconv E) t1 j v1 = (x, None) -> preserves_identity n1 v1 x = true ->
    attempt t v segs (Patch p j) w w segs tr t1 n1 v1 x
| at_post p j w w1 tr te n1 vs c c1 : reaches t NRoot v segs tr (TSeq te) n1 (VSeq vs) ->
    is_child_node_read_only (ctx_along access0 tr) n1 = false ->
    deser (hconv E) te j (default_of te) = (c, None) -> ~ taken n1 vs c -> hcandidate E te w c = (w1, c1, None) ->
    attempt t v segs (Post p j) w w1 segs tr (TSeq te) n1 (VSeq vs) (VSeq (vs ++ [c1]))
| at_child p w pre s tr t1 n1 v1 x : segs = pre ++ [s] -> reaches t NRoot v pre tr t1 n1 v1 ->
    is_child_node_read_only (ctx_along access0 tr) n1 = false -> without t1 n1 v1 s x ->
    attempt t v segs (Delete p) w w pre tr t1 n1 v1 x
| at_reset p w w1 w2 tr te n1 v1 c : ~ child_path t v segs -> reaches t NRoot v segs tr (TOpt te) n1 v1 ->
    is_node_read_only (ctx_along access0 tr) n1 = false ->
    (forall x, v1 = VSome x -> exists x', hcandidate E te w x = (w1, x', None)) ->
    hcandidate E (TOpt te) w1 VNone = (w2, c, None) ->
    attempt t v segs (Delete p) w w2 segs tr (TOpt te) n1 v1 c.

(** What is thrown before any change. *)
Inductive rejected (t : ty) (v : val) (segs : list str) : request -> W -> W -> hexn -> Prop :=
| rj_path q w e : e = HNotFound \/ e = HNotTraversable -> rejected t v segs q w w e
| rj_put p j w tr t1 n1 v1 x e : reaches t NRoot v segs tr t1 n1 v1 ->
    is_node_read_only (ctx_along access0 tr) n1 = false -> deser (hconv E) t1 j v1 = (x, Some e) ->
    rejected t v segs (Put p j) w w (hexn_of E e)
| rj_patch p j w tr t1 n1 v1 x e : reaches t NRoot v segs tr t1 n1 v1 ->
    is_node_read_only (ctx_along access0 tr) n1 = false -> patch (hconv E) t1 j v1 = (x, Some e) ->
    rejected t v segs (Patch p j) w w (hexn_of E e)
| rj_post p j w tr te n1 vs x e : reaches t NRoot v segs tr (TSeq te) n1 (VSeq vs) ->
    is_child_node_read_only (ctx_along access0 tr) n1 = false ->
    deser (hconv E) te j (default_of te) = (x, Some e) -> rejected t v segs (Post p j) w w (hexn_of E e)
| rj_taken p j w tr te n1 vs c : reaches t NRoot v segs tr (TSeq te) n1 (VSeq vs) ->
    is_child_node_read_only (ctx_along access0 tr) n1 = false ->
    deser (hconv E) te j (default_of te) = (c, None) -> taken n1 vs c ->
    rejected t v segs (Post p j) w w (HDuplicate duplicate_text)
| rj_veto p j w w1 tr te n1 vs c c1 e : reaches t NRoot v segs tr (TSeq te) n1 (VSeq vs) ->
    is_child_node_read_only (ctx_along access0 tr) n1 = false ->
    deser (hconv E) te j (default_of te) = (c, None) -> ~ taken n1 vs c -> hcandidate E te w c = (w1, c1, Some e) ->
    rejected t v segs (Post p j) w w1 e
| rj_content p w w1 tr te n1 x x1 e : ~ child_path t v segs -> reaches t NRoot v segs tr (TOpt te) n1 (VSome x) ->
    is_node_read_only (ctx_along access0 tr) n1 = false ->
    hcandidate E te w x = (w1, x1, Some e) -> rejected t v segs (Delete p) w w1 e
| rj_none p w w1 w2 tr te n1 v1 c e : ~ child_path t v segs -> reaches t NRoot v segs tr (TOpt te) n1 v1 ->
    is_node_read_only (ctx_along access0 tr) n1 = false ->
    (forall x, v1 = VSome x -> exists x', hcandidate E te w x = (w1, x', None)) ->
    hcandidate E (TOpt te) w1 VNone = (w2, c, Some e) -> rejected t v segs (Delete p) w w2 e.

Definition undoes (q : request) (v1 x : val) (back : val -> option val) : Prop :=
  (forall y, back y = Some v1) \/ (exists p j vs c, q = Post p j /\ v1 = VSeq vs /\ x = VSeq (vs ++ [c]) /\ back = hpop_back).

Definition handles (h : hexn -> hanswer) : Prop := h = hcaught \/ h = hcaught_del.

Definition done (s : status) : Prop := s = s_ok \/ s = s_created \/ s = s_no_content.

Definition tried (t : ty) (w : W) (r : resource) (segs : list str) (q : request) (w' : W) (r' : resource) (a : hanswer) : Prop :=
  exists w1 pre tr t1 n1 v1 x back h p whole s,
    attempt t (value r) segs q w w1 pre tr t1 n1 v1 x /\
    hchange E t w1 r (map snd tr) x back h (Ok p) whole s = (w', r', a) /\
    denotes p pre /\ undoes q v1 x back /\ handles h /\ done s.

Definition outcomes (t : ty) (w : W) (r : resource) (segs : list str) (q : request) (w' : W) (r' : resource) (a : hanswer) : Prop :=
  tried t w r segs q w' r' a \/
  (r' = r /\ exists e h, handles h /\ rejected t (value r) segs q w w' e /\ a = h e) \/
  (r' = r /\ w' = w /\ (a = plain_answer s_method_not_allowed \/ exists skip p, q = Get skip p /\ a = hget E skip t r p)).

Lemma out_refused t w r segs q w' r' a w1 e h : handles h -> rejected t (value r) segs q w w1 e ->
  (w1, r, h e) = (w', r', a) -> outcomes t w r segs q w' r' a.
Proof. intros H Hr [= <- <- <-]. right; left. split; [reflexivity|]. exists e, h. auto. Qed.

Lemma out_locked t w r segs q w' r' a : (w, r, plain_answer s_method_not_allowed) = (w', r', a) -> outcomes t w r segs q w' r' a.
Proof. intros [= <- <- <-]. right; right. auto. Qed.

Lemma h_put : handles hcaught. Proof. now left. Qed.
Lemma h_del : handles hcaught_del. Proof. now right. Qed.

Lemma change_or_patch read t w r p segs j w' r' a q : typed t (value r) -> denotes p segs ->
  ((forall t1 j1 v1, read t1 j1 v1 = deser (hconv E) t1 j1 v1) /\ q = Put p j \/
   (forall t1 j1 v1, read t1 j1 v1 = patch (hconv E) t1 j1 v1) /\ q = Patch p j) ->
  hput_or_patch E read t w r p j = (w', r', a) -> outcomes t w r segs q w' r' a.
Proof.
  intros Ht D Hq. unfold hput_or_patch.
  destruct (visit_path t (value r) p segs Ht D) as [(tr & t1 & n1 & v1 & rest & R & ->)|[[-> | ->] _]];
    try (apply (out_refused _ _ _ _ _ _ _ _ _ _ _ h_put); apply rj_path; auto).
  cbn [pl_ctx pl_node pl_ty pl_val pl_loc]. destruct (is_node_read_only (ctx_along access0 tr) n1) eqn:Ero; [apply out_locked|].
  destruct (read t1 j v1) as [x [e|]] eqn:Er.
  { apply (out_refused _ _ _ _ _ _ _ _ _ _ _ h_put). destruct Hq as [[Hr ->]|[Hr ->]]; rewrite Hr in Er.
    - exact (rj_put _ _ _ _ _ _ _ _ _ _ _ _ R Ero Er).
    - exact (rj_patch _ _ _ _ _ _ _ _ _ _ _ _ R Ero Er). }
  destruct (preserves_identity n1 v1 x) eqn:Ep; cbn [negb]; [|apply out_locked].
  intros H. left. exists w, segs, tr, t1, n1, v1, x, (fun _ => Some v1), hcaught, p, (has_addressable_descendants t1), s_ok.
  split; [|split; [exact H|]; split; [exact D|]; split; [now left|]; split; [exact h_put|now left]].
  destruct Hq as [[Hr ->]|[Hr ->]]; rewrite Hr in Er; econstructor; eassumption.
Qed.

Lemma post_shape t w r p segs j w' r' a : typed t (value r) -> denotes p segs ->
  hpost E t w r p j = (w', r', a) -> outcomes t w r segs (Post p j) w' r' a.
Proof.
  intros Ht D. unfold hpost.
  destruct (visit_path t (value r) p segs Ht D) as [(tr & t1 & n1 & v1 & rest & R & ->)|[[-> | ->] _]];
    try (apply (out_refused _ _ _ _ _ _ _ _ _ _ _ h_put); apply rj_path; auto).
  cbn [pl_ctx pl_node pl_ty pl_val pl_loc]. destruct (is_child_node_read_only (ctx_along access0 tr) n1) eqn:Ero; [apply out_locked|].
  destruct (reaches_get _ _ _ _ _ _ _ _ R Ht) as [Hg Ht1].
  destruct t1 as [ |it| | | |te|te|k te|te|ts|e|e|fs]; try apply out_locked.
  destruct v1 as [b|z|b|b|s'| |v|vs|m|vs]; cbn [typed] in Ht1; try contradiction.
  destruct (deser (hconv E) te j (default_of te)) as [c [e|]] eqn:Er.
  { apply (out_refused _ _ _ _ _ _ _ _ _ _ _ h_put). exact (rj_post _ _ _ _ _ _ _ _ _ _ _ _ R Ero Er). }
  destruct (check_duplicate_child_key n1 vs c) as [e|] eqn:Ed.
  { rewrite check_duplicate_bool in Ed. destruct (existsb _ _) eqn:Ex in Ed; [|discriminate]. injection Ed as <-.
    apply (out_refused _ _ _ _ _ _ _ _ _ _ _ h_put). apply taken_true in Ex. exact (rj_taken _ _ _ _ _ _ _ _ _ _ _ R Ero Er Ex). }
  assert (Hn : ~ taken n1 vs c) by (intros Hn; rewrite (check_taken _ _ _ Hn) in Ed; discriminate).
  destruct (hcandidate E te w c) as [[w1 c1] [e|]] eqn:Ec.
  { apply (out_refused _ _ _ _ _ _ _ _ _ _ _ h_put). exact (rj_veto _ _ _ _ _ _ _ _ _ _ _ _ _ _ R Ero Er Hn Ec). }
  intros H. left. exists w1, segs, tr, (TSeq te), n1, (VSeq vs), (VSeq (vs ++ [c1])), hpop_back, hcaught, p, true, s_created.
  split; [econstructor; eassumption|]. split; [exact H|]. split; [exact D|]. split; [right; eauto 8|]. split; [exact h_put|].
  right; now left.
Qed.

Lemma reset_shape t w r p segs w' r' a : ~ child_path t (value r) segs -> typed t (value r) -> denotes p segs ->
  hreset_optional E t w r p = (w', r', a) -> outcomes t w r segs (Delete p) w' r' a.
Proof.
  intros Hcp Ht D. unfold hreset_optional.
  destruct (visit_path t (value r) p segs Ht D) as [(tr & t1 & n1 & v1 & rest & R & ->)|[[-> | ->] _]];
    try (apply (out_refused _ _ _ _ _ _ _ _ _ _ _ h_del); apply rj_path; auto).
  cbn [pl_ctx pl_node pl_ty pl_val pl_loc]. destruct (is_node_read_only (ctx_along access0 tr) n1) eqn:Ero; [apply out_locked|].
  destruct t1 as [ |it| | | |te|te|k te|te|ts|e|e|fs]; try apply out_locked.
  destruct (match v1 with VSome v => let '(w1, _, e1) := hcandidate E te w v in (w1, e1) | _ => (w, None) end) as [w1 e1] eqn:Ev.
  assert (Hc : forall x, v1 = VSome x -> exists x', hcandidate E te w x = (w1, x', e1)).
  { intros x ->. destruct (hcandidate E te w x) as [[w0 c0] e0]. injection Ev as <- <-. eauto. }
  destruct e1 as [e|].
  { destruct v1; try discriminate Ev. destruct (Hc v1 eq_refl) as (x' & Hx).
    apply (out_refused _ _ _ _ _ _ _ _ _ _ _ h_del). exact (rj_content _ _ _ _ _ _ _ _ _ _ _ _ Hcp R Ero Hx). }
  destruct (hcandidate E (TOpt te) w1 VNone) as [[w2 c2] [e|]] eqn:Ec.
  { apply (out_refused _ _ _ _ _ _ _ _ _ _ _ h_del). exact (rj_none _ _ _ _ _ _ _ _ _ _ _ _ _ Hcp R Ero Hc Ec). }
  intros H. left. exists w2, segs, tr, (TOpt te), n1, v1, c2, (fun _ => Some v1), hcaught_del, p, (is_reflectable te), s_no_content.
  split; [econstructor; eassumption|]. split; [exact H|]. split; [exact D|]. split; [now left|]. split; [exact h_del|].
  right; now right.
Qed.

Lemma erase_shape t w r p pre s tr t1 n1 v1 x w' r' a : typed t (value r) -> denotes p (pre ++ [s]) ->
  reaches t NRoot (value r) pre tr t1 n1 v1 -> is_child_node_read_only (ctx_along access0 tr) n1 = false -> without t1 n1 v1 s x ->
  herase E t w r p (map snd tr) v1 x = (w', r', a) -> outcomes t w r (pre ++ [s]) (Delete p) w' r' a.
Proof.
  intros Ht D R Hro Hw. unfold herase. destruct (denotes_drop_back _ _ _ D) as (p' & -> & D'). intros H.
  left. exists w, pre, tr, t1, n1, v1, x, (fun _ => Some v1), hcaught_del, p', true, s_no_content.
  split; [econstructor; eauto|]. split; [exact H|]. split; [exact D'|]. split; [now left|]. split; [exact h_del|]. right; now right.
Qed.

Lemma not_here t w r segs q w' r' a : (w, r, hcaught_del HNotFound) = (w', r', a) -> outcomes t w r segs q w' r' a.
Proof. apply (out_refused _ _ _ _ _ _ _ _ _ _ _ h_del). apply rj_path. auto. Qed.

Lemma del_shape t w r p segs w' r' a : typed t (value r) -> denotes p segs ->
  hdel E t w r p = (w', r', a) -> outcomes t w r segs (Delete p) w' r' a.
Proof.
  intros Ht D. unfold hdel. unfold view_empty. rewrite (denotes_size _ _ D). destruct (length segs =? 0) eqn:Em.
  { apply Nat.eqb_eq in Em. destruct segs; [|discriminate]. apply reset_shape; auto.
    intros (pre & s & tr & t1 & n1 & v1 & Es & _). destruct pre; discriminate. }
  apply Nat.eqb_neq in Em.
  assert (Hne : segs <> []) by (intros ->; now apply Em).
  destruct (exists_last Hne) as (pre & s & Epre). subst segs.
  destruct (visit_parent t (value r) p pre s Ht D) as [(tr & t1 & n1 & v1 & rest & R & Hfr & ->)|[[-> | ->] _]];
    try (apply (out_refused _ _ _ _ _ _ _ _ _ _ _ h_del); apply rj_path; auto).
  destruct (reaches_get _ _ _ _ _ _ _ _ R Ht) as [Hg Ht1].
  unfold hdelete_direct_child. cbn [pl_ctx pl_node pl_ty pl_val pl_loc pl_rest]. rewrite Hfr. cbv zeta.
  assert (Reset : ~ collection t1 -> hreset_optional E t w r p = (w', r', a) -> outcomes t w r (pre ++ [s]) (Delete p) w' r' a).
  { intros Hc. apply reset_shape; auto. intros (pre' & s' & tr' & t1' & n1' & v1' & Es' & R' & Hc').
    apply app_inj_tail in Es'. destruct Es' as [<- <-].
    destruct (reaches_fun _ _ _ _ _ _ _ _ R Ht _ _ _ _ R') as (-> & -> & -> & ->). auto. }
  destruct t1 as [ |it| | | |te|te|k te|te|ts|e|e|fs]; destruct v1 as [b|z|b|b|s'| |v|vs|m|vs]; cbn [typed] in Ht1; try contradiction;
    try (apply Reset; intros [[te' Hc]|[te' [Hc|[k' Hc]]]]; discriminate).
  - destruct (node_child_keys n1) as [|ck0 cks] eqn:Ek.
    + destruct (TextModel.parse_index s) as [i|] eqn:Ei; [|apply not_here].
      destruct (is_child_node_read_only _ n1) eqn:Ero; [apply out_locked|].
      destruct (nth_error vs (N.to_nat i)) as [x|] eqn:Ex; [|apply not_here].
      apply index_found in Ei. apply nth_error_split in Ex. destruct Ex as (l1 & l2 & -> & El). rewrite <- El in *. rewrite remove_len.
      apply (erase_shape t w r p pre s tr _ n1 _ _ _ _ _ Ht D R Ero). now constructor.
    + destruct (find_keyed _ vs s) as [[ck i]|] eqn:Ef; [|apply not_here].
      destruct (is_child_node_read_only _ n1) eqn:Ero; [apply out_locked|].
      rewrite <- Ek in Ef. pose proof (find_keyed_some _ _ _ _ _ Ef) as K.
      pose proof K as (b & a0 & _ & (x & Hx & _) & _). apply nth_error_split in Hx. destruct Hx as (l1 & l2 & -> & <-). rewrite remove_len.
      apply (erase_shape t w r p pre s tr _ n1 _ _ _ _ _ Ht D R Ero). econstructor. exact K.
  - destruct (node_child_keys n1) as [|ck0 cks].
    + destruct (TextModel.parse_index s) as [i|]; [|apply not_here]. destruct (is_child_node_read_only _ n1); apply out_locked.
    + destruct (find_keyed _ vs s) as [[ck i]|]; [|apply not_here]. destruct (is_child_node_read_only _ n1); apply out_locked.
  - destruct (map_find s m) as [x|] eqn:Ef; [|apply not_here].
    destruct (is_child_node_read_only _ n1) eqn:Ero; [apply out_locked|].
    destruct (map_find_split _ _ _ Ef) as (l1 & l2 & -> & Ha).
    assert (Hb : ~ In s (map fst l2)).
    { cbn [typed] in Ht1. destruct Ht1 as [Hs _]. apply sorted_keys_nodup in Hs. rewrite map_app in Hs. cbn [map fst] in Hs.
      apply NoDup_remove_2 in Hs. intros Hb. apply Hs, in_or_app. now right. }
    rewrite (erase_len s x l1 l2 Ha Hb). apply (erase_shape t w r p pre s tr _ n1 _ _ _ _ _ Ht D R Ero). now constructor.
Qed.

Lemma hperform_cases t w r q segs w' r' a : typed t (value r) -> at_path q segs -> hperform E t w r q = (w', r', a) ->
  outcomes t w r segs q w' r' a.
Proof.
  intros Ht D. unfold at_path in D. destruct q as [skip p|p j|p j|p j|p]; cbn [path_of hperform] in *.
  - intros [= <- <- <-]. right; right. split; [reflexivity|]. split; [reflexivity|]. right. eauto.
  - apply change_or_patch with (p := p) (j := j); auto.
  - now apply post_shape.
  - apply change_or_patch with (p := p) (j := j); auto.
  - now apply del_shape.
Qed.

End Validators.
