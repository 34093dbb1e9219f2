(** Validators that modify nothing: requests do what they do in ResourceModel. *)
From Coq Require Import List NArith ZArith Arith Bool Lia.
From Verif Require Import Base PathModel PathSpec PathProofs TrackerModel TrackerSpec EnumModel EnumProofs
  SerialModel SerialSpec SerialBaseProofs SerialTypeProofs SerialDumpProofs
  ResourceModel ResourceSpec ResourceBaseProofs ResourcePathProofs ResourceOpProofs ResourceCaseProofs
  ResourceAnswerSpec ResourceAnswerProofs HookModel HookSpec.
From Verif Require TextModel.
Import ListNotations.

Local Notation str := (list N) (only parsing).

Lemma kind_of_rexn e : kind_of (of_rexn e) = e.
Proof. now destruct e. Qed.

Lemma answer_caught e : answer_of (hcaught e) = caught (kind_of e).
Proof. now destruct e. Qed.

Lemma answer_caught_del e : answer_of (hcaught_del e) = caught_del (kind_of e).
Proof. now destruct e. Qed.

Section Validators.
Context {W : Type}.
Context (E : henv W).

Lemma each_quiet {A} (f : W -> A -> W * A * option hexn) l : (forall w x w' x' e, In x l -> f w x = (w', x', e) -> x' = x) ->
  forall w w' l' e, each f w l = (w', l', e) -> l' = l.
Proof.
  induction l as [|x l IH]; intros H w w' l' e; cbn [each]; [now intros [= <- <- <-]|].
  destruct (f w x) as [[w1 x1] [e1|]] eqn:Ef.
  - intros [= <- <- <-]. now rewrite (H _ _ _ _ _ (or_introl eq_refl) Ef).
  - destruct (each f w1 l) as [[w2 l2] e2] eqn:El. intros [= <- <- <-].
    rewrite (H _ _ _ _ _ (or_introl eq_refl) Ef). f_equal.
    apply (IH (fun w x w' x' e Hx => H w x w' x' e (or_intror Hx)) _ _ _ _ El).
Qed.

Lemma each_field_quiet (f : nkind -> ty -> W -> val -> W * val * option hexn) fs :
  Forall (fun g => forall n w v w' v' e, f n (snd g) w v = (w', v', e) -> v' = v) fs ->
  forall vs w w' vs' e, each_field f w fs vs = (w', vs', e) -> vs' = vs.
Proof.
  induction 1 as [|[a t] fs H _ IH]; intros [|v vs] w w' vs' e; cbn [each_field]; try (now intros [= <- <- <-]).
  cbn [snd] in H. destruct (f (NField a) t w v) as [[w1 v1] [e1|]] eqn:Ef.
  - intros [= <- <- <-]. now rewrite (H _ _ _ _ _ _ Ef).
  - destruct (each_field f w1 fs vs) as [[w2 l2] e2] eqn:El. intros [= <- <- <-].
    rewrite (H _ _ _ _ _ _ Ef). f_equal. apply (IH _ _ _ _ _ El).
Qed.

Lemma map_entries (f : W -> val -> W * val * option hexn) : (forall w x w' x' e, f w x = (w', x', e) -> x' = x) ->
  forall m : list (str * val), forall w w' m' e,
  each (fun w' (kv : str * val) => let '(w3, x3, e3) := f w' (snd kv) in (w3, (fst kv, x3), e3)) w m = (w', m', e) -> m' = m.
Proof.
  intros H m. apply each_quiet. intros w [k x] w' x' e _. cbn [fst snd]. destruct (f w x) as [[w1 x1] e1] eqn:Ef.
  intros [= <- <- <-]. now rewrite (H _ _ _ _ _ Ef).
Qed.

Lemma validate_quiet t : quiet E -> forall n w v w' v' e, hvalidate E t n w v = (w', v', e) -> v' = v.
Proof.
  intros Q. induction t as [ |it| | | |t IH|t IH|k t IH|t IH|ts IH|e0|e0|fs IH] using ty_ind0; intros n w v w' v' e;
    cbn [hvalidate]; (destruct (hhook E _ w v) as [[w1 v1] [e1|]] eqn:Eh; [intros [= <- <- <-]; exact (Q _ _ _ _ _ _ Eh)|]);
    rewrite (Q _ _ _ _ _ _ Eh) in *; clear Eh; (destruct (hunique n v) as [e1|]; [now intros [= <- <- <-]|]);
    try (now intros [= <- <- <-]).
  - destruct v; try (now intros [= <- <- <-]). destruct (hvalidate E t (NElem None) w1 v) as [[w2 x2] e2] eqn:Er.
    intros [= <- <- <-]. now rewrite (IH _ _ _ _ _ _ Er).
  - destruct v; try (now intros [= <- <- <-]). destruct (each _ w1 vs) as [[w2 x2] e2] eqn:Er.
    intros [= <- <- <-]. now rewrite (each_quiet _ _ (fun w x w' x' e _ => IH (NElem None) w x w' x' e) _ _ _ _ Er).
  - destruct v; try (now intros [= <- <- <-]). destruct (each _ w1 vs) as [[w2 x2] e2] eqn:Er.
    intros [= <- <- <-]. now rewrite (each_quiet _ _ (fun w x w' x' e _ => IH (NElem None) w x w' x' e) _ _ _ _ Er).
  - destruct v; try (now intros [= <- <- <-]). match goal with |- context [each ?f w1 ?m] => destruct (each f w1 m) as [[w2 x2] e2] eqn:Er end.
    intros [= <- <- <-]. now rewrite (map_entries _ (IH (NElem None)) _ _ _ _ _ Er).
  - destruct v; try (now intros [= <- <- <-]). destruct (each_field _ w1 fs vs) as [[w2 x2] e2] eqn:Er.
    intros [= <- <- <-]. now rewrite (each_field_quiet _ fs IH _ _ _ _ _ Er).
Qed.

Lemma candidate_quiet t : quiet E -> forall w v w' v' e, hcandidate E t w v = (w', v', e) -> v' = v.
Proof.
  intros Q. induction t as [ |it| | | |t IH|t IH|k t IH|t IH|ts IH|e0|e0|fs IH] using ty_ind0; intros w v w' v' e;
    cbn [hcandidate]; (destruct (hhook E _ w v) as [[w1 v1] [e1|]] eqn:Eh; [intros [= <- <- <-]; exact (Q _ _ _ _ _ _ Eh)|]);
    rewrite (Q _ _ _ _ _ _ Eh) in *; clear Eh; try (now intros [= <- <- <-]).
  destruct v; try (now intros [= <- <- <-]). destruct (hcandidate E t w1 v) as [[w2 x2] e2] eqn:Er.
  intros [= <- <- <-]. now rewrite (IH _ _ _ _ _ Er).
Qed.

(* ------------------------------------------------------------------ *)
(** ** One request is like a request with validators that always say the same *)

Definition const_env (c : option rexn) : env := mkenv (fun _ _ => c) (kind_of (huser_exn E)) (hconv E).

Lemma each_passes {A} (f : W -> A -> W * A * option hexn) (g : A -> option rexn) l :
  (forall w x w' x', In x l -> f w x = (w', x', None) -> g x = None) ->
  forall w w' l', each f w l = (w', l', None) -> first_exn g l = None.
Proof.
  induction l as [|x l IH]; intros H w w' l'; cbn [each first_exn]; [reflexivity|].
  destruct (f w x) as [[w1 x1] [e1|]] eqn:Ef; [discriminate|]. destruct (each f w1 l) as [[w2 l2] e2] eqn:El. intros [= <- <- ->].
  rewrite (H _ _ _ _ (or_introl eq_refl) Ef). cbn [andthen]. apply (IH (fun w x w' x' Hx => H w x w' x' (or_intror Hx)) _ _ _ El).
Qed.

Lemma each_field_passes (f : nkind -> ty -> W -> val -> W * val * option hexn) (g : nkind -> ty -> val -> option rexn) fs :
  Forall (fun h => forall n w v w' v', f n (snd h) w v = (w', v', None) -> g n (snd h) v = None) fs ->
  forall vs w w' vs', each_field f w fs vs = (w', vs', None) -> validate_fields g fs vs = None.
Proof.
  induction 1 as [|[a t] fs H _ IH]; intros [|v vs] w w' vs'; cbn [each_field validate_fields]; try discriminate; [reflexivity|].
  cbn [snd] in H. destruct (f (NField a) t w v) as [[w1 v1] [e1|]] eqn:Ef; [discriminate|].
  destruct (each_field f w1 fs vs) as [[w2 l2] e2] eqn:El. intros [= <- <- ->].
  rewrite (H _ _ _ _ _ Ef). cbn [andthen]. apply (IH _ _ _ _ El).
Qed.

Lemma unique_passes n v : hunique n v = None -> validate_unique_child_keys n v = None.
Proof. unfold hunique. now destruct (validate_unique_child_keys n v). Qed.

Lemma validate_passes t : quiet E -> forall n w v w' v', hvalidate E t n w v = (w', v', None) ->
  validate_node_tree (const_env None) t n v = None.
Proof.
  intros Q. induction t as [ |it| | | |t IH|t IH|k t IH|t IH|ts IH|e0|e0|fs IH] using ty_ind0; intros n w v w' v';
    cbn [hvalidate validate_node_tree hook const_env andthen];
    (destruct (hhook E _ w v) as [[w1 v1] [e1|]] eqn:Eh; [discriminate|]);
    rewrite (Q _ _ _ _ _ _ Eh) in *; clear Eh; (destruct (hunique n v) as [e1|] eqn:Eu; [discriminate|]);
    rewrite (unique_passes _ _ Eu); cbn [andthen]; try reflexivity.
  - destruct v; try reflexivity. destruct (hvalidate E t (NElem None) w1 v) as [[w2 x2] e2] eqn:Er.
    intros [= <- <- ->]. exact (IH _ _ _ _ _ Er).
  - destruct v; try reflexivity. destruct (each _ w1 vs) as [[w2 x2] e2] eqn:Er.
    intros [= <- <- ->]. exact (each_passes _ _ _ (fun w x w' x' _ => IH (NElem None) w x w' x') _ _ _ Er).
  - destruct v; try reflexivity. destruct (each _ w1 vs) as [[w2 x2] e2] eqn:Er.
    intros [= <- <- ->]. exact (each_passes _ _ _ (fun w x w' x' _ => IH (NElem None) w x w' x') _ _ _ Er).
  - destruct v; try reflexivity. match goal with |- context [each ?f w1 ?m] => destruct (each f w1 m) as [[w2 x2] e2] eqn:Er end.
    intros [= <- <- ->]. refine (each_passes _ _ _ _ _ _ _ Er). intros w0 [k x] w3 x3 _. cbn [fst snd].
    destruct (hvalidate E t (NElem None) w0 x) as [[w4 x4] e4] eqn:E4. intros [= _ _ ->]. exact (IH _ _ _ _ _ E4).
  - destruct v; try reflexivity. destruct (each_field _ w1 fs vs) as [[w2 x2] e2] eqn:Er.
    intros [= <- <- ->]. exact (each_field_passes _ _ fs IH _ _ _ _ Er).
Qed.

Lemma const_fails c t n v : validate_node_tree (const_env (Some c)) t n v = Some c.
Proof. now destruct t. Qed.
Lemma const_candidate c t v : validate_candidate (const_env (Some c)) t v = Some c.
Proof. now destruct t. Qed.
Lemma const_no_candidate t v : validate_candidate (const_env None) t v = None.
Proof.
  revert v. induction t as [ |it| | | |t IH|t IH|k t IH|t IH|ts IH|e0|e0|fs IH] using ty_ind0; intros v;
    cbn [validate_candidate hook const_env andthen]; try reflexivity.
  destruct v; auto.
Qed.

(** What a change does with validators that modify nothing. *)
Lemma hchange_quiet t w r loc new back h h' wh whole s w' r' a old back' : quiet E ->
  get_at (value r) loc = Some old -> back new = Some old -> back' new = old -> (forall e, answer_of (h e) = h' (kind_of e)) ->
  hchange E t w r loc new back h wh whole s = (w', r', a) ->
  exists c, change (const_env c) t r loc new back' h' wh whole s = (r', answer_of a) /\ (forall x, c = Some x -> r' = r /\ answer_of a = h' x).
Proof.
  intros Q Hg Hb Hb' Hh. unfold hchange, change, hvalidate_tree, validate_tree.
  destruct (hvalidate E t NRoot w (set_at (value r) loc new)) as [[w1 v1] [e|]] eqn:Ev; pose proof (validate_quiet t Q _ _ _ _ _ _ Ev) as ->.
  - rewrite (get_set _ _ _ _ Hg), Hb, set_twice, (set_back _ _ _ Hg). intros [= <- <- <-].
    exists (Some (kind_of e)). rewrite const_fails, Hb', set_twice, (set_back _ _ _ Hg), Hh. split; [now destruct r|].
    intros x [= <-]. split; [now destruct r|reflexivity].
  - intros H. exists None. split; [|discriminate]. rewrite (validate_passes t Q _ _ _ _ _ Ev). revert H.
    destruct wh as [p| |]; [destruct (notify_changed (modifications r) p whole) as [[m g]| |]|..]; intros [= <- <- <-]; reflexivity.
Qed.

Lemma thrown_of e c : rexn_of (const_env c) e = kind_of (hexn_of E e).
Proof. now destruct e. Qed.

Lemma put_quiet read t w r p segs j w' r' a : quiet E -> typed t (value r) -> denotes p segs ->
  hput_or_patch E read t w r p j = (w', r', a) ->
  exists c, put_or_patch (const_env c) read t r p j = (r', answer_of a).
Proof.
  intros Q Ht D. unfold hput_or_patch, put_or_patch.
  destruct (visit_path t (value r) p segs Ht D) as [(tr & t1 & n1 & v1 & rest & R & ->)|[[-> | ->] _]];
    try (intros [= <- <- <-]; exists None; reflexivity).
  cbn [pl_ctx pl_node pl_ty pl_val pl_loc]. destruct (is_node_read_only (ctx_along access0 tr) n1).
  { intros [= <- <- <-]. exists None. reflexivity. }
  destruct (reaches_get _ _ _ _ _ _ _ _ R Ht) as [Hg Ht1]. destruct (read t1 j v1) as [x [e|]].
  { intros [= <- <- <-]. exists None. now rewrite answer_caught, thrown_of. }
  destruct (negb (preserves_identity n1 v1 x)).
  { intros [= <- <- <-]. exists None. reflexivity. }
  intros H. destruct (hchange_quiet _ _ _ _ _ _ _ caught _ _ _ _ _ _ v1 (fun _ => v1) Q Hg eq_refl eq_refl answer_caught H) as (c & Hc & _).
  eauto.
Qed.

Lemma pop_app vs c : hpop_back (VSeq (vs ++ [c])) = Some (VSeq vs).
Proof. unfold hpop_back. destruct (vs ++ [c]) as [|y l] eqn:El; [destruct vs; discriminate|]. now rewrite <- El, removelast_last. Qed.

Lemma post_quiet t w r p segs j w' r' a : quiet E -> typed t (value r) -> denotes p segs ->
  hpost E t w r p j = (w', r', a) -> exists c, post (const_env c) t r p j = (r', answer_of a).
Proof.
  intros Q Ht D. unfold hpost, post.
  destruct (visit_path t (value r) p segs Ht D) as [(tr & t1 & n1 & v1 & rest & R & ->)|[[-> | ->] _]];
    try (intros [= <- <- <-]; exists None; reflexivity).
  cbn [pl_ctx pl_node pl_ty pl_val pl_loc]. destruct (is_child_node_read_only (ctx_along access0 tr) n1).
  { intros [= <- <- <-]. exists None. reflexivity. }
  destruct (reaches_get _ _ _ _ _ _ _ _ R Ht) as [Hg Ht1].
  destruct t1 as [ |it| | | |te|te|k te|te|ts|e|e|fs]; try (intros [= <- <- <-]; exists None; reflexivity).
  destruct v1 as [b|z|b|b|s'| |v|vs|m|vs]; try (intros [= <- <- <-]; exists None; reflexivity).
  cbn [conv const_env]. destruct (deser (hconv E) te j (default_of te)) as [c [e|]].
  { intros [= <- <- <-]. exists None. now rewrite answer_caught, thrown_of. }
  destruct (check_duplicate_child_key n1 vs c) as [e|] eqn:Ed.
  { intros [= <- <- <-]. exists None. cbn [andthen]. now rewrite answer_caught, kind_of_rexn. }
  cbn [andthen]. destruct (hcandidate E te w c) as [[w1 c1] [e|]] eqn:Ec; pose proof (candidate_quiet te Q _ _ _ _ _ Ec) as ->.
  { intros [= <- <- <-]. exists (Some (kind_of e)). now rewrite const_candidate, answer_caught. }
  intros H. destruct (hchange_quiet _ _ _ _ _ _ _ caught _ _ _ _ _ _ (VSeq vs) pop_back Q Hg (pop_app vs c)
      ltac:(unfold pop_back; now rewrite removelast_last) answer_caught H) as ([x|] & Hc & Hx).
  - destruct (Hx x eq_refl) as [-> ->]. exists (Some x). now rewrite const_candidate.
  - exists None. now rewrite const_no_candidate.
Qed.

Lemma reset_quiet t w r p segs w' r' a : quiet E -> typed t (value r) -> denotes p segs ->
  hreset_optional E t w r p = (w', r', a) -> exists c, reset_optional (const_env c) t r p = (r', answer_of a).
Proof.
  intros Q Ht D. unfold hreset_optional, reset_optional.
  destruct (visit_path t (value r) p segs Ht D) as [(tr & t1 & n1 & v1 & rest & R & ->)|[[-> | ->] _]];
    try (intros [= <- <- <-]; exists None; reflexivity).
  cbn [pl_ctx pl_node pl_ty pl_val pl_loc]. destruct (is_node_read_only (ctx_along access0 tr) n1).
  { intros [= <- <- <-]. exists None. reflexivity. }
  destruct (reaches_get _ _ _ _ _ _ _ _ R Ht) as [Hg Ht1].
  destruct t1 as [ |it| | | |te|te|k te|te|ts|e|e|fs]; try (intros [= <- <- <-]; exists None; reflexivity).
  assert (C1 : forall c, andthen (match v1 with VSome v => validate_candidate (const_env (Some c)) te v | _ => None end)
                 (validate_candidate (const_env (Some c)) (TOpt te) VNone) = Some c).
  { intros c. rewrite const_candidate. destruct v1; try reflexivity. now rewrite const_candidate. }
  assert (C2 : andthen (match v1 with VSome v => validate_candidate (const_env None) te v | _ => None end)
                 (validate_candidate (const_env None) (TOpt te) VNone) = None).
  { rewrite const_no_candidate. destruct v1; try reflexivity. now rewrite const_no_candidate. }
  destruct (match v1 with VSome v => let '(w1, _, e1) := hcandidate E te w v in (w1, e1) | _ => (w, None) end) as [w1 [e|]] eqn:Ev.
  { intros [= <- <- <-]. exists (Some (kind_of e)). now rewrite C1, answer_caught_del. }
  destruct (hcandidate E (TOpt te) w1 VNone) as [[w2 c2] [e|]] eqn:Ec; pose proof (candidate_quiet (TOpt te) Q _ _ _ _ _ Ec) as ->.
  { intros [= <- <- <-]. exists (Some (kind_of e)). now rewrite C1, answer_caught_del. }
  intros H. destruct (hchange_quiet _ _ _ _ _ _ _ caught_del _ _ _ _ _ _ v1 (fun _ => v1) Q Hg eq_refl eq_refl answer_caught_del H) as ([x|] & Hc & Hx).
  - destruct (Hx x eq_refl) as [-> ->]. exists (Some x). now rewrite C1.
  - exists None. now rewrite C2.
Qed.

Lemma erase_quiet t w r p loc old new w' r' a : quiet E -> get_at (value r) loc = Some old ->
  herase E t w r p loc old new = (w', r', a) -> exists c, erase (const_env c) t r p loc old new = (r', answer_of a).
Proof.
  intros Q Hg H. unfold herase in H.
  destruct (hchange_quiet _ _ _ _ _ _ _ caught_del _ _ _ _ _ _ old (fun _ => old) Q Hg eq_refl eq_refl answer_caught_del H) as (c & Hc & _).
  exists c. exact Hc.
Qed.

Lemma del_quiet t w r p segs w' r' a : quiet E -> typed t (value r) -> denotes p segs ->
  hdel E t w r p = (w', r', a) -> exists c, del (const_env c) t r p = (r', answer_of a).
Proof.
  intros Q Ht D. unfold hdel, del. destruct (view_empty p) eqn:Em; [now apply (reset_quiet t w r p segs)|].
  unfold view_empty in Em. rewrite (denotes_size _ _ D) in Em. apply Nat.eqb_neq in Em.
  assert (Hne : segs <> []) by (intros ->; now apply Em).
  destruct (exists_last Hne) as (pre & s & Epre). subst segs.
  destruct (visit_parent t (value r) p pre s Ht D) as [(tr & t1 & n1 & v1 & rest & R & Hfr & ->)|[[-> | ->] _]];
    try (intros [= <- <- <-]; exists None; reflexivity).
  destruct (reaches_get _ _ _ _ _ _ _ _ R Ht) as [Hg Ht1].
  unfold hdelete_direct_child, delete_direct_child. cbn [pl_ctx pl_node pl_ty pl_val pl_loc pl_rest]. rewrite Hfr. cbv zeta.
  assert (Reset : hreset_optional E t w r p = (w', r', a) -> exists c, reset_optional (const_env c) t r p = (r', answer_of a)).
  { now apply (reset_quiet t w r p (pre ++ [s])). }
  destruct t1 as [ |it| | | |te|te|k te|te|ts|e|e|fs]; destruct v1 as [b|z|b|b|s'| |v|vs|m|vs]; try exact Reset.
  - destruct (node_child_keys n1) as [|ck0 cks].
    + destruct (TextModel.parse_index s) as [i|]; [|intros [= <- <- <-]; now exists None].
      destruct (is_child_node_read_only _ n1); [intros [= <- <- <-]; now exists None|].
      destruct (nth_error vs (N.to_nat i)); [|intros [= <- <- <-]; now exists None].
      exact (erase_quiet _ _ _ _ _ _ _ _ _ _ Q Hg).
    + destruct (find_keyed _ vs s) as [[ck i]|]; [|intros [= <- <- <-]; now exists None].
      destruct (is_child_node_read_only _ n1); [intros [= <- <- <-]; now exists None|].
      exact (erase_quiet _ _ _ _ _ _ _ _ _ _ Q Hg).
  - destruct (node_child_keys n1) as [|ck0 cks].
    + destruct (TextModel.parse_index s) as [i|]; [|intros [= <- <- <-]; now exists None].
      destruct (is_child_node_read_only _ n1); intros [= <- <- <-]; now exists None.
    + destruct (find_keyed _ vs s) as [[ck i]|]; [|intros [= <- <- <-]; now exists None].
      destruct (is_child_node_read_only _ n1); intros [= <- <- <-]; now exists None.
  - destruct (map_find s m); [|intros [= <- <- <-]; now exists None].
    destruct (is_child_node_read_only _ n1); [intros [= <- <- <-]; now exists None|].
    exact (erase_quiet _ _ _ _ _ _ _ _ _ _ Q Hg).
Qed.

Lemma get_any_env E1 E2 skip t r p : conv E1 = conv E2 -> get E1 skip t r p = get E2 skip t r p.
Proof. intros H. unfold get. destruct (visit_at_path _ _ _ _); [|reflexivity]. now rewrite H. Qed.

Lemma answer_of_answer a : answer_of (of_answer a) = a.
Proof. destruct a as [s es|e]; cbn; [reflexivity|now rewrite kind_of_rexn]. Qed.

Lemma perform_quiet t w r q w' r' a : quiet E -> typed t (value r) -> well_formed q ->
  hperform E t w r q = (w', r', a) ->
  exists E', conv E' = hconv E /\ user_exn E' = kind_of (huser_exn E) /\ perform E' t r q = (r', answer_of a).
Proof.
  intros Q Ht (segs & D). unfold at_path in D. intros H.
  assert (exists c, perform (const_env c) t r q = (r', answer_of a)) as (c & Hc); [|exists (const_env c); auto].
  destruct q as [skip p|p j|p j|p j|p]; cbn [path_of hperform perform] in *.
  - injection H as <- <- <-. exists None. unfold hget. rewrite answer_of_answer. reflexivity.
  - exact (put_quiet _ _ _ _ _ _ _ _ _ _ Q Ht D H).
  - exact (post_quiet _ _ _ _ _ _ _ _ _ Q Ht D H).
  - exact (put_quiet _ _ _ _ _ _ _ _ _ _ Q Ht D H).
  - exact (del_quiet _ _ _ _ _ _ _ _ Q Ht D H).
Qed.

(* ------------------------------------------------------------------ *)
(** ** Validators that always say the same *)

Context (P : ty -> val -> option hexn).

Definition pure_env : env :=
  mkenv (fun t v => option_map kind_of (P t v)) (kind_of (huser_exn E)) (hconv E).

Lemma pure_quiet : pure E P -> quiet E.
Proof. intros Hp t w v w' v' e H. destruct (Hp t w v) as (w1 & H1). congruence. Qed.

Lemma each_pure {A} (f : W -> A -> W * A * option hexn) (g : A -> option rexn) l :
  (forall w x w' x' e, In x l -> f w x = (w', x', e) -> g x = option_map kind_of e) ->
  forall w w' l' e, each f w l = (w', l', e) -> first_exn g l = option_map kind_of e.
Proof.
  induction l as [|x l IH]; intros H w w' l' e; cbn [each first_exn]; [now intros [= <- <- <-]|].
  destruct (f w x) as [[w1 x1] [e1|]] eqn:Ef; rewrite (H _ _ _ _ _ (or_introl eq_refl) Ef); cbn [andthen option_map].
  - now intros [= <- <- <-].
  - destruct (each f w1 l) as [[w2 l2] e2] eqn:El. intros [= <- <- <-].
    apply (IH (fun w x w' x' e Hx => H w x w' x' e (or_intror Hx)) _ _ _ _ El).
Qed.

Lemma each_field_pure (f : nkind -> ty -> W -> val -> W * val * option hexn) (g : nkind -> ty -> val -> option rexn) fs :
  Forall (fun h => forall n w v w' v' e, f n (snd h) w v = (w', v', e) -> g n (snd h) v = option_map kind_of e) fs ->
  forall vs w w' vs' e, each_field f w fs vs = (w', vs', e) -> validate_fields g fs vs = option_map kind_of e.
Proof.
  induction 1 as [|[a t] fs H _ IH]; intros [|v vs] w w' vs' e; cbn [each_field validate_fields]; try (now intros [= <- <- <-]).
  cbn [snd] in H. destruct (f (NField a) t w v) as [[w1 v1] [e1|]] eqn:Ef; rewrite (H _ _ _ _ _ _ Ef); cbn [andthen option_map].
  - now intros [= <- <- <-].
  - destruct (each_field f w1 fs vs) as [[w2 l2] e2] eqn:El. intros [= <- <- <-]. apply (IH _ _ _ _ _ El).
Qed.

Lemma unique_kind n v : validate_unique_child_keys n v = option_map kind_of (hunique n v).
Proof. unfold hunique. destruct (validate_unique_child_keys n v) as [e|]; [|reflexivity]. cbn. now rewrite kind_of_rexn. Qed.

Lemma validate_pure t : pure E P -> forall n w v w' v' e, hvalidate E t n w v = (w', v', e) ->
  validate_node_tree pure_env t n v = option_map kind_of e.
Proof.
  intros Hp. induction t as [ |it| | | |t IH|t IH|k t IH|t IH|ts IH|e0|e0|fs IH] using ty_ind0; intros n w v w' v' e;
    cbn [hvalidate validate_node_tree hook pure_env]; match goal with |- context [hhook E ?t w v] => destruct (Hp t w v) as (w1 & ->); destruct (P t v) as [e1|] end;
    cbn [andthen option_map]; try (now intros [= <- <- <-]);
    rewrite unique_kind; (destruct (hunique n v) as [e1|]; cbn [andthen option_map]; [now intros [= <- <- <-]|]);
    try (now intros [= <- <- <-]).
  - destruct v; try (now intros [= <- <- <-]). destruct (hvalidate E t (NElem None) w1 v) as [[w2 x2] e2] eqn:Er.
    intros [= <- <- <-]. exact (IH _ _ _ _ _ _ Er).
  - destruct v; try (now intros [= <- <- <-]). destruct (each _ w1 vs) as [[w2 x2] e2] eqn:Er.
    intros [= <- <- <-]. exact (each_pure _ _ _ (fun w x w' x' e _ => IH (NElem None) w x w' x' e) _ _ _ _ Er).
  - destruct v; try (now intros [= <- <- <-]). destruct (each _ w1 vs) as [[w2 x2] e2] eqn:Er.
    intros [= <- <- <-]. exact (each_pure _ _ _ (fun w x w' x' e _ => IH (NElem None) w x w' x' e) _ _ _ _ Er).
  - destruct v; try (now intros [= <- <- <-]). match goal with |- context [each ?f w1 ?m] => destruct (each f w1 m) as [[w2 x2] e2] eqn:Er end.
    intros [= <- <- <-]. refine (each_pure _ _ _ _ _ _ _ _ Er). intros w0 [k x] w3 x3 e3 _. cbn [fst snd].
    destruct (hvalidate E t (NElem None) w0 x) as [[w4 x4] e4] eqn:E4. intros [= _ _ ->]. exact (IH _ _ _ _ _ _ E4).
  - destruct v; try (now intros [= <- <- <-]). destruct (each_field _ w1 fs vs) as [[w2 x2] e2] eqn:Er.
    intros [= <- <- <-]. exact (each_field_pure _ _ fs IH _ _ _ _ _ Er).
Qed.

Lemma candidate_pure t : pure E P -> forall w v w' v' e, hcandidate E t w v = (w', v', e) ->
  validate_candidate pure_env t v = option_map kind_of e.
Proof.
  intros Hp. induction t as [ |it| | | |t IH|t IH|k t IH|t IH|ts IH|e0|e0|fs IH] using ty_ind0; intros w v w' v' e;
    cbn [hcandidate validate_candidate hook pure_env]; match goal with |- context [hhook E ?t w v] => destruct (Hp t w v) as (w1 & ->); destruct (P t v) as [e1|] end;
    cbn [andthen option_map]; try (now intros [= <- <- <-]);
    try (now intros [= <- <- <-]).
  destruct v; try (now intros [= <- <- <-]). destruct (hcandidate E t w1 v) as [[w2 x2] e2] eqn:Er.
  intros [= <- <- <-]. exact (IH _ _ _ _ _ Er).
Qed.

Lemma hchange_pure t w r loc new back h h' wh whole s w' r' a old back' : pure E P ->
  get_at (value r) loc = Some old -> back new = Some old -> back' new = old -> (forall e, answer_of (h e) = h' (kind_of e)) ->
  hchange E t w r loc new back h wh whole s = (w', r', a) ->
  change pure_env t r loc new back' h' wh whole s = (r', answer_of a).
Proof.
  intros Hp Hg Hb Hb' Hh. unfold hchange, change, hvalidate_tree, validate_tree.
  destruct (hvalidate E t NRoot w (set_at (value r) loc new)) as [[w1 v1] e] eqn:Ev;
    pose proof (validate_quiet t (pure_quiet Hp) _ _ _ _ _ _ Ev) as ->; rewrite (validate_pure t Hp _ _ _ _ _ _ Ev).
  destruct e as [e|]; cbn [option_map].
  - rewrite (get_set _ _ _ _ Hg), Hb, set_twice, (set_back _ _ _ Hg). intros [= <- <- <-].
    now rewrite Hb', set_twice, (set_back _ _ _ Hg), Hh.
  - destruct wh as [p| |]; [destruct (notify_changed (modifications r) p whole) as [[m g]| |]|..]; intros [= <- <- <-]; reflexivity.
Qed.

Lemma thrown_of_pure e : rexn_of pure_env e = kind_of (hexn_of E e).
Proof. now destruct e. Qed.

Lemma put_pure read t w r p segs j w' r' a : pure E P -> typed t (value r) -> denotes p segs ->
  hput_or_patch E read t w r p j = (w', r', a) -> put_or_patch pure_env read t r p j = (r', answer_of a).
Proof.
  intros Hp Ht D. unfold hput_or_patch, put_or_patch.
  destruct (visit_path t (value r) p segs Ht D) as [(tr & t1 & n1 & v1 & rest & R & ->)|[[-> | ->] _]];
    try (intros [= <- <- <-]; reflexivity).
  cbn [pl_ctx pl_node pl_ty pl_val pl_loc]. destruct (is_node_read_only (ctx_along access0 tr) n1).
  { intros [= <- <- <-]. reflexivity. }
  destruct (reaches_get _ _ _ _ _ _ _ _ R Ht) as [Hg Ht1]. destruct (read t1 j v1) as [x [e|]].
  { intros [= <- <- <-]. now rewrite answer_caught, thrown_of_pure. }
  destruct (negb (preserves_identity n1 v1 x)).
  { intros [= <- <- <-]. reflexivity. }
  exact (hchange_pure _ _ _ _ _ _ _ caught _ _ _ _ _ _ v1 (fun _ => v1) Hp Hg eq_refl eq_refl answer_caught).
Qed.

Lemma post_pure t w r p segs j w' r' a : pure E P -> typed t (value r) -> denotes p segs ->
  hpost E t w r p j = (w', r', a) -> post pure_env t r p j = (r', answer_of a).
Proof.
  intros Hp Ht D. unfold hpost, post.
  destruct (visit_path t (value r) p segs Ht D) as [(tr & t1 & n1 & v1 & rest & R & ->)|[[-> | ->] _]];
    try (intros [= <- <- <-]; reflexivity).
  cbn [pl_ctx pl_node pl_ty pl_val pl_loc]. destruct (is_child_node_read_only (ctx_along access0 tr) n1).
  { intros [= <- <- <-]. reflexivity. }
  destruct (reaches_get _ _ _ _ _ _ _ _ R Ht) as [Hg Ht1].
  destruct t1 as [ |it| | | |te|te|k te|te|ts|e|e|fs]; try (intros [= <- <- <-]; reflexivity).
  destruct v1 as [b|z|b|b|s'| |v|vs|m|vs]; try (intros [= <- <- <-]; reflexivity).
  cbn [conv pure_env]. destruct (deser (hconv E) te j (default_of te)) as [c [e|]].
  { intros [= <- <- <-]. now rewrite answer_caught, thrown_of_pure. }
  destruct (check_duplicate_child_key n1 vs c) as [e|] eqn:Ed.
  { intros [= <- <- <-]. cbn [andthen]. now rewrite answer_caught, kind_of_rexn. }
  cbn [andthen]. destruct (hcandidate E te w c) as [[w1 c1] e] eqn:Ec; pose proof (candidate_quiet te (pure_quiet Hp) _ _ _ _ _ Ec) as ->;
    rewrite (candidate_pure te Hp _ _ _ _ _ Ec). destruct e as [e|]; cbn [option_map].
  { intros [= <- <- <-]. now rewrite answer_caught. }
  exact (hchange_pure _ _ _ _ _ _ _ caught _ _ _ _ _ _ (VSeq vs) pop_back Hp Hg (pop_app vs c)
      ltac:(unfold pop_back; now rewrite removelast_last) answer_caught).
Qed.

Lemma reset_pure t w r p segs w' r' a : pure E P -> typed t (value r) -> denotes p segs ->
  hreset_optional E t w r p = (w', r', a) -> reset_optional pure_env t r p = (r', answer_of a).
Proof.
  intros Hp Ht D. unfold hreset_optional, reset_optional.
  destruct (visit_path t (value r) p segs Ht D) as [(tr & t1 & n1 & v1 & rest & R & ->)|[[-> | ->] _]];
    try (intros [= <- <- <-]; reflexivity).
  cbn [pl_ctx pl_node pl_ty pl_val pl_loc]. destruct (is_node_read_only (ctx_along access0 tr) n1).
  { intros [= <- <- <-]. reflexivity. }
  destruct (reaches_get _ _ _ _ _ _ _ _ R Ht) as [Hg Ht1].
  destruct t1 as [ |it| | | |te|te|k te|te|ts|e|e|fs]; try (intros [= <- <- <-]; reflexivity).
  destruct (match v1 with VSome v => let '(w1, _, e1) := hcandidate E te w v in (w1, e1) | _ => (w, None) end) as [w1 e1] eqn:Ev.
  assert (match v1 with VSome v => validate_candidate pure_env te v | _ => None end = option_map kind_of e1) as ->.
  { destruct v1; try (injection Ev as <- <-; reflexivity). destruct (hcandidate E te w v1) as [[w0 c0] e0] eqn:E0.
    injection Ev as <- <-. exact (candidate_pure te Hp _ _ _ _ _ E0). }
  destruct e1 as [e|]; cbn [option_map andthen].
  { intros [= <- <- <-]. now rewrite answer_caught_del. }
  destruct (hcandidate E (TOpt te) w1 VNone) as [[w2 c2] e] eqn:Ec; pose proof (candidate_quiet (TOpt te) (pure_quiet Hp) _ _ _ _ _ Ec) as ->;
    rewrite (candidate_pure (TOpt te) Hp _ _ _ _ _ Ec). destruct e as [e|]; cbn [option_map].
  { intros [= <- <- <-]. now rewrite answer_caught_del. }
  exact (hchange_pure _ _ _ _ _ _ _ caught_del _ _ _ _ _ _ v1 (fun _ => v1) Hp Hg eq_refl eq_refl answer_caught_del).
Qed.

Lemma erase_pure t w r p loc old new w' r' a : pure E P -> get_at (value r) loc = Some old ->
  herase E t w r p loc old new = (w', r', a) -> erase pure_env t r p loc old new = (r', answer_of a).
Proof.
  intros Hp Hg. exact (hchange_pure _ _ _ _ _ _ _ caught_del _ _ _ _ _ _ old (fun _ => old) Hp Hg eq_refl eq_refl answer_caught_del).
Qed.

Lemma del_pure t w r p segs w' r' a : pure E P -> typed t (value r) -> denotes p segs ->
  hdel E t w r p = (w', r', a) -> del pure_env t r p = (r', answer_of a).
Proof.
  intros Hp Ht D. unfold hdel, del. destruct (view_empty p) eqn:Em; [now apply (reset_pure t w r p segs)|].
  unfold view_empty in Em. rewrite (denotes_size _ _ D) in Em. apply Nat.eqb_neq in Em.
  assert (Hne : segs <> []) by (intros ->; now apply Em).
  destruct (exists_last Hne) as (pre & s & Epre). subst segs.
  destruct (visit_parent t (value r) p pre s Ht D) as [(tr & t1 & n1 & v1 & rest & R & Hfr & ->)|[[-> | ->] _]];
    try (intros [= <- <- <-]; reflexivity).
  destruct (reaches_get _ _ _ _ _ _ _ _ R Ht) as [Hg Ht1].
  unfold hdelete_direct_child, delete_direct_child. cbn [pl_ctx pl_node pl_ty pl_val pl_loc pl_rest]. rewrite Hfr. cbv zeta.
  assert (Reset : hreset_optional E t w r p = (w', r', a) -> reset_optional pure_env t r p = (r', answer_of a)).
  { now apply (reset_pure t w r p (pre ++ [s])). }
  destruct t1 as [ |it| | | |te|te|k te|te|ts|e|e|fs]; destruct v1 as [b|z|b|b|s'| |v|vs|m|vs]; try exact Reset.
  - destruct (node_child_keys n1) as [|ck0 cks].
    + destruct (TextModel.parse_index s) as [i|]; [|now intros [= <- <- <-]].
      destruct (is_child_node_read_only _ n1); [now intros [= <- <- <-]|].
      destruct (nth_error vs (N.to_nat i)); [|now intros [= <- <- <-]].
      exact (erase_pure _ _ _ _ _ _ _ _ _ _ Hp Hg).
    + destruct (find_keyed _ vs s) as [[ck i]|]; [|now intros [= <- <- <-]].
      destruct (is_child_node_read_only _ n1); [now intros [= <- <- <-]|].
      exact (erase_pure _ _ _ _ _ _ _ _ _ _ Hp Hg).
  - destruct (node_child_keys n1) as [|ck0 cks].
    + destruct (TextModel.parse_index s) as [i|]; [|now intros [= <- <- <-]].
      destruct (is_child_node_read_only _ n1); now intros [= <- <- <-].
    + destruct (find_keyed _ vs s) as [[ck i]|]; [|now intros [= <- <- <-]].
      destruct (is_child_node_read_only _ n1); now intros [= <- <- <-].
  - destruct (map_find s m); [|now intros [= <- <- <-]].
    destruct (is_child_node_read_only _ n1); [now intros [= <- <- <-]|].
    exact (erase_pure _ _ _ _ _ _ _ _ _ _ Hp Hg).
Qed.

Lemma perform_pure t w r q w' r' a : pure E P -> typed t (value r) -> well_formed q ->
  hperform E t w r q = (w', r', a) -> perform pure_env t r q = (r', answer_of a).
Proof.
  intros Hp Ht (segs & D). unfold at_path in D. intros H.
  destruct q as [skip p|p j|p j|p j|p]; cbn [path_of hperform perform] in *.
  - injection H as <- <- <-. unfold hget. rewrite answer_of_answer. reflexivity.
  - exact (put_pure _ _ _ _ _ _ _ _ _ _ Hp Ht D H).
  - exact (post_pure _ _ _ _ _ _ _ _ _ Hp Ht D H).
  - exact (put_pure _ _ _ _ _ _ _ _ _ _ Hp Ht D H).
  - exact (del_pure _ _ _ _ _ _ _ _ Hp Ht D H).
Qed.

End Validators.
