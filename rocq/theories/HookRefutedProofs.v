(** Counterexamples with validators that modify what they validate. *)
From Coq Require Import String List NArith ZArith Arith Bool Lia.
From Verif Require Import Base PathModel PathSpec TrackerModel TrackerSpec EnumModel EnumSpec SerialModel SerialSpec SerialSamples
  ResourceModel ResourceSpec ResourceOpProofs ResourceSamples ResourceRefutedProofs ResourceAnswerSpec HookModel HookSpec HookSamples
  HookRestProofs EnumProofs.
From Verif Require Base64Spec.
Import ListNotations.

Ltac facts := cbn; unfold field_ok, keys_ok, int_type, of_type; cbn;
  repeat split; try lia; try discriminate; auto; try (intros d [= <-]; exact I); try (intros k []);
      repeat (constructor; [cbn; intuition discriminate|]); try constructor.

Lemma two_schema : schema two_ty. Proof. split; facts. Qed.
Lemma nums_schema : schema nums_ty. Proof. split; facts. Qed.
Lemma two_typed a b : (0 <= a <= 1000)%Z -> (0 <= b <= 1000)%Z -> typed two_ty (two_val a b).
Proof. intros H1 H2. cbn. unfold of_type. cbn. repeat split; auto; try lia; intros k []. Qed.
Lemma nums_typed l : Forall (fun z => 0 <= z <= 1000)%Z l -> typed nums_ty (nums_val l).
Proof.
  intros H. cbn. repeat split; auto; try (intros k []). induction H as [|z l Hz H IH]; cbn; [exact I|].
  split; [|exact IH]. unfold of_type. cbn. lia.
Qed.

Lemma cut_leaf : leaf_only cut_env.
Proof. intros t v H w w' v' e He. cbn in He. destruct t; cbn -[txt str_eqb] in H; try (now elim H); destruct v; now inversion He. Qed.
Lemma cut_settles : settles cut_env.
Proof.
  intros t w v w' v' H w1 w1' v1 e1 H1. cbn -[txt str_eqb] in H, H1. destruct t, v; cbn -[txt str_eqb] in H; try (inversion H; subst; now inversion H1).
  - destruct (z <? 0)%Z eqn:Ez; [discriminate|]. inversion H; subst. cbn in H1. destruct (Z.min z 100 <? 0)%Z eqn:Em.
    + apply Z.ltb_lt in Em. apply Z.ltb_ge in Ez. lia.
    + inversion H1. f_equal. lia.
  - destruct (str_eqb s (txt "P")) eqn:Es; inversion H; subst; [vm_compute in H1; now inversion H1|]. cbn -[txt str_eqb] in H1. rewrite Es in H1. now inversion H1.
Qed.
Lemma cut_keeps : keeps_types cut_env.
Proof.
  intros t w v w' v' e H Ht. cbn -[txt str_eqb] in H. destruct t, v; cbn -[txt str_eqb] in H; try (inversion H; subst; exact Ht).
  - destruct (z <? 0)%Z eqn:Ez; inversion H; subst; auto. apply Z.ltb_ge in Ez. cbn in *. unfold of_type in *.
    unfold ity_min in *. destruct (isigned t) eqn:Es; lia.
  - destruct (str_eqb s (txt "P")) eqn:Es; inversion H; subst; exact Ht.
Qed.
(* more *)

Lemma cut_int b z : (0 <= z <= 100)%Z -> resting cut_env (TInt b) (VInt z).
Proof.
  intros Hz. apply resting_leaf; [exact I|]. intros w w' v' e H. cbn -[txt str_eqb] in H. destruct (z <? 0)%Z eqn:Ez; inversion H; [reflexivity|].
  f_equal. lia.
Qed.
Lemma cut_str s : s <> txt "P" -> resting cut_env TStr (VStr s).
Proof.
  intros Hs. apply resting_leaf; [exact I|]. intros w w' v' e H. cbn -[txt str_eqb] in H. destruct (str_eqb s (txt "P")) eqn:Es; inversion H; [|reflexivity].
  elim Hs. now apply str_eqb_true.
Qed.
Lemma cut_other t v : ~ scalar t -> unmodified cut_env t v.
Proof. apply cut_leaf. Qed.

Lemma two_at_rest a b : (0 <= a <= 100)%Z -> (0 <= b <= 100)%Z -> at_rest cut_env two_ty (two_val a b).
Proof.
  intros Ha Hb. apply at_rest_resting, resting_rec; [apply cut_leaf; intros []|].
  intros [|[|[|i]]] at0 t v; cbn; try discriminate; intros [= <- <-] [= <-]; now apply cut_int.
Qed.

(** A refused request leaves what validators did to other parts. *)
Lemma refused_leaves_traces : exists (E : henv unit) t r q segs w w' r' a,
  leaf_only E /\ settles E /\ keeps_types E /\ schema t /\ typed t (value r) /\ at_path q segs /\
  hperform E t w r q = (w', r', a) /\ hsuccess a = false /\ value r' <> value r /\ modifications r' = modifications r.
Proof.
  exists cut_env, two_ty, (make_resource (two_val 200 1)), (Put (at_ "/b") (JInt (-1))), [txt "b"], tt.
  eexists _, _, _. split; [exact cut_leaf|]. split; [exact cut_settles|]. split; [exact cut_keeps|]. split; [exact two_schema|].
  split; [apply two_typed; lia|]. split; [denotes_at|]. split; [vm_compute; reflexivity|]. split; [reflexivity|]. split; [discriminate|reflexivity].
Qed.

(** A refused post keeps the new element and removes another one. *)
Lemma refused_post_swaps : exists (E : henv unit) t r p j segs w w' r' b tr te n1 vs c x,
  schema t /\ typed t (value r) /\ denotes p segs /\ hpost E t w r p j = (w', r', HAnswer s_conflict b) /\
  reaches t NRoot (value r) segs tr (TSeq te) n1 (VSeq vs) /\ deser (hconv E) te j (default_of te) = (c, None) /\
  In x vs /\ ~ In c vs /\
  exists vs', get_at (value r') (map snd tr) = Some (VSeq vs') /\ In c vs' /\ ~ In x vs' /\
    (forall w1, exists w2, hvalidate_tree E t w1 (value r) = (w2, value r, None)).
Proof.
  exists sort_env, nums_ty, (make_resource (nums_val [3; 5; 9]%Z)), (at_ "/nums"), (JInt 4), [txt "nums"], tt.
  eexists _, _, _, [(NRoot, SField 0)], int32, (NField (plain (txt "nums") (VSeq []))),
    [VInt 3; VInt 5; VInt 9], (VInt 4), (VInt 9).
  split; [exact nums_schema|]. split; [apply nums_typed; repeat constructor; lia|]. split; [denotes_at|].
  split; [vm_compute; reflexivity|]. split; [apply (reach_field _ _ _ 0 (plain (txt "nums") (VSeq [])) (TSeq int32) (VSeq [VInt 3; VInt 5; VInt 9])); [reflexivity|reflexivity|intros k b u Hk; inversion Hk|apply reach_here]|].
  split; [vm_compute; reflexivity|]. split; [cbn; auto|]. split; [cbn; intuition discriminate|].
  eexists. split; [vm_compute; reflexivity|]. split; [cbn; auto|]. split; [cbn; intuition discriminate|].
  intros []. eexists. vm_compute. reflexivity.
Qed.

(** A validator that removes the part makes the rollback undefined. *)
Lemma removed_target_undefined :
  (exists (E : henv unit) t r p j segs w, schema t /\ typed t (value r) /\ denotes p segs /\
     (forall t' w1 v1 w2 v2, hhook E t' w1 v1 <> (w2, v2, Some HUB)) /\ snd (hput E t w r p j) = HEscapes HUB) /\
  (exists (E : henv unit) t r p j segs w, schema t /\ typed t (value r) /\ denotes p segs /\
     (forall t' w1 v1 w2 v2, hhook E t' w1 v1 <> (w2, v2, Some HUB)) /\ snd (hpost E t w r p j) = HEscapes HUB).
Proof.
  assert (No : forall t' w1 v1 w2 v2, hhook drop_env t' w1 v1 <> (w2, v2, Some HUB)).
  { intros t' w1 v1 w2 v2. cbn. destruct t', v1; cbn; try discriminate. destruct (forallb positive vs); discriminate. }
  split.
  - exists drop_env, nums_ty, (make_resource (nums_val [1]%Z)), (at_ "/nums/0"), (JInt 0), [txt "nums"; txt "0"], tt.
    split; [exact nums_schema|]. split; [apply nums_typed; repeat constructor; lia|]. split; [denotes_at|]. split; [exact No|].
    vm_compute. reflexivity.
  - exists drop_env, nums_ty, (make_resource (nums_val []%Z)), (at_ "/nums"), (JInt 0), [txt "nums"], tt.
    split; [exact nums_schema|]. split; [apply nums_typed; constructor|]. split; [denotes_at|]. split; [exact No|].
    vm_compute. reflexivity.
Qed.

(** Other parts change without announcement. *)
Lemma changes_unannounced : exists (E : henv unit) t r q segs w w' r' a p l skip,
  schema t /\ typed t (value r) /\ at_path q segs /\ canonical segs /\ denotes p l /\ canonical l /\
  hperform E t w r q = (w', r', a) /\ hsuccess a = true /\
  ~ at_or_above l segs /\ ~ at_or_above segs l /\
  hget E skip t r p <> hget E skip t r' p /\ changed_since (modifications r') p (current (modifications r)) = Ok false.
Proof.
  exists even_env, two_ty, (make_resource (two_val 1 1)), (Put (at_ "/b") (JInt 2)), [txt "b"], tt.
  eexists _, _, _, (at_ "/a"), [txt "a"], true. split; [exact two_schema|]. split; [apply two_typed; lia|]. split; [denotes_at|].
  split; [canon|]. split; [denotes_at|]. split; [canon|]. split; [vm_compute; reflexivity|]. split; [reflexivity|].
  split; [intros [rest [=]]|]. split; [intros [rest [=]]|]. split; [vm_compute; discriminate|vm_compute; reflexivity].
Qed.

(** The key of the element the path names is changed. *)
Lemma key_rewritten : exists (E : henv unit) t r p j segs w w' r' b skip,
  schema t /\ typed t (value r) /\ denotes p segs /\ hput E t w r p j = (w', r', HAnswer s_ok b) /\
  hget E skip t r' p = HAnswer s_not_found (Dumped []).
Proof.
  exists rename_env, root_ty, root_res, (at_ "/items/p/n"), (JInt 200), [txt "items"; txt "p"; txt "n"], tt.
  eexists _, _, _, true. split; [exact root_schema|]. split; [exact root_typed|]. split; [denotes_at|]. split; [vm_compute; reflexivity|].
  vm_compute. reflexivity.
Qed.

(** Keys are compared before they are tidied up.  Two equal ones get in, and then
    requests are refused that have nothing to do with them. *)
Lemma duplicate_gets_in : exists (E : henv unit) t r q segs w w' r' b,
  leaf_only E /\ settles E /\ keeps_types E /\ schema t /\ typed t (value r) /\ at_rest E t (value r) /\ at_path q segs /\
  hperform E t w r q = (w', r', HAnswer s_ok b) /\
  (exists t1 n1 vs ck, within t NRoot (value r') t1 n1 (VSeq vs) /\ In ck (node_child_keys n1) /\ ~ distinct_keys (ck_member ck) vs) /\
  exists q2 segs2 b2, at_path q2 segs2 /\ ~ at_or_above segs segs2 /\ ~ at_or_above segs2 segs /\
    snd (hperform E t w r q2) = HAnswer s_ok b2 /\
    snd (hperform E t w' r' q2) = HAnswer s_conflict (Text (txt "duplicate child key")).
Proof.
  exists cut_env, root_ty, root_res, (Put (at_ "/items") (JArr [item_doc "P" 1; item_doc "p" 2])), [txt "items"], tt.
  eexists _, _, _. split; [exact cut_leaf|]. split; [exact cut_settles|]. split; [exact cut_keeps|]. split; [exact root_schema|].
  split; [exact root_typed|]. split.
  { apply at_rest_resting, resting_rec; [apply cut_leaf; intros []|].
    intros [|[|[|[|[|[|[|[|i]]]]]]]] at0 t v; cbn; try discriminate; intros [= <- <-] [= <-]; try (apply cut_int; lia).
    - apply (resting_seq cut_env (TSeq item_ty) item_ty); [now left|apply cut_leaf; intros []|].
      intros v [<-|[<-|[]]]; (apply resting_rec; [apply cut_leaf; intros []|]);
        intros [|[|[|i]]] at1 t v; cbn; try discriminate; intros [= <- <-] [= <-]; try (apply cut_int; lia); apply cut_str; discriminate.
    - apply (resting_seq cut_env (TSeq int32) int32); [now left|apply cut_leaf; intros []|].
      intros v [<-|[<-|[]]]; apply cut_int; lia.
    - apply resting_map; [apply cut_leaf; intros []|]. intros k v [[= <- <-]|[[= <- <-]|[]]]; apply cut_int; lia.
    - apply resting_opt_some; [apply cut_leaf; intros []|].
      apply (resting_seq cut_env (TSeq int32) int32); [now left|apply cut_leaf; intros []|].
      intros v [<-|[]]; apply cut_int; lia.
    - apply resting_rec; [apply cut_leaf; intros []|].
      intros [|[|i]] at1 t v; cbn; try discriminate; intros [= <- <-] [= <-]; apply cut_int; lia. }
  split; [denotes_at|]. split; [vm_compute; reflexivity|]. split.
  - eexists (TSeq item_ty), _, _, (mkckey 0 None). split; [eapply (within_field _ _ _ 0); [reflexivity|reflexivity|apply within_self]|].
    split; [left; reflexivity|]. intros H. apply (H 0%nat 1%nat (item "p" 1) (item "p" 2) (VStr (txt "p")) ltac:(discriminate)); reflexivity.
  - exists (Put (at_ "/lim") (JInt 3)), [txt "lim"]. eexists. split; [denotes_at|]. split; [intros [rest [=]]|]. split; [intros [rest [=]]|].
    split; vm_compute; reflexivity.
Qed.
