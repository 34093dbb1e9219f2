(** C39-C46, C78, C79: resources. *)
From Coq Require Import String List NArith ZArith Arith Bool Lia.
From Verif Require Import Base PathModel PathSpec TrackerModel TrackerSpec EnumModel SerialModel SerialSpec SerialSamples
  ResourceModel ResourceSpec ResourceMainProofs ResourceLawProofs ResourceRefutedProofs ResourceSamples.
Import ListNotations.

(* ------------------------------------------------------------------ *)
(** ** C39 *)

Theorem failed_request_has_no_effect : forall E t r q r' a, schema t -> typed t (value r) -> well_formed q ->
  perform E t r q = (r', a) -> success a = false -> r' = r.
Proof. exact failed_unchanged. Qed.
Print Assumptions failed_request_has_no_effect.

(* ------------------------------------------------------------------ *)
(** ** C40 *)

Theorem history_keeps_validity : forall E t qs, schema t -> Forall well_formed qs ->
  forall r r' answers, typed t (value r) -> valid E t (value r) ->
  perform_all E t r qs = (r', answers) -> typed t (value r') /\ valid E t (value r').
Proof. exact history_valid. Qed.
Print Assumptions history_keeps_validity.

(** Even an invalid object is valid after a successful change. *)
Theorem successful_change_is_valid : forall E t r q r' a, schema t -> typed t (value r) -> well_formed q ->
  perform E t r q = (r', a) -> modifying q -> success a = true -> valid E t (value r').
Proof. exact success_valid. Qed.
Print Assumptions successful_change_is_valid.

(** The serialization validators of a field are not run by a put at the field. *)
Theorem field_validators_bypassed_refuted : exists E t r p j segs r' tr a' t1 v1 x f,
  schema t /\ typed t (value r) /\ denotes p segs /\ put E t r p j = (r', Answer s_ok []) /\
  reaches t NRoot (value r) segs tr t1 (NField a') v1 /\ get_at (value r') (map snd tr) = Some x /\
  In f (a_validators a') /\ f v1 = Accept /\ f x = Reject.
Proof. exact validators_bypassed. Qed.
Print Assumptions field_validators_bypassed_refuted.

(* ------------------------------------------------------------------ *)
(** ** C41 *)

(** Locations that are not the target, above it or in it; nor, for a delete,
    later elements of the same sequence, which move. *)
Theorem other_locations_unchanged : forall E t r q segs r' a loc t1 v1 loc',
  schema t -> typed t (value r) -> at_path q segs -> perform E t r q = (r', a) ->
  refers t (value r) segs loc t1 v1 -> ~ inside loc' loc -> ~ inside loc loc' ->
  (forall p, q = Delete p -> ~ later_element loc loc') ->
  get_at (value r') loc' = get_at (value r) loc'.
Proof. exact frame. Qed.
Print Assumptions other_locations_unchanged.

(** Other paths read the same. *)
Theorem other_paths_read_same : forall E t r q segs r' a skip p l,
  schema t -> steady t -> exactly_named t -> typed t (value r) ->
  at_path q segs -> canonical segs -> perform E t r q = (r', a) ->
  denotes p l -> canonical l -> ~ at_or_above l segs -> ~ at_or_above segs l ->
  (forall pre s p', q = Delete p' -> segs = pre ++ [s] -> at_or_above pre l -> named_children t (value r) pre) ->
  get E skip t r p = get E skip t r' p.
Proof. exact get_elsewhere. Qed.
Print Assumptions other_paths_read_same.

(** Not so with two child keys. *)
Theorem other_paths_two_keys_refuted : exists E t r q segs p l skip r' a,
  schema t /\ exactly_named t /\ typed t (value r) /\ valid E t (value r) /\
  (exists p' j, q = Put p' j) /\ at_path q segs /\ canonical segs /\ denotes p l /\ canonical l /\
  ~ at_or_above l segs /\ ~ at_or_above segs l /\
  perform E t r q = (r', a) /\ success a = true /\ get E skip t r p <> get E skip t r' p.
Proof. exact two_keys_elsewhere. Qed.
Print Assumptions other_paths_two_keys_refuted.

(* ------------------------------------------------------------------ *)
(** ** C42 *)

(** A client remembers the generation after some history of requests; more
    requests follow.  Every path that now reads differently reports a change. *)
Theorem changes_visible_to_pollers : forall E t v0 qs0 r answers0 qs r' answers,
  schema t -> steady t -> exactly_named t -> typed t v0 ->
  Forall canonical_request qs0 -> keeps_collections E t (make_resource v0) qs0 ->
  perform_all E t (make_resource v0) qs0 = (r, answers0) ->
  Forall canonical_request qs -> keeps_collections E t r qs -> perform_all E t r qs = (r', answers) ->
  (N.of_nat (length qs0 + length qs) + 1 < gen_modulus)%N ->
  forall skip p l, denotes p l -> canonical l -> get E skip t r p <> get E skip t r' p ->
  changed_since (modifications r') p (current (modifications r)) = Ok true.
Proof. exact pollers_notified. Qed.
Print Assumptions changes_visible_to_pollers.

Theorem alias_hides_change_refuted : exists E t r q p l skip r' a,
  schema t /\ steady t /\ exactly_named t /\ typed t (value r) /\ valid E t (value r) /\
  well_formed q /\ (forall v, ~ resets_collection t v q) /\ denotes p l /\ canonical l /\
  perform E t r q = (r', a) /\ success a = true /\
  get E skip t r p <> get E skip t r' p /\ changed_since (modifications r') p (current (modifications r)) = Ok false.
Proof. exact alias_unseen. Qed.
Print Assumptions alias_hides_change_refuted.

Theorem reset_hides_change_refuted : exists E t r q p l skip r' a,
  schema t /\ steady t /\ exactly_named t /\ typed t (value r) /\ valid E t (value r) /\
  canonical_request q /\ denotes p l /\ canonical l /\
  perform E t r q = (r', a) /\ success a = true /\
  get E skip t r p <> get E skip t r' p /\ changed_since (modifications r') p (current (modifications r)) = Ok false.
Proof. exact reset_unseen. Qed.
Print Assumptions reset_hides_change_refuted.

(* ------------------------------------------------------------------ *)
(** ** C43 *)

Theorem read_only_rejects_writes : forall E t r q segs, schema t -> typed t (value r) -> at_path q segs -> modifying q ->
  protected t (value r) segs -> perform E t r q = (r, Answer s_method_not_allowed []).
Proof. exact protected_refused. Qed.
Print Assumptions read_only_rejects_writes.

(** Nothing can be posted to a collection with a read-only subtree. *)
Theorem read_only_subtree_rejects_post : forall E t r p j segs, typed t (value r) -> denotes p segs ->
  subtree_protected t (value r) segs -> post E t r p j = (r, Answer s_method_not_allowed []).
Proof. exact subtree_post_refused. Qed.
Print Assumptions read_only_subtree_rejects_post.

(** Where a path leads nowhere nothing succeeds. *)
Theorem success_needs_target : forall E t r q segs r' a, schema t -> typed t (value r) -> at_path q segs -> modifying q ->
  perform E t r q = (r', a) -> success a = true -> resolves t (value r) segs.
Proof. exact success_resolves. Qed.
Print Assumptions success_needs_target.

(** Writes aimed elsewhere do change read-only fields: a put at an ancestor
    replaces them, and read_only does not extend to the members of a struct. *)
Theorem read_only_indirect_refuted :
  (exists E t r q segs loc t1 v1 r' a x,
     schema t /\ typed t (value r) /\ valid E t (value r) /\ well_formed q /\
     protected t (value r) segs /\ refers t (value r) segs loc t1 v1 /\
     perform E t r q = (r', a) /\ success a = true /\ get_at (value r') loc = Some x /\ x <> v1) /\
  (exists E t r p j segs s r',
     schema t /\ typed t (value r) /\ denotes p (segs ++ [s]) /\ protected t (value r) segs /\
     put E t r p j = (r', Answer s_ok []) /\ value r' <> value r).
Proof. exact (conj read_only_overwritten read_only_member_written). Qed.
Print Assumptions read_only_indirect_refuted.

(* ------------------------------------------------------------------ *)
(** ** C44 *)

(** The request goes through the element that [s] names; it may not delete the
    element.  The key that named it stays, and so do the other elements. *)
Theorem child_key_immutable : forall E t r q pre s rest tr tc n vs ck i r' a,
  schema t -> typed t (value r) -> at_path q (pre ++ s :: rest) ->
  (rest = [] -> forall p, q <> Delete p) -> reaches t NRoot (value r) pre tr tc n (VSeq vs) ->
  key_name (node_child_keys n) vs s ck i -> perform E t r q = (r', a) ->
  exists vs' e e', get_at (value r') (map snd tr) = Some (VSeq vs') /\ length vs' = length vs /\
    (forall j, j <> i -> nth_error vs' j = nth_error vs j) /\
    nth_error vs i = Some e /\ nth_error vs' i = Some e' /\ key_of (ck_member ck) e' = key_of (ck_member ck) e.
Proof. exact key_immutable. Qed.
Print Assumptions child_key_immutable.

(** Another child key of the element may change. *)
Theorem other_child_key_refuted : exists E t r q pre s rest tr te n vs ck i e r' a vs' e',
  schema t /\ typed t (value r) /\ valid E t (value r) /\ at_path q (pre ++ s :: rest) /\ rest <> [] /\
  reaches t NRoot (value r) pre tr (TSeq te) n (VSeq vs) /\
  In ck (node_child_keys n) /\ nth_error vs i = Some e /\ (exists ck', key_name (node_child_keys n) vs s ck' i) /\
  perform E t r q = (r', a) /\
  get_at (value r') (map snd tr) = Some (VSeq vs') /\ nth_error vs' i = Some e' /\
  key_of (ck_member ck) e' <> key_of (ck_member ck) e.
Proof. exact two_keys_changed. Qed.
Print Assumptions other_child_key_refuted.

(* ------------------------------------------------------------------ *)
(** ** C45 *)

Theorem put_then_get_returns_it : forall E t r p j segs r' a skip,
  schema t -> steady t -> typed t (value r) -> denotes p segs -> put E t r p j = (r', a) -> success a = true ->
  exists loc t1 v1 x, refers t (value r) segs loc t1 v1 /\ deser (conv E) t1 j v1 = (x, None) /\
    refers t (value r') segs loc t1 x /\
    get E skip t r' p = match serialize (conv E) skip t1 x with Ok d => Answer s_ok (accept d) | _ => Escapes XOther end /\
    exists r'', put E t r' p j = (r'', Answer s_ok []) /\ value r'' = value r'.
Proof. exact put_then_get. Qed.
Print Assumptions put_then_get_returns_it.

(** Without extra fields the get succeeds. *)
Theorem put_then_get_succeeds : forall E t r p j segs r' a skip,
  schema t -> steady t -> typed t (value r) -> denotes p segs -> put E t r p j = (r', a) -> success a = true ->
  (forall loc t1 v1, refers t (value r) segs loc t1 v1 -> extra_free t1) ->
  exists loc t1 v1 x d, refers t (value r) segs loc t1 v1 /\ deser (conv E) t1 j v1 = (x, None) /\
    serialize (conv E) skip t1 x = Ok d /\ get E skip t r' p = Answer s_ok (accept d).
Proof. exact put_then_get_plain. Qed.
Print Assumptions put_then_get_succeeds.

Theorem patch_then_get_returns_it : forall E t r p j segs r' a skip,
  schema t -> steady t -> typed t (value r) -> denotes p segs -> patch_op E t r p j = (r', a) -> success a = true ->
  exists loc t1 v1 x, refers t (value r) segs loc t1 v1 /\ patch (conv E) t1 j v1 = (x, None) /\
    refers t (value r') segs loc t1 x /\
    get E skip t r' p = match serialize (conv E) skip t1 x with Ok d => Answer s_ok (accept d) | _ => Escapes XOther end.
Proof. exact patch_then_get. Qed.
Print Assumptions patch_then_get_returns_it.

(** With two child keys the put may not be repeatable; with a matcher that looks
    at more than the key the value may not be found again. *)
Theorem put_twice_two_keys_refuted : exists E t r p j segs r' a,
  schema t /\ typed t (value r) /\ valid E t (value r) /\ denotes p segs /\
  put E t r p j = (r', a) /\ success a = true /\ put E t r' p j = (r', Answer s_method_not_allowed []).
Proof. exact two_keys_repeat. Qed.
Print Assumptions put_twice_two_keys_refuted.

Theorem put_then_get_matcher_refuted : exists E t r p j segs r' a skip,
  schema t /\ typed t (value r) /\ valid E t (value r) /\ denotes p segs /\
  put E t r p j = (r', a) /\ success a = true /\ get E skip t r' p = Answer s_not_found [].
Proof. exact matcher_gone. Qed.
Print Assumptions put_then_get_matcher_refuted.

(** A member put into a map of extra fields may have a declared name; then the
    enclosing object cannot be read any more. *)
Theorem put_then_get_extra_refuted : exists E t v qs r' answers p j r'' skip d,
  schema t /\ steady t /\ typed t v /\ valid E t v /\ Forall well_formed qs /\ well_formed (Put p j) /\
  get E skip t (make_resource v) p = Answer s_ok d /\
  perform_all E t (make_resource v) qs = (r', answers) /\ Forall (fun a => success a = true) answers /\
  put E t r' p j = (r'', Answer s_ok []) /\ get E skip t r'' p = Escapes XOther.
Proof. exact extra_breaks_get. Qed.
Print Assumptions put_then_get_extra_refuted.

(* ------------------------------------------------------------------ *)
(** ** C46 *)

Theorem post_appends_one : forall E t r p j segs r' a, schema t -> typed t (value r) -> denotes p segs ->
  post E t r p j = (r', a) -> success a = true ->
  exists tr te n vs c, reaches t NRoot (value r) segs tr (TSeq te) n (VSeq vs) /\
    deser (conv E) te j (default_of te) = (c, None) /\ a = Answer s_created [] /\
    get_at (value r') (map snd tr) = Some (VSeq (vs ++ [c])) /\
    (steady t -> node_child_keys n = [] -> forall s, index_name s (length vs) ->
       refers t (value r') (segs ++ [s]) (map snd tr ++ [SIndex (length vs)]) te c) /\
    (steady t -> forall ck, node_child_keys n = [ck] -> ck_match ck = None -> forall s, key_of (ck_member ck) c = Some (VStr s) ->
       refers t (value r') (segs ++ [s]) (map snd tr ++ [SIndex (length vs)]) te c).
Proof. exact post_appends. Qed.
Print Assumptions post_appends_one.

(** A delete resets the optional the path refers to, or takes the child it
    refers to out of its collection. *)
Theorem delete_removes_one : forall E t r p segs r' a, schema t -> typed t (value r) -> denotes p segs ->
  del E t r p = (r', a) -> success a = true ->
  (exists loc te v, refers t (value r) segs loc (TOpt te) v /\ get_at (value r') loc = Some VNone) \/
  (exists pre s loc, segs = pre ++ [s] /\
     ((exists te ms ms' v, refers t (value r) pre loc (TMap te) (VMap (ms ++ (s, v) :: ms')) /\
         get_at (value r') loc = Some (VMap (ms ++ ms'))) \/
      (exists te vs vs' v, refers t (value r) pre loc (TSeq te) (VSeq (vs ++ v :: vs')) /\
         refers t (value r) segs (loc ++ [SIndex (length vs)]) te v /\
         get_at (value r') loc = Some (VSeq (vs ++ vs'))))).
Proof. exact delete_removes. Qed.
Print Assumptions delete_removes_one.

(* ------------------------------------------------------------------ *)
(** ** C78 *)

Theorem requests_never_undefined : forall E t r q r' a, schema t -> sound_env E -> typed t (value r) -> well_formed q ->
  perform E t r q = (r', a) -> a <> Escapes XUB.
Proof. exact never_undefined. Qed.
Print Assumptions requests_never_undefined.

(* ------------------------------------------------------------------ *)
(** ** C79 *)

Theorem get_answers_the_value : forall E skip t r p segs, schema t -> typed t (value r) -> denotes p segs ->
  (forall loc t1 v1, refers t (value r) segs loc t1 v1 ->
     (forall j, serialize (conv E) skip t1 v1 = Ok j -> get E skip t r p = Answer s_ok (accept j)) /\
     (~ writable skip t1 None v1 -> get E skip t r p = Escapes XOther)) /\
  (~ resolves t (value r) segs -> get E skip t r p = Answer s_not_found []).
Proof. exact get_answers. Qed.
Print Assumptions get_answers_the_value.

Theorem missing_target_not_found : forall E t r q segs, schema t -> typed t (value r) -> at_path q segs ->
  ~ resolves t (value r) segs -> (forall p, q <> Delete p) -> perform E t r q = (r, Answer s_not_found []).
Proof. exact unresolved_answers. Qed.
Print Assumptions missing_target_not_found.

(* ------------------------------------------------------------------ *)
(** ** Examples *)

Example ex_root : schema root_ty /\ steady root_ty /\ exactly_named root_ty /\ typed root_ty root_val /\ valid E0 root_ty root_val.
Proof.
  exact (conj root_schema (conj (proj1 root_steady) (conj (proj2 root_steady) (conj root_typed root_valid)))).
Qed.
Example ex_sound_env : sound_env E0.
Proof.
  split; [discriminate|]. intros t v. unfold E0, root_hook. cbn [hook].
  repeat match goal with |- context [match ?x with _ => _ end] => destruct x end; discriminate.
Qed.

Definition statuses (x : resource * list answer) : list (option status) :=
  map (fun a => match a with Answer s _ => Some s | Escapes _ => None end) (snd x).

Example ex_requests : statuses (perform_all E0 root_ty root_res [
    Get true (at_ "/"); Put (at_ "/items/p/name") (JStr (txt "z")); Put (at_ "/items/p/n") (JInt 101);
    Put (at_ "/items/p/n") (JInt 50); Post (at_ "/items") (item_doc "p" 1); Post (at_ "/items") (item_doc "r" 3);
    Delete (at_ "/items/q"); Delete (at_ "/nums/9"); Delete (at_ "/m/u"); Put (at_ "/ro") (JInt 1); Put (at_ "/sub/x") (JInt 1);
    Patch (at_ "/items/p") (JObj [(txt "n", JInt 9)]); Put (at_ "/") (JObj []); Post (at_ "/m") (JInt 1); Get true (at_ "/nope")]) =
  map Some [s_ok; s_method_not_allowed; s_conflict; s_ok; s_conflict; s_created; s_no_content; s_not_found; s_no_content;
    s_method_not_allowed; s_method_not_allowed; s_ok; s_bad_request; s_method_not_allowed; s_not_found].
Proof. vm_compute. reflexivity. Qed.

Example ex_after : value (fst (perform_all E0 root_ty root_res [
    Put (at_ "/items/p/n") (JInt 50); Post (at_ "/items") (item_doc "r" 3); Delete (at_ "/items/q"); Delete (at_ "/m/u")])) =
  VRec [VSeq [item "p" 50; item "r" 3]; VSeq [VInt 7; VInt 8]; VMap [(txt "w", VInt 6)]; VSome (VSeq [VInt 9]); VInt 3;
        VRec [VInt 4]; VInt 10].
Proof. vm_compute. reflexivity. Qed.

(** A history as in C42: the path that changed and one that did not. *)
Example ex_poll :
  let qs0 := [Put (at_ "/nums/1") (JInt 1)] in
  let qs := [Put (at_ "/items/p/n") (JInt 50); Post (at_ "/items") (item_doc "r" 3)] in
  let r := fst (perform_all E0 root_ty root_res qs0) in
  let r' := fst (perform_all E0 root_ty r qs) in
  Forall canonical_request qs /\ keeps_collections E0 root_ty r qs /\
  get E0 true root_ty r (at_ "/items/p") <> get E0 true root_ty r' (at_ "/items/p") /\
  changed_since (modifications r') (at_ "/items/p") (current (modifications r)) = Ok true /\
  changed_since (modifications r') (at_ "/nums/1") (current (modifications r)) = Ok false.
Proof.
  cbv zeta. split; [|split].
  - repeat constructor; eexists; split; unfold at_path; cbn [path_of]; try denotes_at; canon.
  - cbn [keeps_collections]. split; [intros (p & segs & loc & te & v & [=] & _)|]. split; [|exact I].
    intros (p & segs & loc & te & v & [=] & _).
  - split; [vm_compute; discriminate|]. split; vm_compute; reflexivity.
Qed.

(** Protected paths. *)
Example ex_protected : protected root_ty root_val [txt "sub"; txt "x"].
Proof.
  exists [(NRoot, SField 5); (NField (subtree_ro (plain (txt "sub") (VRec [VInt 0]))), SField 0)].
  exists int32, (NField (plain (txt "x") (VInt 0))), (VInt 4). split.
  - refine (reach_field _ NRoot _ 5 (subtree_ro (plain (txt "sub") (VRec [VInt 0]))) _ _ [txt "x"] _ _ _ _ _ _ _ _); [reflexivity|reflexivity| |].
    + intros j b u Hj. do 5 (destruct j as [|j]; [intros [= <- <-]; vm_compute; discriminate|]). lia.
    + refine (reach_field _ _ _ 0 (plain (txt "x") (VInt 0)) _ _ [] [] _ _ _ _ _ _ _); [reflexivity|reflexivity|intros j; lia|constructor].
  - right. eexists _, _. split; [right; left; reflexivity|reflexivity].
Qed.
