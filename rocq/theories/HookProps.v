(** Requests with validators that are any functions: C147 to C150. *)
From Coq Require Import String List NArith ZArith Arith Bool Lia.
From Verif Require Import Base PathModel PathSpec TrackerModel TrackerSpec EnumModel SerialModel SerialSpec SerialSamples
  ResourceModel ResourceSpec ResourceAnswerSpec ResourceSamples ResourceRefutedProofs HookModel HookSpec HookProofs HookReasonProofs
  HookMainProofs HookRefutedProofs HookRestProofs HookSamples.
Import ListNotations.

(* ------------------------------------------------------------------ *)
(** ** C147 *)

(** With validators whose verdicts are [P], a conflict says why: the text is what
    the exception of the first objection says, up to the first zero. *)
Theorem conflict_says_why : forall (W : Type) (E : henv W) P, pure E P -> forall t w r q segs w' r' b,
  schema t -> typed t (value r) -> at_path q segs -> hperform E t w r q = (w', r', HAnswer s_conflict b) ->
  exists m what e, b = Text m /\ (e = HValidation what \/ e = HDuplicate what) /\ shown what m /\
    reason P (hconv E) (huser_exn E) t (value r) segs q e.
Proof.
  intros W E P Hp t w r q segs w' r' b Hs Ht D H.
  destruct (conflict_reason E P Hp t w r q segs w' r' b Hs Ht D H) as (m & e & H1 & (what & H2 & H3) & H4). eauto 10.
Qed.
Print Assumptions conflict_says_why.

Theorem reason_is_said : forall (W : Type) (E : henv W) P, pure E P -> forall t w r q segs what e m,
  schema t -> typed t (value r) -> at_path q segs -> reason P (hconv E) (huser_exn E) t (value r) segs q e ->
  (e = HValidation what \/ e = HDuplicate what) -> shown what m ->
  exists w', hperform E t w r q = (w', r, HAnswer s_conflict (Text m)).
Proof.
  intros W E P Hp t w r q segs what e m Hs Ht D Hr He Hm.
  exact (reason_conflict E P Hp t w r q segs e m Hs Ht D Hr (ex_intro _ what (conj He Hm))).
Qed.
Print Assumptions reason_is_said.

(* ------------------------------------------------------------------ *)
(** ** C148 *)

(** Validators that modify nothing, but may depend on and change other state. *)
Theorem quiet_validators_are_verdicts : forall (W : Type) (E : henv W) t w r q w' r' a,
  quiet E -> typed t (value r) -> well_formed q -> hperform E t w r q = (w', r', a) ->
  exists E', conv E' = hconv E /\ user_exn E' = kind_of (huser_exn E) /\ perform E' t r q = (r', answer_of a).
Proof. exact @perform_quiet. Qed.
Print Assumptions quiet_validators_are_verdicts.

Theorem quiet_failure_has_no_effect : forall (W : Type) (E : henv W) t w r q w' r' a,
  quiet E -> schema t -> typed t (value r) -> well_formed q -> hperform E t w r q = (w', r', a) -> hsuccess a = false -> r' = r.
Proof. exact @quiet_failed. Qed.
Print Assumptions quiet_failure_has_no_effect.

Theorem quiet_history_keeps_types : forall (W : Type) (E : henv W) t qs,
  quiet E -> schema t -> Forall well_formed qs -> forall w r w' r' answers, typed t (value r) ->
  hperform_all E t w r qs = (w', r', answers) -> typed t (value r').
Proof. exact @quiet_history. Qed.
Print Assumptions quiet_history_keeps_types.

Theorem quiet_other_locations_unchanged : forall (W : Type) (E : henv W) t w r q segs w' r' a loc t1 v1 loc', quiet E ->
  schema t -> typed t (value r) -> at_path q segs -> hperform E t w r q = (w', r', a) ->
  refers t (value r) segs loc t1 v1 -> ~ inside loc' loc -> ~ inside loc loc' ->
  (forall p, q = Delete p -> ~ later_element loc loc') -> get_at (value r') loc' = get_at (value r) loc'.
Proof. exact @quiet_frame. Qed.
Print Assumptions quiet_other_locations_unchanged.

Theorem quiet_read_only_rejects_writes : forall (W : Type) (E : henv W) t w r q segs w' r' a, quiet E ->
  schema t -> typed t (value r) -> at_path q segs -> modifying q -> protected t (value r) segs ->
  hperform E t w r q = (w', r', a) -> r' = r /\ hsuccess a = false.
Proof. exact @quiet_protected. Qed.
Print Assumptions quiet_read_only_rejects_writes.

Theorem quiet_child_key_immutable : forall (W : Type) (E : henv W) t w r q pre s rest tr tc n vs ck i w' r' a, quiet E ->
  schema t -> typed t (value r) -> at_path q (pre ++ s :: rest) ->
  (rest = [] -> forall p, q <> Delete p) -> reaches t NRoot (value r) pre tr tc n (VSeq vs) ->
  key_name (node_child_keys n) vs s ck i -> hperform E t w r q = (w', r', a) ->
  exists vs' e e', get_at (value r') (map snd tr) = Some (VSeq vs') /\ List.length vs' = List.length vs /\
    (forall j, j <> i -> nth_error vs' j = nth_error vs j) /\
    nth_error vs i = Some e /\ nth_error vs' i = Some e' /\ key_of (ck_member ck) e' = key_of (ck_member ck) e.
Proof. exact @quiet_key. Qed.
Print Assumptions quiet_child_key_immutable.

(* ------------------------------------------------------------------ *)
(** ** C149 *)

(** Validators that tidy up single values, an object they leave as it is. *)
Theorem tidying_requests : forall (W : Type) (E : henv W), leaf_only E -> settles E -> keeps_types E ->
  forall t w r q segs w' r' a,
  schema t -> typed t (value r) -> at_rest E t (value r) -> at_path q segs -> hperform E t w r q = (w', r', a) ->
  (hsuccess a = false /\ r' = r) \/
  (hsuccess a = true /\ ~ modifying q /\ r' = r) \/
  (hsuccess a = true /\ modifying q /\ typed t (value r') /\ at_rest E t (value r') /\
   exists loc y, lands E t (value r) segs q loc y /\ updated (value r) loc y (value r')).
Proof. exact @tidy_request. Qed.
Print Assumptions tidying_requests.

Theorem tidying_history : forall (W : Type) (E : henv W), leaf_only E -> settles E -> keeps_types E ->
  forall t qs, schema t -> Forall well_formed qs -> forall w r w' r' answers, typed t (value r) -> at_rest E t (value r) ->
  hperform_all E t w r qs = (w', r', answers) -> typed t (value r') /\ at_rest E t (value r').
Proof. exact @tidy_history. Qed.
Print Assumptions tidying_history.

(** A put or patch of an element found by its key leaves the key. *)
Theorem tidying_keeps_keys : forall (W : Type) (E : henv W), leaf_only E -> settles E -> keeps_types E ->
  forall t w r q segs w' r' a tr t1 k v1,
  schema t -> typed t (value r) -> at_rest E t (value r) -> at_path q segs ->
  (exists p j, q = Put p j \/ q = Patch p j) -> reaches t NRoot (value r) segs tr t1 (NElem (Some k)) v1 ->
  hperform E t w r q = (w', r', a) -> hsuccess a = true ->
  exists y key, get_at (value r') (map snd tr) = Some y /\ key_of k y = Some key /\ key_of k v1 = Some key.
Proof. exact @tidy_key. Qed.
Print Assumptions tidying_keeps_keys.

(** Unless the object was at rest, a refused request leaves changes. *)
Theorem refused_request_changes_siblings_refuted : exists (E : henv unit) t r q segs w w' r' a,
  leaf_only E /\ settles E /\ keeps_types E /\ schema t /\ typed t (value r) /\ at_path q segs /\
  hperform E t w r q = (w', r', a) /\ hsuccess a = false /\ value r' <> value r /\ modifications r' = modifications r.
Proof. exact refused_leaves_traces. Qed.
Print Assumptions refused_request_changes_siblings_refuted.

(** Keys are compared before they are tidied up. *)
Theorem tidied_duplicates_refuted : exists (E : henv unit) t r q segs w w' r' b,
  leaf_only E /\ settles E /\ keeps_types E /\ schema t /\ typed t (value r) /\ at_rest E t (value r) /\ at_path q segs /\
  hperform E t w r q = (w', r', HAnswer s_ok b) /\
  (exists t1 n1 vs ck, within t NRoot (value r') t1 n1 (VSeq vs) /\ In ck (node_child_keys n1) /\ ~ distinct_keys (ck_member ck) vs) /\
  exists q2 segs2 b2, at_path q2 segs2 /\ ~ at_or_above segs segs2 /\ ~ at_or_above segs2 segs /\
    snd (hperform E t w r q2) = HAnswer s_ok b2 /\
    snd (hperform E t w' r' q2) = HAnswer s_conflict (Text (txt "duplicate child key")).
Proof. exact duplicate_gets_in. Qed.
Print Assumptions tidied_duplicates_refuted.

(* ------------------------------------------------------------------ *)
(** ** C150 *)

(** Any validators. *)
Theorem refusals_are_silent : forall (W : Type) (E : henv W) t w r q w' r' a,
  typed t (value r) -> well_formed q -> hperform E t w r q = (w', r', a) -> hsuccess a = false ->
  modifications r' = modifications r.
Proof. exact @refused_silent. Qed.
Print Assumptions refusals_are_silent.

Theorem not_allowed_runs_nothing : forall (W : Type) (E : henv W) t w r q w' r' b,
  typed t (value r) -> well_formed q -> hperform E t w r q = (w', r', HAnswer s_method_not_allowed b) -> r' = r /\ w' = w.
Proof. exact @method_not_allowed_nothing. Qed.
Print Assumptions not_allowed_runs_nothing.

(** The part a refused put or patch was about is what it was. *)
Theorem refused_target_restored : forall (W : Type) (E : henv W) t w r q segs w' r' a tr t1 n1 v1,
  typed t (value r) -> at_path q segs ->
  (exists p j, q = Put p j \/ q = Patch p j) -> reaches t NRoot (value r) segs tr t1 n1 v1 ->
  hperform E t w r q = (w', r', a) -> hsuccess a = false -> a <> HEscapes HUB -> get_at (value r') (map snd tr) = Some v1.
Proof. exact @written_restored. Qed.
Print Assumptions refused_target_restored.

Theorem refused_delete_restored : forall (W : Type) (E : henv W) t w r p segs w' r' a,
  typed t (value r) -> denotes p segs -> hdel E t w r p = (w', r', a) -> hsuccess a = false ->
  r' = r \/ (exists pre tr t1 n1 v1, (pre = segs \/ exists s, segs = pre ++ [s]) /\ reaches t NRoot (value r) pre tr t1 n1 v1 /\
     (get_at (value r') (map snd tr) = Some v1 \/ a = HEscapes HUB)).
Proof.
  intros W E t w r p segs w' r' a Ht D H Hf.
  exact (refused_restored E t w r (Delete p) segs w' r' a Ht D (fun _ _ H => ltac:(discriminate H)) H Hf).
Qed.
Print Assumptions refused_delete_restored.

(** A refused post may keep the refused element and remove another one. *)
Theorem refused_post_removes_another_refuted : exists (E : henv unit) t r p j segs w w' r' b tr te n1 vs c x,
  schema t /\ typed t (value r) /\ denotes p segs /\ hpost E t w r p j = (w', r', HAnswer s_conflict b) /\
  reaches t NRoot (value r) segs tr (TSeq te) n1 (VSeq vs) /\ deser (hconv E) te j (default_of te) = (c, None) /\
  In x vs /\ ~ In c vs /\
  exists vs', get_at (value r') (map snd tr) = Some (VSeq vs') /\ In c vs' /\ ~ In x vs' /\
    (forall w1, exists w2, hvalidate_tree E t w1 (value r) = (w2, value r, None)).
Proof. exact refused_post_swaps. Qed.
Print Assumptions refused_post_removes_another_refuted.

(** A validator that removes the part makes the rollback undefined. *)
Theorem rollback_undefined_refuted :
  (exists (E : henv unit) t r p j segs w, schema t /\ typed t (value r) /\ denotes p segs /\
     (forall t' w1 v1 w2 v2, hhook E t' w1 v1 <> (w2, v2, Some HUB)) /\ snd (hput E t w r p j) = HEscapes HUB) /\
  (exists (E : henv unit) t r p j segs w, schema t /\ typed t (value r) /\ denotes p segs /\
     (forall t' w1 v1 w2 v2, hhook E t' w1 v1 <> (w2, v2, Some HUB)) /\ snd (hpost E t w r p j) = HEscapes HUB).
Proof. exact removed_target_undefined. Qed.
Print Assumptions rollback_undefined_refuted.

(** Parts changed by validators are not announced. *)
Theorem validator_changes_unannounced_refuted : exists (E : henv unit) t r q segs w w' r' a p l skip,
  schema t /\ typed t (value r) /\ at_path q segs /\ canonical segs /\ denotes p l /\ canonical l /\
  hperform E t w r q = (w', r', a) /\ hsuccess a = true /\
  ~ at_or_above l segs /\ ~ at_or_above segs l /\
  hget E skip t r p <> hget E skip t r' p /\ changed_since (modifications r') p (current (modifications r)) = Ok false.
Proof. exact changes_unannounced. Qed.
Print Assumptions validator_changes_unannounced_refuted.

(** The key in the path may be gone after a successful put. *)
Theorem validator_changes_key_refuted : exists (E : henv unit) t r p j segs w w' r' b skip,
  schema t /\ typed t (value r) /\ denotes p segs /\ hput E t w r p j = (w', r', HAnswer s_ok b) /\
  hget E skip t r' p = HAnswer s_not_found (Dumped []).
Proof. exact key_rewritten. Qed.
Print Assumptions validator_changes_key_refuted.

(* ------------------------------------------------------------------ *)
(** ** Examples *)

Example ex_pure : pure small_env small_verdict.
Proof. intros t w v. now exists w. Qed.
Example ex_conflict : hperform small_env root_ty tt root_res (Put (at_ "/items/q/n") (JInt 101)) =
  (tt, root_res, HAnswer s_conflict (Text (txt "too large"))).
Proof. vm_compute. reflexivity. Qed.
Example ex_post_taken : hperform small_env root_ty tt root_res (Post (at_ "/items") (item_doc "q" 5)) =
  (tt, root_res, HAnswer s_conflict (Text (txt "duplicate child key"))).
Proof. vm_compute. reflexivity. Qed.
Example ex_delete_says : hperform small_env root_ty tt (make_resource (VRec [VSeq [item "p" 1; item "q" 200]; VSeq []; VMap []; VNone; VInt 0; VRec [VInt 0]; VInt 0]))
    (Delete (at_ "/items/p")) =
  (tt, make_resource (VRec [VSeq [item "p" 1; item "q" 200]; VSeq []; VMap []; VNone; VInt 0; VRec [VInt 0]; VInt 0]), HAnswer s_conflict (Text (txt "too large"))).
Proof. vm_compute. reflexivity. Qed.

Example ex_quiet : quiet count_env.
Proof. intros t w v w' v' e H. cbn in H. destruct t; now inversion H. Qed.
(** The same put is accepted, then refused. *)
Example ex_count : map hsuccess (snd (hperform_all count_env two_ty 0 (make_resource (two_val 1 2))
    [Put (at_ "/a") (JInt 3); Put (at_ "/b") (JInt 4); Put (at_ "/") (JInt 4); Put (at_ "/a") (JInt 5); Patch (at_ "/b") (JInt 6);
     Put (at_ "/a") (JInt 7); Put (at_ "/a") (JInt 3)])) =
  [true; true; false; true; true; false; false].
Proof. vm_compute. reflexivity. Qed.

Example ex_cut_env : leaf_only cut_env /\ settles cut_env /\ keeps_types cut_env /\ at_rest cut_env two_ty (two_val 1 100).
Proof. exact (conj cut_leaf (conj cut_settles (conj cut_keeps (two_at_rest 1 100 ltac:(lia) ltac:(lia))))). Qed.
Example ex_cut : let '(_, r1, a1) := hperform cut_env two_ty tt (make_resource (two_val 1 2)) (Put (at_ "/b") (JInt 500)) in
  let '(_, r2, a2) := hperform cut_env two_ty tt r1 (Put (at_ "/b") (JInt (-5))) in
  (value r1, a1, r2, a2) = (two_val 1 100, plain_answer s_ok, r1, HAnswer s_conflict (Text (txt "negative"))).
Proof. vm_compute. reflexivity. Qed.
Example ex_cut_post : let '(_, r1, a1) := hperform cut_env nums_ty tt (make_resource (nums_val [7]%Z)) (Post (at_ "/nums") (JInt 101)) in
  (value r1, a1) = (nums_val [7; 100]%Z, plain_answer s_created).
Proof. vm_compute. reflexivity. Qed.
(** The put at an element with its own key. *)
Example ex_cut_key : let '(_, r1, a1) := hperform cut_env root_ty tt root_res (Put (at_ "/items/p") (item_doc "p" 300)) in
  (get_at (value r1) [SField 0; SIndex 0], a1) = (Some (item "p" 100), plain_answer s_ok).
Proof. vm_compute. reflexivity. Qed.
(** A name that would become the key is not accepted: it is compared as it is. *)
Example ex_cut_other_key : snd (hperform cut_env root_ty tt root_res (Put (at_ "/items/p") (item_doc "P" 3))) = plain_answer s_method_not_allowed.
Proof. vm_compute. reflexivity. Qed.
Example ex_even : let '(_, r1, a1) := hperform even_env two_ty tt (make_resource (two_val 1 1)) (Put (at_ "/b") (JInt 2)) in
  (value r1, a1) = (two_val 2 2, plain_answer s_ok).
Proof. vm_compute. reflexivity. Qed.
