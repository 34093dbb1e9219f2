(** Counterexamples. *)
From Coq Require Import String List NArith ZArith Arith Bool Lia.
From Verif Require Import Base PathModel PathSpec TrackerModel TrackerSpec EnumModel EnumSpec SerialModel SerialSpec SerialSamples
  ResourceModel ResourceSpec ResourceOpProofs ResourceSamples.
From Verif Require Base64Spec.
Import ListNotations.

Lemma at_denotes s segs p : path_meaning (txt s) = Some segs -> path_make (txt s) = POk p ->
  path_size p = List.length segs -> denotes (at_ s) segs.
Proof.
  intros M P Hs. exists path_default, (txt s), p, segs, (List.length segs).
  split; [assumption|]. split; [exact P|]. split; [|now rewrite firstn_all].
  unfold at_. rewrite P, <- Hs. apply view_start.
Qed.

Ltac denotes_at := eapply at_denotes; vm_compute; reflexivity.

Lemma root_schema : schema root_ty.
Proof.
  split.
  - cbn. unfold field_ok, int_type, of_type. cbn.
    repeat split; try lia; try discriminate; auto; try (intros d [= <-]; exact I); try (intros k []);
      repeat (constructor; [cbn; intuition discriminate|]); constructor.
  - cbn. unfold keys_ok. cbn. repeat split; auto. right.
    exists [(plain (txt "name") (VStr []), TStr); (plain (txt "n") (VInt 0), int32)]. split; [now left|].
    intros ck [<-|[]]. cbn. eexists. split; [reflexivity|auto].
Qed.

Lemma root_steady : steady root_ty /\ exactly_named root_ty.
Proof.
  split; cbn; repeat split; auto; try (intros ck []; subst; try intros f [=]; contradiction); try (intros ck [<-|[]] f [=]);
    intros ck [].
Qed.

Lemma root_typed : typed root_ty root_val.
Proof.
  cbn. unfold of_type. cbn. repeat split; try lia; auto; try (intros k [<-|[]]; reflexivity); intros k [].
Qed.

Lemma root_valid : valid E0 root_ty root_val.
Proof. apply validate_tree_none; [exact root_schema|exact root_typed|vm_compute; reflexivity]. Qed.

Ltac canon := let s := fresh in let H := fresh in intros s H; cbn in H;
  repeat (destruct H as [<-|H]; [intros Hd d rest [= <- <-]; auto; intros [=]|]); destruct H.

(** Aliases of an index and pollers. *)
Lemma alias_unseen : exists E t r q p l skip r' a,
  schema t /\ steady t /\ exactly_named t /\ typed t (value r) /\ valid E t (value r) /\
  well_formed q /\ (forall v, ~ resets_collection t v q) /\ denotes p l /\ canonical l /\
  perform E t r q = (r', a) /\ success a = true /\
  get E skip t r p <> get E skip t r' p /\ changed_since (modifications r') p (current (modifications r)) = Ok false.
Proof.
  exists E0, root_ty, root_res, (Put (at_ "/nums/00") (JInt 5)), (at_ "/nums/0"), [txt "nums"; txt "0"], true.
  eexists _, _. split; [exact root_schema|]. split; [exact (proj1 root_steady)|]. split; [exact (proj2 root_steady)|].
  split; [exact root_typed|]. split; [exact root_valid|]. split; [exists [txt "nums"; txt "00"]; denotes_at|].
  split; [intros v (p & segs & loc & te & v' & [=] & _)|]. split; [denotes_at|]. split; [canon|].
  split; [vm_compute; reflexivity|]. split; [reflexivity|]. split; [vm_compute; discriminate|vm_compute; reflexivity].
Qed.

(** Deleting an optional collection and pollers. *)
Lemma reset_unseen : exists E t r q p l skip r' a,
  schema t /\ steady t /\ exactly_named t /\ typed t (value r) /\ valid E t (value r) /\
  canonical_request q /\ denotes p l /\ canonical l /\
  perform E t r q = (r', a) /\ success a = true /\
  get E skip t r p <> get E skip t r' p /\ changed_since (modifications r') p (current (modifications r)) = Ok false.
Proof.
  exists E0, root_ty, root_res, (Delete (at_ "/ov")), (at_ "/ov/0"), [txt "ov"; txt "0"], true.
  eexists _, _. split; [exact root_schema|]. split; [exact (proj1 root_steady)|]. split; [exact (proj2 root_steady)|].
  split; [exact root_typed|]. split; [exact root_valid|]. split; [exists [txt "ov"]; split; [denotes_at|canon]|].
  split; [denotes_at|]. split; [canon|].
  split; [vm_compute; reflexivity|]. split; [reflexivity|]. split; [vm_compute; discriminate|vm_compute; reflexivity].
Qed.

Lemma two_keys_schema : schema two_keys_ty /\ typed two_keys_ty two_keys_val /\ valid E0 two_keys_ty two_keys_val.
Proof.
  assert (S : schema two_keys_ty).
  { split.
    - cbn. unfold field_ok. cbn. repeat split; try discriminate; auto;
      repeat (constructor; [cbn; intuition discriminate|]); constructor.
    - cbn. unfold keys_ok. cbn. repeat split; auto. right.
      exists [(plain (txt "a") (VStr []), TStr); (plain (txt "b") (VStr []), TStr)]. split; [now left|].
      intros ck [<-|[<-|[]]]; cbn; eexists; split; reflexivity || auto. }
  assert (T : typed two_keys_ty two_keys_val) by (cbn; repeat split; auto).
  split; [exact S|]. split; [exact T|]. apply validate_tree_none; [exact S|exact T|vm_compute; reflexivity].
Qed.

(** With two child keys, a put elsewhere changes what a path refers to. *)
Lemma two_keys_elsewhere : exists E t r q segs p l skip r' a,
  schema t /\ exactly_named t /\ typed t (value r) /\ valid E t (value r) /\
  (exists p' j, q = Put p' j) /\ at_path q segs /\ canonical segs /\ denotes p l /\ canonical l /\
  ~ at_or_above l segs /\ ~ at_or_above segs l /\
  perform E t r q = (r', a) /\ success a = true /\ get E skip t r p <> get E skip t r' p.
Proof.
  destruct two_keys_schema as (S & T & V).
  exists E0, two_keys_ty, (make_resource two_keys_val), (Put (at_ "/c/x/a") (JStr (txt "m"))), [txt "c"; txt "x"; txt "a"],
    (at_ "/c/m"), [txt "c"; txt "m"], true.
  eexists _, _. split; [exact S|]. split; [cbn; repeat split; auto; intros ck Hc; repeat (destruct Hc as [<-|Hc]; [intros f [=]|]); destruct Hc|]. split; [exact T|]. split; [exact V|].
  split; [eauto|]. split; [denotes_at|]. split; [canon|]. split; [denotes_at|]. split; [canon|].
  split; [intros [rest [=]]|]. split; [intros [rest [=]]|].
  split; [vm_compute; reflexivity|]. split; [reflexivity|]. vm_compute. discriminate.
Qed.

(** With two child keys, a put below an element changes the other key. *)
Lemma two_keys_changed : exists E t r q pre s rest tr te n vs ck i e r' a vs' e',
  schema t /\ typed t (value r) /\ valid E t (value r) /\ at_path q (pre ++ s :: rest) /\ rest <> [] /\
  reaches t NRoot (value r) pre tr (TSeq te) n (VSeq vs) /\
  In ck (node_child_keys n) /\ nth_error vs i = Some e /\ (exists ck', key_name (node_child_keys n) vs s ck' i) /\
  perform E t r q = (r', a) /\
  get_at (value r') (map snd tr) = Some (VSeq vs') /\ nth_error vs' i = Some e' /\
  key_of (ck_member ck) e' <> key_of (ck_member ck) e.
Proof.
  destruct two_keys_schema as (S & T & V).
  exists E0, two_keys_ty, (make_resource two_keys_val), (Put (at_ "/c/x/a") (JStr (txt "m"))), [txt "c"], (txt "x"), [txt "a"].
  exists [(NRoot, SField 0)], pair_ty, (NField (keyed_by [mkckey 0 None; mkckey 1 None] (plain (txt "c") (VSeq [])))),
    [pair "k" "x"; pair "y" "m"], (mkckey 0 None), 0, (pair "k" "x"). eexists _, _, _, _.
  split; [exact S|]. split; [exact T|]. split; [exact V|]. split; [cbn [app]; denotes_at|]. split; [discriminate|].
  split.
  { refine (reach_field _ NRoot _ 0 (keyed_by [mkckey 0 None; mkckey 1 None] (plain (txt "c") (VSeq []))) _ _ [] [] _ _ _ _ _ _ _); [reflexivity|reflexivity|intros j; lia|constructor]. }
  split; [now left|]. split; [reflexivity|]. split.
  { exists (mkckey 1 None), [mkckey 0 None], []. split; [reflexivity|]. split; [|split].
    - exists (pair "k" "x"). split; [reflexivity|]. exists (VStr (txt "x")). split; reflexivity.
    - intros j e Hj. lia.
    - intros c e [<-|[]] [<-|[<-|[]]] (k & [= <-] & [=]). }
  split; [vm_compute; reflexivity|]. split; [vm_compute; reflexivity|]. split; [reflexivity|]. vm_compute. discriminate.
Qed.

(** With two child keys, a put cannot always be repeated. *)
Lemma two_keys_repeat : exists E t r p j segs r' a,
  schema t /\ typed t (value r) /\ valid E t (value r) /\ denotes p segs /\
  put E t r p j = (r', a) /\ success a = true /\ put E t r' p j = (r', Answer s_method_not_allowed []).
Proof.
  destruct two_keys_schema as (S & T & V).
  exists E0, two_keys_ty, (make_resource two_keys_val), (at_ "/c/m/a"), (JStr (txt "m")), [txt "c"; txt "m"; txt "a"]. eexists _, _.
  split; [exact S|]. split; [exact T|]. split; [exact V|]. split; [denotes_at|].
  split; [vm_compute; reflexivity|]. split; [reflexivity|]. vm_compute. reflexivity.
Qed.

(** With a matcher that looks at more than the key, what was put may be gone. *)
Lemma matcher_gone : exists E t r p j segs r' a skip,
  schema t /\ typed t (value r) /\ valid E t (value r) /\ denotes p segs /\
  put E t r p j = (r', a) /\ success a = true /\ get E skip t r' p = Answer s_not_found [].
Proof.
  assert (S : schema matcher_ty).
  { split.
    - cbn. unfold field_ok. cbn. repeat split; try discriminate; auto;
      repeat (constructor; [cbn; intuition discriminate|]); constructor.
    - cbn. unfold keys_ok. cbn. repeat split; auto. right.
      exists [(plain (txt "a") (VStr []), TStr); (plain (txt "b") (VStr []), TStr)]. split; [now left|].
      intros ck [<-|[]]; cbn; eexists; split; reflexivity || auto. }
  assert (T : typed matcher_ty two_keys_val) by (cbn; repeat split; auto).
  exists E0, matcher_ty, (make_resource two_keys_val), (at_ "/c/m/b"), (JStr (txt "z")), [txt "c"; txt "m"; txt "b"]. eexists _, _, true.
  split; [exact S|]. split; [exact T|]. split; [apply validate_tree_none; [exact S|exact T|vm_compute; reflexivity]|]. split; [denotes_at|].
  split; [vm_compute; reflexivity|]. split; [reflexivity|]. vm_compute. reflexivity.
Qed.

(** A member put into a map of extra fields may have a declared name; then the
    enclosing object cannot be read any more. *)
Lemma extra_breaks_get : exists E t v qs r' answers p j r'' skip d,
  schema t /\ steady t /\ typed t v /\ valid E t v /\ Forall well_formed qs /\ well_formed (Put p j) /\
  get E skip t (make_resource v) p = Answer s_ok d /\
  perform_all E t (make_resource v) qs = (r', answers) /\ Forall (fun a => success a = true) answers /\
  put E t r' p j = (r'', Answer s_ok []) /\ get E skip t r'' p = Escapes XOther.
Proof.
  assert (S : schema extra_ty).
  { split.
    - cbn. unfold field_ok, int_type, of_type. cbn. repeat split; try lia; try discriminate; auto; try (intros k []);
      repeat (constructor; [cbn; intuition discriminate|]); constructor.
    - cbn. unfold keys_ok. cbn. repeat split; auto. }
  assert (T : typed extra_ty extra_val) by (cbn; unfold of_type; cbn; repeat split; try lia; auto; intros k []).
  exists E0, extra_ty, extra_val, [Put (at_ "/s/x") (JObj [(txt "a", JInt 5)])]. eexists _, _, (at_ "/"), (JObj []). eexists _, true, _.
  split; [exact S|]. split; [cbn; repeat split; auto; intros ck []|]. split; [exact T|]. split; [apply validate_tree_none; [exact S|exact T|vm_compute; reflexivity]|].
  split; [constructor; [exists [txt "s"; txt "x"]; denotes_at|constructor]|]. split; [exists []; denotes_at|].
  split; [vm_compute; reflexivity|]. split; [vm_compute; reflexivity|]. split; [repeat constructor|]. split; vm_compute; reflexivity.
Qed.

(** A put at a field does not run the validators of the field. *)
Lemma validators_bypassed : exists E t r p j segs r' tr a' t1 v1 x f,
  schema t /\ typed t (value r) /\ denotes p segs /\ put E t r p j = (r', Answer s_ok []) /\
  reaches t NRoot (value r) segs tr t1 (NField a') v1 /\ get_at (value r') (map snd tr) = Some x /\
  In f (a_validators a') /\ f v1 = Accept /\ f x = Reject.
Proof.
  exists E0, root_ty, root_res, (at_ "/lim"), (JInt 500), [txt "lim"]. eexists _.
  exists [(NRoot, SField 6)], (with_validator at_most_100 (plain (txt "lim") (VInt 0))), int32, (VInt 10), (VInt 500), at_most_100.
  split; [exact root_schema|]. split; [exact root_typed|]. split; [denotes_at|]. split; [vm_compute; reflexivity|]. split.
  { refine (reach_field _ NRoot _ 6 (with_validator at_most_100 (plain (txt "lim") (VInt 0))) _ _ [] [] _ _ _ _ _ _ _); [reflexivity|reflexivity| |constructor].
    intros j b u Hj. do 6 (destruct j as [|j]; [intros [= <- <-]; vm_compute; discriminate|]). lia. }
  split; [vm_compute; reflexivity|]. split; [now left|]. split; reflexivity.
Qed.

(** A put at an ancestor replaces a read-only field. *)
Lemma read_only_overwritten : exists E t r q segs loc t1 v1 r' a x,
  schema t /\ typed t (value r) /\ valid E t (value r) /\ well_formed q /\
  protected t (value r) segs /\ refers t (value r) segs loc t1 v1 /\
  perform E t r q = (r', a) /\ success a = true /\ get_at (value r') loc = Some x /\ x <> v1.
Proof.
  assert (S : schema ro_struct_ty).
  { split.
    - cbn. unfold field_ok, int_type, of_type. cbn. repeat split; try lia; try discriminate; auto; try (intros k []);
      repeat (constructor; [cbn; intuition discriminate|]); constructor.
    - cbn. unfold keys_ok. cbn. repeat split; auto. }
  assert (T : typed ro_struct_ty ro_struct_val) by (cbn; unfold of_type; cbn; repeat split; try lia; auto).
  assert (R : reaches ro_struct_ty NRoot ro_struct_val [txt "s"] [(NRoot, SField 0)] (TRec [(plain (txt "x") (VInt 0), int32)])
    (NField (read_only (plain (txt "s") (VRec [VInt 0])))) (VRec [VInt 1])).
  { refine (reach_field _ NRoot _ 0 (read_only (plain (txt "s") (VRec [VInt 0]))) _ _ [] [] _ _ _ _ _ _ _); [reflexivity|reflexivity|intros j; lia|constructor]. }
  exists E0, ro_struct_ty, (make_resource ro_struct_val), (Put (at_ "/") (JObj [(txt "s", JObj [(txt "x", JInt 2)])])), [txt "s"], [SField 0].
  eexists _, _, _, _, _.
  split; [exact S|]. split; [exact T|]. split; [apply validate_tree_none; [exact S|exact T|vm_compute; reflexivity]|]. split; [exists []; denotes_at|].
  split; [do 4 eexists; split; [exact R|left; eexists; split; reflexivity]|]. split; [do 2 eexists; split; [exact R|reflexivity]|].
  split; [vm_compute; reflexivity|]. split; [reflexivity|]. split; [vm_compute; reflexivity|discriminate].
Qed.

(** A member of a read-only struct can be written. *)
Lemma read_only_member_written : exists E t r p j segs s r',
  schema t /\ typed t (value r) /\ denotes p (segs ++ [s]) /\ protected t (value r) segs /\
  put E t r p j = (r', Answer s_ok []) /\ value r' <> value r.
Proof.
  assert (S : schema ro_struct_ty).
  { split.
    - cbn. unfold field_ok, int_type, of_type. cbn. repeat split; try lia; try discriminate; auto; try (intros k []);
      repeat (constructor; [cbn; intuition discriminate|]); constructor.
    - cbn. unfold keys_ok. cbn. repeat split; auto. }
  assert (T : typed ro_struct_ty ro_struct_val) by (cbn; unfold of_type; cbn; repeat split; try lia; auto).
  assert (R : reaches ro_struct_ty NRoot ro_struct_val [txt "s"] [(NRoot, SField 0)] (TRec [(plain (txt "x") (VInt 0), int32)])
    (NField (read_only (plain (txt "s") (VRec [VInt 0])))) (VRec [VInt 1])).
  { refine (reach_field _ NRoot _ 0 (read_only (plain (txt "s") (VRec [VInt 0]))) _ _ [] [] _ _ _ _ _ _ _); [reflexivity|reflexivity|intros j; lia|constructor]. }
  exists E0, ro_struct_ty, (make_resource ro_struct_val), (at_ "/s/x"), (JInt 2), [txt "s"], (txt "x"). eexists.
  split; [exact S|]. split; [exact T|]. split; [cbn [app]; denotes_at|].
  split; [do 4 eexists; split; [exact R|left; eexists; split; reflexivity]|].
  split; [vm_compute; reflexivity|vm_compute; discriminate].
Qed.

